(** Hubbard rings with symmetric files, and two walkers that differ by a translation. *)
From Coq Require Import ZArith List Bool Lia Reals Lra Permutation FunctionalExtensionality.
From Coquelicot Require Import Complex.
From Verif Require Import Base.ZLoop Base.Checked Base.RSum Proj.Model Proj.Spec Proj.Proofs Pf.Pfaffian Pf.Spec Pf.Proofs Pf.ProofsSeq
  Slater.Model Slater.Spec Slater.Cases Rbm.Model Rbm.Spec Rbm.Proofs Rbm.Cases Samp.Model Samp.Spec Green.Model Green.Spec Green.Core Green.Cases
  Ham.Model Ham.Spec Grd.Model Grd.Spec Grd.Cases Sym.Model Sym.Spec Sym.ProofsPf Sym.Cases Inv.Spec Inv.Proofs Inv.ProofsHam.
From Verif Require Slater.ProofsDer Green.Proofs SR.Proofs.
Notation Ceq := SR.Proofs.Ceq (only parsing).
Import ListNotations.
Local Open Scope Z_scope.

(** rows exchanged by s *)
Lemma kept_by {A} n (row image : Z -> A) s : permutes n s -> (forall k, 0 <= k < n -> image k = row (s k)) -> kept n row image.
Proof.
  intros P E. unfold kept. rewrite (map_ext_in image (fun k => row (s k))) by (intros k Hk; apply zrange_in in Hk; now apply E). rewrite <- map_map. apply Permutation_map. apply Permutation_sym. now apply permutes_perm.
Qed.

(** ** the antiperiodic ring of Sym/Cases.v *)
(** row k of a family with one bond per site *)
Definition bond_r (k c : Z) : Z := if c =? 0 then Z.min k ((k + 1) mod 4) else Z.max k ((k + 1) mod 4).
(** hoppings: direction k / 8, spin k / 4 mod 2, from site k mod 4; negative across the boundary *)
Definition hop_r (k c : Z) : Z := let i := k mod 4 in let j := (k + 1) mod 4 in let s := (k / 4) mod 2 in
  if c =? 0 then (if k / 8 =? 0 then i else j) else if c =? 2 then (if k / 8 =? 0 then j else i) else s.
Definition amp_r (k : Z) : Z := if k mod 4 =? 3 then -1 else 1.
(** pair hoppings in both directions *)
Definition pair_r (k c : Z) : Z := if (k / 4 =? 0) && (c =? 0) || negb (k / 4 =? 0) && negb (c =? 0) then k mod 4 else (k + 1) mod 4.
(** four-operator terms c+_i,up c_i+1,up c+_i+1,down c_i+2,down, negative once across the boundary *)
Definition all_r (k c : Z) : Z := if c =? 0 then k else if (c =? 2) || (c =? 4) then (k + 1) mod 4 else if c =? 6 then (k + 2) mod 4 else if (c =? 1) || (c =? 3) then 0 else 1.
Definition amp4_r (k : Z) : Z := if 2 <=? k then -1 else 1.
Definition H_r : terms := Terms 4 (fun k => k) (fun _ => 5%R) 4 bond_r (fun _ => 1%R) 4 bond_r (fun _ => 2%R)
  16 hop_r (fun k => RtoC (IZR (amp_r k))) 8 pair_r (fun _ => 3%R) 4 bond_r (fun _ => 4%R) 4 all_r (fun k => RtoC (IZR (amp4_r k))).
Lemma sixteen k : 0 <= k < 16 -> exists a b, 0 <= a < 4 /\ 0 <= b < 4 /\ k = 4 * a + b.
Proof. intros H. exists (k / 4), (k mod 4). pose proof (Z.mod_pos_bound k 4). pose proof (Z.div_mod k 4). split; [split; [apply Z.div_pos; lia|apply Z.div_lt_upper_bound; lia]|]. split; lia. Qed.
(** row k after the translation by g *)
Definition turned (g k : Z) : Z := k / 4 * 4 + turn g (k mod 4).
Lemma turned_permutes g n : 0 <= n -> permutes (4 * n) (turned g).
Proof.
  intros Hn. split.
  - intros k Hk. unfold site, turned, turn in *. pose proof (Z.mod_pos_bound (k mod 4 + g) 4). assert (0 <= k / 4 < n) by (split; [apply Z.div_pos; lia|apply Z.div_lt_upper_bound; lia]). lia.
  - intros k l Hk Hl E. unfold turned in E. pose proof (Z.mod_pos_bound k 4). pose proof (Z.mod_pos_bound l 4). pose proof (proj1 (turn_permutes g) (k mod 4)). pose proof (proj1 (turn_permutes g) (l mod 4)). unfold site in *.
    assert (D : k / 4 = l / 4) by lia. rewrite D in E. pose proof (proj2 (turn_permutes g) (k mod 4) (l mod 4)) as I. unfold site in I. rewrite (Z.div_mod k 4), (Z.div_mod l 4) by lia. rewrite D. rewrite I by lia. reflexivity.
Qed.
Lemma scale1 a b c : RtoC (IZR (a * (b * c))) = Cmult (RtoC (IZR a)) (RtoC (IZR b * IZR c)).
Proof. rewrite !mult_IZR. apply Ceq; cbn; ring. Qed.
Lemma H_r_sites : sites_ok Vr H_r.
Proof.
  constructor; unfold Ham.Spec.site, Ham.Spec.spin; change (sites Vr) with 4; intros k Hk.
  - exact Hk.
  - change (0 <= k < 4) in Hk. each4 Hk; cbv; intuition discriminate.
  - change (0 <= k < 4) in Hk. each4 Hk; cbv; intuition discriminate.
  - destruct (sixteen k Hk) as (a & b & Ha & Hb & ->). each4 Ha; each4 Hb; cbv; intuition discriminate.
  - change (0 <= k < 8) in Hk. each8 Hk; cbv; intuition discriminate.
  - change (0 <= k < 4) in Hk. each4 Hk; cbv; intuition discriminate.
  - change (0 <= k < 4) in Hk. each4 Hk; cbv; intuition discriminate.
Qed.
Lemma H_r_spins : spins_kept H_r. Proof. split; intros k Hk; [reflexivity|split; reflexivity]. Qed.
Lemma H_r_symmetric g : 0 <= g < 4 -> symmetric_files Vr g H_r.
Proof.
  intros Hg. constructor; unfold H_r; cbn [NIntra Intra ParaIntra NInter Inter ParaInter NHund Hund ParaHund NTransfer Transfer ParaTransfer NPair Pair ParaPair NExchange Exchange ParaExchange NInterAll InterAll ParaInterAll]; cbv zeta.
  - apply (kept_by _ _ _ (turned g) (turned_permutes g 1 ltac:(lia))). intros k Hk. f_equal. each4 Hg; each4 Hk; reflexivity.
  - apply (kept_by _ _ _ (turned g) (turned_permutes g 1 ltac:(lia))). intros k Hk. f_equal. each4 Hg; each4 Hk; reflexivity.
  - apply (kept_by _ _ _ (turned g) (turned_permutes g 1 ltac:(lia))). intros k Hk. f_equal. each4 Hg; each4 Hk; reflexivity.
  - apply (kept_by _ _ _ (turned g) (turned_permutes g 4 ltac:(lia))). intros k Hk. rewrite <- scale1. destruct (sixteen k Hk) as (a & b & Ha & Hb & ->). f_equal; [do 2 f_equal|]; each4 Hg; each4 Ha; each4 Hb; reflexivity.
  - apply (kept_by _ _ _ (turned g) (turned_permutes g 2 ltac:(lia))). intros k Hk. f_equal. each4 Hg; each8 Hk; reflexivity.
  - apply (kept_by _ _ _ (turned g) (turned_permutes g 1 ltac:(lia))). intros k Hk. f_equal. each4 Hg; each4 Hk; reflexivity.
  - apply (kept_by _ _ _ (turned g) (turned_permutes g 1 ltac:(lia))). intros k Hk. rewrite <- !mult_IZR, <- RtoC_mult, <- mult_IZR. f_equal; [do 2 f_equal|]; each4 Hg; each4 Hk; reflexivity.
Qed.
