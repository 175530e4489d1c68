(** Hamiltonians that flip spins on the two sites of Gfz/Cases.v. *)
From Coq Require Import ZArith List Bool Lia Reals Lra Permutation.
From Coquelicot Require Import Complex.
From Verif Require Import Base.ZLoop Base.RSum Slater.Model Samp.Model Green.Model Ham.Model Fsz.Spec Fsz.Cases Gfz.Model Gfz.Spec Gfz.Proofs Gfz.Cases Hfz.Model Hfz.Spec Hfz.Proofs.
From Verif Require SR.Proofs.
Notation Ceq := SR.Proofs.Ceq (only parsing).
Import ListNotations.
Local Open Scope Z_scope.

Definition zero1 (_ : Z) : Z := 0.
Definition zero2 (_ _ : Z) : Z := 0.
(** two terms of each kind; the hops and the first two-body line flip spins (line of the manual's InterAll example) *)
Definition hop_f (k c : Z) : Z := if k =? 0 then (if c =? 1 then 1 else if c =? 2 then 1 else 0) else (if c =? 0 then 1 else if c =? 3 then 1 else 0).
Definition four_f (k c : Z) : Z := if k =? 0 then nth (Z.to_nat c) [0; 0; 0; 1; 1; 1; 1; 0] 0 else nth (Z.to_nat c) [0; 1; 1; 1; 1; 0; 0; 0] 0.
Definition H_f : terms := Terms 2 (fun k => k) (fun k => IZR (2 + k)) 2 (fun k c => (k + c) mod 2) (fun _ => 1%R) 2 (fun k c => (k + c) mod 2) (fun _ => 3%R) 2 hop_f (fun k => (1, IZR k)%R)
  2 (fun k c => (k + c) mod 2) (fun _ => 3%R) 2 (fun k c => (k + c) mod 2) (fun _ => 4%R) 2 four_f (fun k => (IZR k, 1)%R).
Lemma one_two_f k : 0 <= k < 2 -> k = 0 \/ k = 1. Proof. lia. Qed.
Lemma H_f_sites : fsites_ok (fsites Vg) H_f.
Proof.
  constructor; cbn [H_f NIntra Intra NInter Inter NHund Hund NTransfer Transfer NPair Pair NExchange Exchange NInterAll InterAll]; intros k Hk; destruct (one_two_f k Hk) as [-> | ->]; unfold fsite, site_spin; change (fsites Vg) with 2; cbv; intuition discriminate.
Qed.
(** the second thread runs the first iteration of every loop *)
Definition P_f (w0 w1 : fwork) : fsched := FSched 2 (fun l t => if t =? 0 then [1] else [0]) (fun t => if t =? 0 then w0 else w1).
Lemma P_f_ok w0 w1 : fexecution (fcount H_f) (P_f w0 w1).
Proof.
  intros l Hl. change (zrange 0 (fthreads (P_f w0 w1))) with [0; 1]. replace (fcount H_f l) with 2; [cbn; apply perm_swap|].
  unfold fcount. repeat (destruct (_ =? _); [reflexivity|]). reflexivity.
Qed.
(** up electrons on both sites: repulsion 1 + 1, Hund - 3 - 3 *)
Lemma diagonal_f cnt : sampled_fsz Vg Gg (wg cnt) (RtoC (-30)) -> fvalue Vg (fdiagonal (fsites Vg) H_f) (config Vg (wg cnt)) = RtoC (-4).
Proof.
  intros HS. unfold fdiagonal. rewrite !fvalue_app, !fvalue_flat. cbn [H_f NIntra NInter NHund]. change (zrange 0 2) with [0; 1]. cbn [csum].
  rewrite !(f_intra_value Vg Vg_wf Gg (wg cnt) _ HS H_f H_f_sites), !(f_inter_value Vg Vg_wf Gg (wg cnt) _ HS H_f H_f_sites), !(f_hund_value Vg Vg_wf Gg (wg cnt) _ HS H_f H_f_sites) by (cbn; lia).
  unfold w_intra, w_inter, w_hund. cbn [H_f Intra ParaIntra Inter ParaInter Hund ParaHund]. change (fsites Vg) with 2.
  change (Samp.Model.eleNum (wg cnt)) with eg. unfold eg. cbn. apply Ceq; cbn; lra.
Qed.
(** one hop that flips the spin, coefficient 2 *)
Definition H_hop : terms := Terms 0 zero1 (fun _ => 0%R) 0 zero2 (fun _ => 0%R) 0 zero2 (fun _ => 0%R) 1 hop_f (fun _ => RtoC 2) 0 zero2 (fun _ => 0%R) 0 zero2 (fun _ => 0%R) 0 zero2 (fun _ => RtoC 0).
Lemma H_hop_sites : fsites_ok (fsites Vg) H_hop.
Proof.
  constructor; cbn [H_hop NIntra Intra NInter Inter NHund Hund NTransfer Transfer NPair Pair NExchange Exchange NInterAll InterAll]; intros k Hk; try lia. replace k with 0 by lia. unfold site_spin; change (fsites Vg) with 2; cbv; intuition discriminate.
Qed.
Lemma value_hop cnt : fvalue Vg (fhamiltonian (fsites Vg) H_hop) (config Vg (wg cnt)) = RtoC (- (12 * exp (-1))).
Proof.
  unfold fhamiltonian, fdiagonal, fhopping. cbn [H_hop NIntra NInter NHund NTransfer NPair NExchange NInterAll]. change (zrange 0 0) with (@nil Z). change (zrange 0 1) with [0]. cbn [flat_map app].
  unfold f_transfer, fvalue. cbn [app csum fst snd]. change (Transfer H_hop 0 0 + Transfer H_hop 0 1 * fsites Vg, Transfer H_hop 0 2 + Transfer H_hop 0 3 * fsites Vg) with (2, 1).
  rewrite value_g. cbn [H_hop ParaTransfer]. apply Ceq; cbn; ring.
Qed.
(** two up electrons: S^z = 1, the program adds 2 *)
Lemma sz_refuted : exists V G w ip z, wf_fwave V /\ sampled_fsz V G w ip /\ calculate_sz_fsz G (Samp.Model.eleNum w) = Some z /\ RtoC z <> fvalue V (spin_z (fsites V)) (config V w).
Proof.
  destruct Vg_sampled as (cnt & HS). destruct (fsz_ok Vg Vg_wf Gg (wg cnt) _ HS) as (z & E & Ez).
  exists Vg, Gg, (wg cnt), (RtoC (-30)), z. split; [exact Vg_wf|]. split; [exact HS|]. split; [exact E|]. intros H. rewrite <- H in Ez.
  assert (E2 : z = 2%R). { unfold calculate_sz_fsz in E. change (gNsite Gg) with 2 in E. change (Samp.Model.eleNum (wg cnt)) with eg in E. unfold loop in E. change (zrange 0 2) with [0; 1] in E. cbn in E. apply (f_equal (fun o => match o with Some v => v | None => 0%R end)) in E. lra. }
  subst z. apply (f_equal fst) in Ez. cbn in Ez. lra.
Qed.
