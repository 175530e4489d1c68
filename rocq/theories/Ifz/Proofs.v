(** Moved configurations with general spins. *)
From Coq Require Import ZArith List Bool Lia Reals Lra Permutation FunctionalExtensionality.
From Coquelicot Require Import Complex.
From Verif Require Import Base.ZLoop Base.RSum Pf.Pfaffian Pf.Spec Proj.Model Proj.Spec Slater.Model Slater.Spec Rbm.Model Rbm.Spec Samp.Model Samp.Spec Green.Model Green.Spec Ham.Model Grd.Spec Grd.ProofsSum
  Fsz.Model Fsz.Spec Gfz.Model Gfz.Spec Hfz.Model Hfz.Spec Hfz.Proofs Sym.Spec Sym.ProofsPf Sym.ProofsOcc Sym.ProofsMean Inv.Spec Ifz.Spec.
From Verif Require SR.Proofs Inv.Proofs.
Import ListNotations.
Local Open Scope Z_scope.

Section Moved.
Variables (V : fwave) (g : Z).
Hypothesis (HV : valid_fsz (fS V) (fQ V) (fflag V)) (HS : fsymmetry V g).
Notation N := (fsites V).
Notation L := (flabels V).
Notation W := (lattice V).
Notation p := (QPTrans (fQ V) g).
Let HN : 0 < N. Proof. exact (proj1 HV). Qed.
Lemma lattice_valid : valid (vS W) (vQ W) (vflag W).
Proof.
  destruct HV as (H1 & H2 & H3 & H4 & H5 & H6 & H7 & H8 & H9 & H10). unfold valid. cbn [vS vQ vflag lattice]. do 2 (split; [assumption|]). split; [lia|]. do 4 (split; [assumption|]). split; [exact H8|]. split; [exact H9|]. intros a b Ha Hb. apply H10; lia.
Qed.
Lemma fp_perm : permutes N p. Proof. destruct HS as ((after & HG) & _). exact (ge_perm _ _ _ HG). Qed.
Lemma fsgn_unit r : site N r -> QPTransSgn (fQ V) g r = 1 \/ QPTransSgn (fQ V) g r = -1. Proof. destruct HS as ((after & HG) & _). exact (ge_unit _ _ _ HG r). Qed.
Lemma fcarried_mod a : carried W g a mod N = p (a mod N).
Proof. unfold carried, lifted. change (sites W) with N. rewrite Z.mod_add by lia. apply Z.mod_small. apply (proj1 fp_perm). now apply Z.mod_pos_bound. Qed.
Lemma fcarried_div a : carried W g a / N = a / N.
Proof. unfold carried, lifted. change (sites W) with N. rewrite Z.div_add by lia. rewrite Z.div_small; [lia|]. apply (proj1 fp_perm). now apply Z.mod_pos_bound. Qed.
Lemma fcarried_inj a b : carried W g a = carried W g b -> a = b.
Proof. exact (lifted_inj _ _ HN fp_perm a b). Qed.

(** ** the pair part *)
Lemma felement_moved after sl o m a b : group_element W g after -> site (NQPOptTrans (fS V)) o -> site (NMPTrans (fS V)) m ->
  element_fsz N (fQ V) sl o m (carried W g a) (carried W g b) = Cmult (Cmult (RtoC (carried_sign W g a)) (RtoC (carried_sign W g b))) (element_fsz N (fQ V) sl o (after m) a b).
Proof.
  intros HG Ho Hm. destruct (sign_moved W g after lattice_valid HG o m Ho Hm) as (s & Hs & E). assert (U : s * s = 1) by (destruct Hs as [-> | ->]; reflexivity).
  assert (I : forall c, image_fsz N (fQ V) o m (carried W g c) = image_fsz N (fQ V) o (after m) c).
  { intros c. unfold image_fsz. rewrite fcarried_mod, fcarried_div. f_equal. apply (image_moved W g after lattice_valid HG); [exact Ho|exact Hm|]. now apply Z.mod_pos_bound. }
  assert (P : forall c d, pair_fsz N (fQ V) sl o m (carried W g c) (carried W g d) = Cmult (Cmult (RtoC (carried_sign W g c)) (RtoC (carried_sign W g d))) (pair_fsz N (fQ V) sl o (after m) c d)).
  { intros c d. unfold pair_fsz. cbv zeta. rewrite !I, !fcarried_mod. pose proof (E (c mod N)) as Ec. pose proof (E (d mod N)) as Ed. cbn [vQ lattice] in Ec, Ed. rewrite Ec, Ed by now apply Z.mod_pos_bound.
    unfold carried_sign. cbn [vQ lattice]. change (sites W) with N. rewrite !Cmult_assoc, <- !RtoC_mult, <- !mult_IZR. do 3 f_equal.
    match goal with |- s * (?a * ?x) * (s * (?b * ?y)) * ?z = _ => replace (s * (a * x) * (s * (b * y)) * z) with ((s * s) * (a * b * (x * y * z))) by ring end. rewrite U. ring. }
  unfold element_fsz. rewrite !P. ring.
Qed.
Lemma amplitude_moved sl x : Cmult (fpara V g) (amplitude_fsz (fS V) (fQ V) (fpara V) (opt_weight (fflag V) (fopt V)) sl (fmoved V g x)) =
  Cmult (fcollected V g x) (amplitude_fsz (fS V) (fQ V) (fpara V) (opt_weight (fflag V) (fopt V)) sl x).
Proof.
  destruct HS as ((after & HG) & _). unfold amplitude_fsz. rewrite <- (csum_scal _ (fpara V g)), <- (csum_scal _ (fcollected V g x)). apply csum_ext. intros o Ho. apply in_zrange in Ho.
  match goal with |- _ = Cmult _ (csum _ ?f) => rewrite <- (csum_permutes (NMPTrans (fS V)) _ f (ge_after _ _ _ HG)) end. rewrite <- !csum_scal. apply csum_ext. intros m Hm. apply in_zrange in Hm.
  assert (E : pfaffian_fsz (fS V) (fQ V) sl (fmoved V g x) o m = Cmult (fcollected V g x) (pfaffian_fsz (fS V) (fQ V) sl x o (after m))).
  { unfold pfaffian_fsz, fcollected, flabels. rewrite <- (pf_rows _ _ _ _ (Nat.le_refl _)). apply (pf_ext _ _ _ _ (Nat.le_refl _)). intros i j _ _. unfold fmoved. exact (felement_moved after sl o m (x i) (x j) HG Ho Hm). }
  rewrite E. pose proof (ge_weight _ _ _ HG m Hm) as Ew. cbn [vpara lattice] in Ew. rewrite Ew. ring.
Qed.

(** ** the wave function *)
Hypothesis (HT : wf_tables (fT V)) (HTs : Proj.Model.Nsite (fT V) = N).
Lemma foccupation_moved x c : foccupation L (fmoved V g x) (carried W g c) = foccupation L x c.
Proof.
  unfold foccupation. assert (E : existsb (fun m => fmoved V g x m =? carried W g c) L = existsb (fun m => x m =? c) L); [|now rewrite E].
  induction L as [|m l IH]; [reflexivity|]. cbn [existsb]. rewrite IH. f_equal. unfold fmoved. destruct (Z.eqb_spec (x m) c) as [->|D]; [apply Z.eqb_refl|]. apply Z.eqb_neq. intros E. apply D. now apply fcarried_inj.
Qed.
Lemma fpsi_moved x : Cmult (fpara V g) (fpsi V (fmoved V g x)) = Cmult (fcollected V g x) (fpsi V x).
Proof.
  assert (E1 : fcorrelation V (foccupation L (fmoved V g x)) = fcorrelation V (foccupation L x)).
  { unfold fcorrelation. f_equal. apply rsum_ext. intros k Hk. apply zrange_in in Hk. do 2 f_equal. destruct HS as (_ & HF & _).
    assert (HN' : 0 < Proj.Model.Nsite (fT V)) by (rewrite HTs; exact HN). assert (P : permutes (Proj.Model.Nsite (fT V)) p) by (rewrite HTs; exact fp_perm).
    apply (counter_moved (fT V) p _ _ HN' HT P HF); [|exact Hk]. intros rs. rewrite HTs. exact (foccupation_moved x rs). }
  unfold fpsi. rewrite E1. transitivity (Cmult (RtoC (fcorrelation V (foccupation L x))) (Cmult (fpara V g) (fpairs V (fmoved V g x)))); [ring|]. unfold fpairs. rewrite amplitude_moved. ring.
Qed.

(** ** strings of operators *)
Lemma fmoved_upd x m a : fmoved V g (upd x m a) = upd (fmoved V g x) m (carried W g a).
Proof. apply functional_extensionality. intros i. unfold fmoved, upd. now destruct (i =? m). Qed.
Lemma fsign_square a : (carried_sign W g a * carried_sign W g a = 1)%R.
Proof. unfold carried_sign. change (sites W) with N. cbn [vQ lattice]. destruct (fsgn_unit (a mod N)) as [-> | ->]; [now apply Z.mod_pos_bound|lra|lra]. Qed.
Lemma fcollected_upd x m a : In m L -> fcollected V g (upd x m a) = Cmult (RtoC (carried_sign W g a * carried_sign W g (x m))) (fcollected V g x).
Proof.
  intros Hm. unfold fcollected. pose proof (Inv.Proofs.cprod_upd L (fun r => RtoC (carried_sign W g r)) x m a (zrange_NoDup _ _) Hm) as E. cbv beta in E.
  set (c' := cprod _ (fun i => RtoC (carried_sign W g (upd x m a i)))) in *. rewrite RtoC_mult. rewrite <- Cmult_assoc, (Cmult_comm (RtoC (carried_sign W g (x m)))), Cmult_assoc, <- E.
  transitivity (Cmult (RtoC (carried_sign W g (x m) * carried_sign W g (x m))) c'); [rewrite fsign_square; ring|rewrite RtoC_mult; ring].
Qed.
Definition fcovariant (k : R) (f f' : (Z -> Z) -> C) : Prop := forall x, Cmult (fpara V g) (f' (fmoved V g x)) = Cmult (RtoC k) (Cmult (fcollected V g x) (f x)).
Lemma fact_covariant k f f' ab : fcovariant k f f' -> fcovariant (carried_sign W g (fst ab) * carried_sign W g (snd ab) * k) (fact L ab f) (fact L (carried W g (fst ab), carried W g (snd ab)) f').
Proof.
  intros Hf x. unfold fact. cbn [fst snd]. rewrite <- !csum_scal. apply csum_ext. intros m Hm.
  destruct (Z.eqb_spec (x m) (snd ab)) as [E|D].
  - unfold fmoved at 1. rewrite E, Z.eqb_refl. rewrite <- fmoved_upd, (Hf _), (fcollected_upd x m _ Hm), E. rewrite !RtoC_mult. ring.
  - unfold fmoved at 1. destruct (Z.eqb_spec (carried W g (x m)) (carried W g (snd ab))) as [E|_]; [|ring]. elim D. exact (fcarried_inj _ _ E).
Qed.
Lemma fstring_covariant ops : forall k f f', fcovariant k f f' -> fcovariant (string_sign W g ops * k) (fstring L ops f) (fstring L (carried_string W g ops) f').
Proof.
  induction ops as [|ab ops IH]; intros k f f' Hf.
  - cbn. intros x. rewrite (Hf x). now rewrite Rmult_1_l.
  - cbn [fstring carried_string map string_sign fold_right]. fold (string_sign W g ops). pose proof (IH _ _ _ (fact_covariant k f f' ab Hf)) as G. intros x. refine (eq_trans (G x) _). f_equal. f_equal. ring.
Qed.
Lemma fstring_moved ops x : Cmult (fpara V g) (fstring L (carried_string W g ops) (fpsi V) (fmoved V g x)) = Cmult (RtoC (string_sign W g ops)) (Cmult (fcollected V g x) (fstring L ops (fpsi V) x)).
Proof. assert (H : fcovariant 1 (fpsi V) (fpsi V)) by (intros y; rewrite fpsi_moved; ring). pose proof (fstring_covariant ops 1 _ _ H x) as E. now rewrite Rmult_1_r in E. Qed.

Hypothesis Hu : Cmod (fpara V g) = 1%R.
Lemma fpara_ne : fpara V g <> RtoC 0. Proof. intros E. rewrite E, Cmod_0 in Hu. lra. Qed.
Lemma fcollected_mod x : Cmod (fcollected V g x) = 1%R.
Proof. apply cprod_mod. intros i Hi. unfold carried_sign. apply sign_mod. apply fsgn_unit. now apply Z.mod_pos_bound. Qed.
Lemma fcollected_ne x : fcollected V g x <> RtoC 0. Proof. intros E. pose proof (fcollected_mod x) as M. rewrite E, Cmod_0 in M. lra. Qed.
Lemma fmodulus_moved x : Cmod (fpsi V (fmoved V g x)) = Cmod (fpsi V x).
Proof. pose proof (f_equal Cmod (fpsi_moved x)) as E. rewrite !Cmod_mult, Hu, fcollected_mod in E. lra. Qed.
Lemma flocal_moved ops x : fpsi V x <> RtoC 0 -> flocal V (carried_string W g ops) (fmoved V g x) = Cmult (RtoC (string_sign W g ops)) (flocal V ops x).
Proof.
  intros Hn. unfold flocal. rewrite <- (Inv.Proofs.conj_real (string_sign W g ops)) at 1. rewrite <- Cmult_conj. f_equal. pose proof fpara_ne as P. pose proof (fcollected_ne x) as Q.
  pose proof (fstring_moved ops x) as E1. pose proof (fpsi_moved x) as E2. assert (Hn' : fpsi V (fmoved V g x) <> RtoC 0).
  { intros Z0. rewrite Z0 in E2. apply (Cmult_neq_0 _ _ Q Hn). rewrite <- E2. ring. }
  replace (Cdiv (fstring L (carried_string W g ops) (fpsi V) (fmoved V g x)) (fpsi V (fmoved V g x))) with (Cdiv (Cmult (fpara V g) (fstring L (carried_string W g ops) (fpsi V) (fmoved V g x))) (Cmult (fpara V g) (fpsi V (fmoved V g x)))) by (field; split; assumption).
  rewrite E1, E2. field. split; assumption.
Qed.
Lemma fstring_sign_square ops : (string_sign W g ops * string_sign W g ops = 1)%R.
Proof.
  induction ops as [|ab ops IH]; cbn [string_sign fold_right]; [lra|]. fold (string_sign W g ops).
  replace (carried_sign W g (fst ab) * carried_sign W g (snd ab) * string_sign W g ops * (carried_sign W g (fst ab) * carried_sign W g (snd ab) * string_sign W g ops))%R
    with ((carried_sign W g (fst ab) * carried_sign W g (fst ab)) * (carried_sign W g (snd ab) * carried_sign W g (snd ab)) * (string_sign W g ops * string_sign W g ops))%R by ring.
  rewrite !fsign_square, IH. ring.
Qed.
Lemma fvalue_carried O x : fpsi V x <> RtoC 0 -> fvalue V (carried_observable W g O) (fmoved V g x) = fvalue V O x.
Proof.
  intros Hn. unfold fvalue, carried_observable. rewrite csum_map. apply csum_ext. intros t _. cbn [fst snd]. rewrite (flocal_moved (snd t) x Hn).
  replace (Cmult (Cmult (fst t) (RtoC (string_sign W g (snd t)))) (Cmult (RtoC (string_sign W g (snd t))) (flocal V (snd t) x))) with (Cmult (fst t) (Cmult (RtoC (string_sign W g (snd t) * string_sign W g (snd t))) (flocal V (snd t) x))) by (rewrite RtoC_mult; ring).
  rewrite fstring_sign_square. ring.
Qed.
Lemma fvalue_applied O x : fvalue V O x = Cdiv (fapplied V O (fpsi V) x) (Cconj (fpsi V x)).
Proof. unfold fvalue, fapplied, flocal, Cdiv. rewrite <- csum_scal_r. apply csum_ext. intros t _. rewrite Cmult_conj, Inv.Proofs.conj_inv. ring. Qed.
Lemma fenergy_moved O x : finvariant V g O -> fpsi V x <> RtoC 0 -> fvalue V O (fmoved V g x) = fvalue V O x.
Proof. intros HI Hn. rewrite <- (fvalue_carried O x Hn). rewrite !fvalue_applied. now rewrite (HI (fpsi V)). Qed.

(** ** expectation values *)
Lemma fconf_moved u : In u (fconfigurations V) -> forall m, In m L -> conf (map (carried W g) u) m = fmoved V g (conf u) m.
Proof.
  intros Hu' m Hm. unfold fconfigurations in Hu'. assert (Hl : length u = Z.to_nat (2 * Slater.Model.Ne (fS V))). { revert Hu'. generalize (Z.to_nat (2 * Slater.Model.Ne (fS V))). intros n. revert u. induction n as [|n IH]; intros u I; cbn [words] in I.
    - destruct I as [<-|[]]. reflexivity.
    - apply in_flat_map in I. destruct I as (a & _ & I). apply in_map_iff in I. destruct I as (v & <- & I). cbn [length]. f_equal. now apply IH. }
  apply zrange_in in Hm. unfold fmoved, conf. destruct (Z.leb_spec 0 m); [|lia]. rewrite (nth_indep _ 0 (carried W g 0)) by (rewrite map_length; lia). apply map_nth.
Qed.
Lemma fpair_moved ops x : Cmult (Cconj (fstring L (carried_string W g ops) (fpsi V) (fmoved V g x))) (fpsi V (fmoved V g x)) = Cmult (RtoC (string_sign W g ops)) (Cmult (Cconj (fstring L ops (fpsi V) x)) (fpsi V x)).
Proof.
  pose proof (fstring_moved ops x) as E1. pose proof (fpsi_moved x) as E2. apply (f_equal Cconj) in E1. rewrite !Cmult_conj, Inv.Proofs.conj_real in E1.
  pose proof (Inv.Proofs.conj_unit _ Hu) as U. pose proof (Inv.Proofs.conj_unit _ (fcollected_mod x)) as U'.
  set (a := Cconj (fstring L (carried_string W g ops) (fpsi V) (fmoved V g x))) in *. set (b := fpsi V (fmoved V g x)) in *.
  transitivity (Cmult (Cmult (Cconj (fpara V g)) a) (Cmult (fpara V g) b)).
  - replace (Cmult (Cmult (Cconj (fpara V g)) a) (Cmult (fpara V g) b)) with (Cmult (Cmult (Cconj (fpara V g)) (fpara V g)) (Cmult a b)) by ring. rewrite U. ring.
  - rewrite E1, E2. replace (Cmult (Cmult (RtoC (string_sign W g ops)) (Cmult (Cconj (fcollected V g x)) (Cconj (fstring L ops (fpsi V) x)))) (Cmult (fcollected V g x) (fpsi V x)))
      with (Cmult (Cmult (Cconj (fcollected V g x)) (fcollected V g x)) (Cmult (RtoC (string_sign W g ops)) (Cmult (Cconj (fstring L ops (fpsi V) x)) (fpsi V x)))) by ring. rewrite U'. ring.
Qed.
Lemma fexpectation_moved ops : fexpectation V [(RtoC 1, carried_string W g ops)] = Cmult (RtoC (string_sign W g ops)) (fexpectation V [(RtoC 1, ops)]).
Proof.
  unfold fexpectation. unfold Cdiv. rewrite Cmult_assoc. f_equal. rewrite <- csum_scal.
  assert (P : Permutation (zrange 0 (2 * N)) (map (carried W g) (zrange 0 (2 * N)))) by (apply permutes_perm; exact (lifted_permutes _ _ HN fp_perm)).
  unfold fconfigurations at 1. rewrite <- (Inv.Proofs.csum_words _ _ P). apply csum_ext. intros u Hu'. unfold fapplied. cbn [csum fst snd].
  pose proof (fconf_moved u Hu') as Es. rewrite (fstring_ext V _ _ (fpsi_ext V) _ _ Es), (fpsi_ext V _ _ Es).
  pose proof (fpair_moved ops (conf u)) as E.
  set (a := Cconj (fstring L (carried_string W g ops) (fpsi V) (fmoved V g (conf u)))) in *. set (b := fpsi V (fmoved V g (conf u))) in *. set (a' := Cconj (fstring L ops (fpsi V) (conf u))) in *.
  transitivity (Cmult a b); [ring|]. rewrite E. ring.
Qed.
End Moved.
