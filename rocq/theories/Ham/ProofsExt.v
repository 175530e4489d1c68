(** Values depend on the configuration tables only inside their bounds. *)
From Coq Require Import ZArith List Bool Lia Reals Lra FunctionalExtensionality.
From Coquelicot Require Import Complex.
From Verif Require Import Base.ZLoop Base.Checked Base.RSum Proj.Model Proj.Spec Proj.Proofs Pf.Pfaffian Pf.Model Pf.Spec Pf.Proofs Slater.Model Slater.Spec Slater.Proofs
  Rbm.Model Rbm.Spec Samp.Model Samp.Spec Green.Model Green.Spec Green.Anti Green.Moves Green.Core Green.Proofs.
Import ListNotations.
Local Open Scope Z_scope.

Section Ext.
Variable V : wave.
Hypothesis HV : wf_wave V.
Let N := sites V.
Let Ne := Slater.Model.Ne (vS V).
Notation label m := (In m (labels V)).
Definition same (x y : Z -> Z) : Prop := forall m, label m -> x m = y m.
Definition ext (f : (Z -> Z) -> C) : Prop := forall x y, same x y -> f x = f y.
Lemma same_upd x y m v : same x y -> same (upd x m v) (upd y m v).
Proof. intros H i Hi. unfold upd. destruct (i =? m); auto. Qed.
Lemma orb_same x y m : same x y -> label m -> orb V x m = orb V y m.
Proof. intros H Hm. unfold orb, orbital. now rewrite H. Qed.
Lemma act_ext o f : ext f -> ext (act V o f).
Proof.
  intros Hf x y H. unfold act. apply csum_ext. intros m Hm. rewrite (orb_same x y m H Hm). destruct (_ =? _); [|reflexivity]. apply Hf. now apply same_upd.
Qed.
Lemma string_ext ops : forall f, ext f -> ext (string V ops f).
Proof. induction ops as [|o ops IH]; intros f Hf; [exact Hf|]. cbn. apply IH. now apply act_ext. Qed.
Lemma occupation_same x y : same x y -> occupation V x = occupation V y.
Proof.
  intros H. apply functional_extensionality. intros rs. unfold occupation.
  replace (existsb (fun m => orb V x m =? rs) (labels V)) with (existsb (fun m => orb V y m =? rs) (labels V)); [reflexivity|].
  assert (E : forall l, (forall m, In m l -> label m) -> existsb (fun m => orb V y m =? rs) l = existsb (fun m => orb V x m =? rs) l).
  { induction l as [|m l IH]; intros Hl; [reflexivity|]. cbn. rewrite (orb_same x y m H) by (apply Hl; now left). f_equal. apply IH. intros; apply Hl; now right. }
  apply E. auto.
Qed.
Lemma pairs_ext : ext (pairs V).
Proof.
  intros x y H. unfold pairs, amplitude. apply csum_ext. intros o _. apply csum_ext. intros m _. apply csum_ext. intros s _. f_equal. unfold pfaffian.
  apply (pf_ext _ _ (length (labels V))); [apply le_n|]. intros i j Hi Hj. fold (orb V x i) (orb V x j) (orb V y i) (orb V y j).
  change (orbital (Slater.Model.Nsite (vS V)) (Slater.Model.Ne (vS V)) x i) with (orb V x i). change (orbital (Slater.Model.Nsite (vS V)) (Slater.Model.Ne (vS V)) x j) with (orb V x j).
  change (orbital (Slater.Model.Nsite (vS V)) (Slater.Model.Ne (vS V)) y i) with (orb V y i). change (orbital (Slater.Model.Nsite (vS V)) (Slater.Model.Ne (vS V)) y j) with (orb V y j).
  rewrite (orb_same x y i H Hi), (orb_same x y j H Hj). reflexivity.
Qed.
Lemma psi_ext : ext (psi V).
Proof. intros x y H. unfold psi. now rewrite (occupation_same x y H), (pairs_ext x y H). Qed.
Lemma local_same ops x y : same x y -> local V ops x = local V ops y.
Proof. intros H. unfold local. now rewrite (string_ext ops (psi V) psi_ext x y H), (psi_ext x y H). Qed.

(** ** tables equal inside their bounds *)
Variables (K : setting) (w : walker) (rcnt : Z -> C) (ip : C).
Hypothesis HS : sampled V K w rcnt ip.
Variables (x' e' : Z -> Z).
Hypothesis Hx : forall m, 0 <= m < 2 * Ne -> x' m = Samp.Model.eleIdx w m.
Hypothesis He : forall rs, 0 <= rs < 2 * N -> e' rs = Samp.Model.eleNum w rs.
Definition redone : walker := Walker x' (Samp.Model.eleCfg w) e' (eleProjCnt w) (eleSpn w).
Let e := Samp.Model.eleNum w.
Let E : forall rs, 0 <= rs < 2 * N -> e rs = e' rs. Proof. intros rs H. symmetry. now apply He. Qed.
Lemma rbm_same c : is_rbm_cnt (vM V) (vRBM V) e c -> is_rbm_cnt (vM V) (vRBM V) e' c.
Proof.
  intros []. destruct (wv_sites V HV) as (_ & S2). fold N in S2.
  assert (A : forall rs, 0 <= rs < 2 * Rbm.Model.Nsite (vM V) -> e rs = e' rs) by (rewrite S2; exact E).
  assert (C1 := charge_ext (vM V) (vRBM V) e e' A). assert (C2 := spin_ext (vM V) (vRBM V) e e' A). assert (C3 := general_ext (vM V) (vRBM V) e e' A).
  constructor; try assumption; intros h Hh.
  - rewrite cnt_visC by exact Hh. f_equal. unfold visC. apply zsum_ext. intros r Hr. destruct (_ =? _); [now apply C1|reflexivity].
  - rewrite cnt_visS by exact Hh. f_equal. unfold visS. apply zsum_ext. intros r Hr. destruct (_ =? _); [now apply C2|reflexivity].
  - rewrite cnt_visG by exact Hh. f_equal. unfold visG. apply zsum_ext. intros r Hr. destruct (_ =? _); [now apply C3|reflexivity].
  - rewrite cnt_thC by exact Hh. unfold thetaC. f_equal. destruct (_ <? _); [|reflexivity]. apply csum_ext. intros r Hr. now rewrite C1.
  - rewrite cnt_thS by exact Hh. unfold thetaS. f_equal. destruct (_ <? _); [|reflexivity]. apply csum_ext. intros r Hr. now rewrite C2.
  - rewrite cnt_thG by exact Hh. unfold thetaG. f_equal. destruct (_ <? _); [|reflexivity]. apply csum_ext. intros r Hr. now rewrite C3.
Qed.
Lemma pm_same Sl q i j : 0 <= i < 2 * Ne -> 0 <= j < 2 * Ne -> pair_matrix N Ne Sl q x' i j = pair_matrix N Ne Sl q (Samp.Model.eleIdx w) i j.
Proof. intros Hi Hj. unfold pair_matrix, orbital. now rewrite !Hx by assumption. Qed.
Lemma redone_sampled : sampled V K redone rcnt ip.
Proof.
  destruct HS as [S1 S2 [T1 T2] S4 S5 S6 S7 S8]. fold N Ne in T1, T2. constructor; try assumption.
  - fold N Ne. constructor; cbn [redone Samp.Model.eleIdx Samp.Model.eleCfg Samp.Model.eleNum].
    + intros mi s Hm Hs. destruct (T1 mi s Hm Hs) as (r & A). exists r. rewrite Hx by nia. exact A.
    + intros r s Hr Hs. rewrite He by nia. destruct (T2 r s Hr Hs) as [A|(mi & A1 & A2 & A3 & A4)]; [left; exact A|]. right. exists mi. rewrite Hx by nia. auto.
  - cbn [redone eleProjCnt Samp.Model.eleNum]. destruct (wv_sites V HV) as (S1' & _). fold N in S1'.
    apply (is_proj_cnt_occ (vT V) (wv_T V HV) (Samp.Model.eleNum w) e'); [|exact S4]. intros r Hr. apply same_occ; [|exact Hr]. rewrite S1'. exact E.
  - intros F. cbn [redone Samp.Model.eleNum]. apply rbm_same. now apply S5.
  - cbn [redone Samp.Model.eleIdx]. fold N Ne in S6 |- *. intros q Hq. destruct (S6 q Hq) as (A1 & A2 & A3 & A4). split.
    + rewrite A1. symmetry. apply (pf_ext _ _ (length (zrange 0 (2 * Ne)))); [apply le_n|]. intros i j Hi Hj. apply zrange_in in Hi, Hj. now apply pm_same.
    + split; [|split; [|exact A4]]; intros i j Hi Hj; [rewrite <- A2 by assumption|rewrite <- A3 by assumption]; apply csum_ext; intros k Hk; apply zrange_in in Hk; now rewrite pm_same.
Qed.
Lemma redone_local ops : local V ops x' = local V ops (Samp.Model.eleIdx w).
Proof. apply local_same. intros m Hm. apply Hx. now apply label_in. Qed.
End Ext.
