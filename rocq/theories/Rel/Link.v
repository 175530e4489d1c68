(** The tables of a run with real parameters are those of the wave function's real shadow. *)
From Coq Require Import ZArith List Bool Lia Reals Lra FunctionalExtensionality.
From Coquelicot Require Import Complex.
From Verif Require Import Base.ZLoop Base.Checked Base.RSum Proj.Model Proj.Spec Proj.Proofs Pf.Model Slater.Model Slater.Proofs Rbm.Model Green.Model Green.Spec Green.Core Green.Proofs Samp.Model Samp.Spec Rel.Model Rel.Spec Rel.Embed Rel.Sim.
Import ListNotations.
Local Open Scope Z_scope.

Lemma wf_shadow V : wf_wave V -> wf_wave (shadow V).
Proof. intros [H1 H2 H3 H4 H5]. constructor; cbn; try assumption. discriminate. Qed.

(** angles do not depend on the complex parameters *)
Lemma angles_shadow V opt0 opt0' : let A := angles_of V opt0 in let A' := angles_of (shadow V) opt0' in
  SPGLCosSin A' = SPGLCosSin A /\ SPGLCosCos A' = SPGLCosCos A /\ SPGLSinSin A' = SPGLSinSin A.
Proof.
  unfold angles_of, init_qp_weight. cbn [update_weights SPGLCosSin SPGLCosCos SPGLSinSin shadow vS vstot vbeta vweight vpara vflag vopt]. destruct (_ =? 1); [repeat split|].
  match goal with |- context [SPGLCosSin ?X0 = SPGLCosSin ?Y0] => match X0 with context [loop 0 (NSPGaussLeg _) ?f ?s0] => match Y0 with context [loop 0 (NSPGaussLeg _) ?g ?s0'] =>
    assert (X : let '(a1, a2, a3, a4, a5, a6) := loop 0 (NSPGaussLeg (vS V)) f s0 in let '(b1, b2, b3, b4, b5, b6) := loop 0 (NSPGaussLeg (vS V)) g s0' in a1 = b1 /\ a2 = b2 /\ a3 = b3 /\ a4 = b4 /\ a5 = b5) end end end.
  { apply (loop_rel (fun u v : (Z -> R) * (Z -> R) * (Z -> R) * (Z -> R) * (Z -> R) * (Z -> C) => let '(a1, a2, a3, a4, a5, a6) := u in let '(b1, b2, b3, b4, b5, b6) := v in a1 = b1 /\ a2 = b2 /\ a3 = b3 /\ a4 = b4 /\ a5 = b5)); [|repeat split].
    intros i (((((a1, a2), a3), a4), a5), a6) (((((b1, b2), b3), b4), b5), b6) (-> & -> & -> & -> & ->). repeat split. }
  destruct (loop _ _ _ _) as (((((a1, a2), a3), a4), a5), a6). destruct (loop _ _ _ _) as (((((b1, b2), b3), b4), b5), b6). destruct X as (-> & -> & -> & -> & ->). repeat split.
Qed.
(** z' is the real part of z *)
Definition rre (z' z : C) : Prop := z' = RtoC (fst z).
Definition rra (a b : Z -> C) : Prop := forall i, rre (a i) (b i).
Lemma rre_plus a b a' b' : rre a' a -> rre b' b -> rre (Cplus a' b') (Cplus a b). Proof. intros -> ->. unfold rre, RtoC, Cplus. cbn. f_equal; ring. Qed.
Lemma rre_minus a b a' b' : rre a' a -> rre b' b -> rre (Cminus a' b') (Cminus a b). Proof. intros -> ->. unfold rre, RtoC, Cminus, Cplus, Copp. cbn. f_equal; ring. Qed.
Lemma rre_opp a a' : rre a' a -> rre (Copp a') (Copp a). Proof. intros ->. unfold rre, RtoC, Copp. cbn. f_equal; ring. Qed.
Lemma rre_scal a a' r : rre a' a -> rre (Cmult a' (RtoC r)) (Cmult a (RtoC r)). Proof. intros ->. unfold rre, RtoC, Cmult. cbn. f_equal; ring. Qed.
Lemma rra_upd a b i v r : rra a b -> rre v r -> rra (upd a i v) (upd b i r).
Proof. intros H Hv j. unfold rre. rewrite !upd_get. destruct (j =? i); [exact Hv|apply H]. Qed.
Lemma elements_shadow V opt0 E0 : rra (elements_of (shadow V) opt0 (re E0)) (elements_of V opt0 E0).
Proof.
  unfold elements_of. cbn [shadow vS vQ vsl]. destruct (angles_shadow V opt0 opt0) as (H1 & H2 & H3). fold (shadow V) in *.
  unfold update_slater_elm. rewrite H1, H2, H3. apply (loop_rel rra); [|intros i; reflexivity]. intros q E' E HE. apply (loop_rel rra); [|exact HE]. clear E' E HE. intros ri E' E HE. apply (loop_rel rra); [|exact HE]. clear E' E HE. intros rj E' E HE.
  repeat (apply rra_upd || apply rre_scal || apply rre_plus || apply rre_minus || apply rre_opp || exact HE || reflexivity).
Qed.

Section L.
Variable V : wave.
Hypothesis HV : wf_wave V.
Hypothesis HR : real_transforms V.
Lemma weight_shadow opt0 q : 0 <= q < Slater.Model.NQPFull (vS V) -> QPFullWeight (angles_of (shadow V) opt0) q = RtoC (fst (QPFullWeight (angles_of V opt0) q)).
Proof.
  intros Hq. destruct (wv_valid V HV) as (_ & _ & HG & HM & _ & _ & Hf & _).
  destruct (projection_surj (vS V) q HG HM Hq) as (o & m & s & HI & ->).
  unfold angles_of. cbn [update_weights QPFullWeight shadow vS vstot vbeta vweight vpara vflag vopt].
  rewrite (full_weight (vS V) (vstot V) (vbeta V) (vweight V) (re (vpara V)) opt0 (vflag V) HG _ _ o m s Hf HI).
  rewrite (full_weight (vS V) (vstot V) (vbeta V) (vweight V) (vpara V) opt0 (vflag V) HG _ _ o m s Hf HI).
  unfold Slater.Spec.opt_weight, re. destruct (vflag V) eqn:Ef; [|unfold RtoC, Cmult; cbn; f_equal; ring].
  assert (E := HR Ef o (proj1 HI)). unfold RtoC, Cmult. cbn. rewrite E. f_equal; ring.
Qed.
Lemma ip_shadow opt0 P p : ra P p -> rc (calculate_ip (angles_of (shadow V) opt0) 0 (Slater.Model.NQPFull (vS V)) P) (calculate_ip_real (angles_of V opt0) 0 (Slater.Model.NQPFull (vS V)) p).
Proof.
  intros H. unfold calculate_ip, calculate_ip_real. rewrite Z.sub_0_r. apply (loop_rel_in rc); [|reflexivity]. intros q z r Hq Hz. apply rc_plus; [exact Hz|]. apply rc_mult; [|apply H]. rewrite Z.add_0_r. now apply weight_shadow.
Qed.

Variables (K : rsetting) (w : walker) (ip : R).
Hypothesis HS : sampled_real V K w ip.
Let Gc := env_of (shadow V) (embed K).
Let Gr := renv_of V K.
Lemma sl_shadow : ra (gSl Gc) (rSl Gr). Proof. intros i. apply elements_shadow. Qed.
Lemma sites_T : Proj.Model.Nsite (vT V) = sites V. Proof. apply (wv_sites V HV). Qed.
Lemma cons_w : consistent (sites V) (Slater.Model.Ne (vS V)) w. Proof. exact (sa_tables _ _ _ _ _ HS). Qed.
Lemma occ_w : occ01 (sites V) (Samp.Model.eleNum w). Proof. exact (e_01 (shadow V) (wf_shadow V HV) w cons_w). Qed.

(** as a complex work space *)
Definition lift (r : rwork) : work := Work (wIdx r) (wNum r) (wProj r) (fun _ => RtoC 0) (as_complex (wPf r)).
Lemma lift_rel r : wrel (lift r) r. Proof. repeat split. Qed.
Lemma lift_starts r : starts_real w r -> starts w (lift r). Proof. intros H. exact H. Qed.
Lemma back k r : starts w k -> wrel k r -> starts_real w r. Proof. intros (A & B) (C1 & C2 & _). split; intros i; [rewrite <- C1; apply A|rewrite <- C2; apply B]. Qed.
Lemma green1_sim ri rj s k r : 0 <= ri < sites V -> 0 <= rj < sites V -> 0 <= s <= 1 -> starts w k -> wrel k r ->
  exists v k' r', green1 Gc ri rj s (RtoC ip) (Samp.Model.eleCfg w) (eleProjCnt w) (fun _ => RtoC 0) k = Some (RtoC v, k') /\ green1_real Gr ri rj s ip (Samp.Model.eleCfg w) (eleProjCnt w) r = Some (v, r') /\
  RtoC v = local (shadow V) [(ri + s * sites V, rj + s * sites V)] (Samp.Model.eleIdx w) /\ starts w k' /\ wrel k' r'.
Proof.
  intros Hi Hj Hs Hk Hr. destruct (green1_ok (shadow V) (wf_shadow V HV) w (embed K) (fun _ => RtoC 0) (RtoC ip) HS ri rj s k Hi Hj Hs Hk) as (k' & E & Hk').
  assert (X := green1_rel Gc Gr eq_refl eq_refl eq_refl eq_refl eq_refl eq_refl sl_shadow (fun i => eq_refl) (fun i => eq_refl) (ip_shadow (kopt0 K)) (wv_T V HV) sites_T (Samp.Model.eleCfg w) (eleProjCnt w) (Samp.Model.eleNum w)
    (fun _ => RtoC 0) (RtoC ip) ip eq_refl occ_w (sa_cnt _ _ _ _ _ HS) ri rj s k r Hi Hj Hs Hr). unfold Gc in *. rewrite E in X. 
  destruct (green1_real Gr ri rj s ip (Samp.Model.eleCfg w) (eleProjCnt w) r) as [(v, r')|]; cbn in X.
  - destruct X as (X1 & X2); [intros i; apply (back _ _ Hk Hr)|]. cbn [fst snd] in X1, X2. exists v, k', r'. rewrite E, X1. repeat split; try assumption; try reflexivity; try apply Hk'; try apply X2. now rewrite <- X1.
  - destruct X. intros i; apply (back _ _ Hk Hr).
Qed.
Lemma green2_sim ri rj rk rl s t k r : 0 <= ri < sites V -> 0 <= rj < sites V -> 0 <= rk < sites V -> 0 <= rl < sites V -> 0 <= s <= 1 -> 0 <= t <= 1 -> starts w k -> wrel k r ->
  exists v k' r', green2 Gc ri rj rk rl s t (RtoC ip) (Samp.Model.eleCfg w) (eleProjCnt w) (fun _ => RtoC 0) k = Some (RtoC v, k') /\ green2_real Gr ri rj rk rl s t ip (Samp.Model.eleCfg w) (eleProjCnt w) r = Some (v, r') /\
  RtoC v = local (shadow V) [(ri + s * sites V, rj + s * sites V); (rk + t * sites V, rl + t * sites V)] (Samp.Model.eleIdx w) /\ starts w k' /\ wrel k' r'.
Proof.
  intros Hi Hj Hk Hl Hs Ht Hk0 Hr. destruct (green2_ok (shadow V) (wf_shadow V HV) w (embed K) (fun _ => RtoC 0) (RtoC ip) HS ri rj rk rl s t k Hi Hj Hk Hl Hs Ht Hk0) as (k' & E & Hk').
  assert (X := green2_rel Gc Gr eq_refl eq_refl eq_refl eq_refl eq_refl eq_refl sl_shadow (fun i => eq_refl) (fun i => eq_refl) (ip_shadow (kopt0 K)) (wv_T V HV) sites_T (Samp.Model.eleCfg w) (eleProjCnt w) (Samp.Model.eleNum w)
    (fun _ => RtoC 0) (RtoC ip) ip eq_refl occ_w (sa_cnt _ _ _ _ _ HS) ri rj rk rl s t k r Hi Hj Hk Hl Hs Ht Hr). unfold Gc in *. rewrite E in X.
  destruct (green2_real Gr ri rj rk rl s t ip (Samp.Model.eleCfg w) (eleProjCnt w) r) as [(v, r')|]; cbn in X.
  - destruct X as (X1 & X2); [intros i; apply (back _ _ Hk0 Hr)|]. cbn [fst snd] in X1, X2. exists v, k', r'. rewrite E, X1. repeat split; try assumption; try reflexivity; try apply Hk'; try apply X2. now rewrite <- X1.
  - destruct X. intros i; apply (back _ _ Hk0 Hr).
Qed.
End L.
