(** Concrete cases: one electron of each spin on two sites; a machine that is left out; two translations with the weights 1 and i. *)
From Coq Require Import ZArith List Bool Lia Reals Lra FunctionalExtensionality Permutation.
From Coquelicot Require Import Complex.
From Verif Require Import Base.ZLoop Base.Checked Base.RSum Proj.Model Proj.Spec Pf.Pfaffian Pf.Spec Pf.Proofs Pf.ProofsSeq Slater.Model Slater.Spec Slater.Proofs Slater.ProofsElm Rbm.Model Rbm.Spec Rbm.Cases Green.Model Green.Spec Green.Core Green.Cases
  Ham.Model Ham.Spec Samp.Prog Samp.Model Samp.Spec Mark.Model Mark.Spec Samp.Exec Mark.Words Mark.Balance Mark.Cases Rel.Model Rel.Spec Rel.Embed Rel.Link Rel.Proofs.
From Verif Require Slater.ProofsDer.
Import ListNotations.
Local Open Scope Z_scope.

(** ** real parameters: the wave function of Mark/Cases.v *)
Definition Kr : rsetting := {| kopt0 := onem; kE0 := fun _ => czero; kclog := principal; kInvM := fun k => IZR (if k =? 1 then -1 else if k =? 2 then 1 else 0); kPfM := fun _ => 1%R |}.
Lemma Vm_real M : real_wave (Vm M). Proof. repeat split. Qed.
Lemma sampled_r M a b : M = 2 \/ M = 3 -> 0 <= a < M -> 0 <= b < M -> sampled (Vm M) (embed Kr) (wm M a b) (fun _ => RtoC 0) (RtoC 1).
Proof. intros HM Ha Hb. destruct (legal_m M a b HM Ha Hb) as [S1 S2 S3 S4 S5 S6 S7 S8]. constructor; assumption. Qed.

(** ** with a machine whose visible weight favours charge on site 0 *)
Definition Mv : machine := Machine 2 2 0 0 0 0 0 0 0 0 0 0 0 0 (fun r => r) (fun _ => 0) (fun _ => 0) (fun _ => 0) (fun _ => 0) (fun _ => 0) (fun _ _ => 0) (fun _ _ => 0) (fun _ _ => 0).
Definition Vv : wave := {| vS := Sm 2; vQ := Qm; vstot := 0; vbeta := fun _ => 0%R; vweight := fun _ => 0%R; vpara := onem; vflag := false; vopt := onem; vsl := onem;
  vT := Tm 2; vProj := fun _ => RtoC (-1); vFlagRBM := true; vM := Mv; vRBM := fun k => RtoC (IZR (if k =? 0 then 1 else 0)) |}.
Lemma machine_v e : machine_weight Mv (vRBM Vv) e = RtoC (exp (IZR (e 0 + e 2 - 1))).
Proof.
  assert (E : visible Mv (vRBM Vv) e = RtoC (IZR (e 0 + e 2 - 1))).
  { unfold visible. change (0 <? NPhysC Mv) with true. change (0 <? NPhysS Mv) with false. change (0 <? NPhysG Mv) with false. change (zrange 0 (Rbm.Model.Nsite Mv)) with [0; 1]. cbn iota. cbn [csum].
    unfold charge, zc. change (Rbm.Model.Nsite Mv) with 2. change (0 + 2) with 2. change (vRBM Vv (PhysC Mv 0)) with (RtoC 1). change (vRBM Vv (PhysC Mv 1)) with (RtoC 0). ring. }
  unfold machine_weight. rewrite E. unfold hidden. change (zrange 0 (NneuronC Mv)) with (@nil Z). change (zrange 0 (NneuronS Mv)) with (@nil Z). change (zrange 0 (NneuronG Mv)) with (@nil Z). cbn [cprod].
  unfold cexp. cbn [fst snd RtoC]. rewrite cos_0, sin_0. apply Ceq; cbn; ring.
Qed.
Lemma Vv_wf : wf_wave Vv.
Proof.
  constructor; cbn [vS vQ vflag vT vM vRBM vFlagRBM Vv].
  - apply (wv_valid (Vm 2) (Vm_wf 2 eq_refl)).
  - apply (wv_T (Vm 2) (Vm_wf 2 eq_refl)).
  - constructor; cbn; unfold below; intros; lia.
  - split; reflexivity.
  - intros _ e _. change (machine_weight Mv (vRBM Vv) e <> RtoC 0). rewrite machine_v. intros H. apply RtoC_inj in H. assert (X := exp_pos (IZR (e 0 + e 2 - 1))). lra.
Qed.
Lemma sampled_v : sampled_real Vv Kr (wm 2 0 1) 1.
Proof. destruct (sampled_r 2 0 1 ltac:(lia) ltac:(lia) ltac:(lia)) as [S1 S2 S3 S4 S5 S6 S7 S8]. constructor; try assumption; discriminate. Qed.
Definition hop_w (p : Z) : Z := if p =? 2 then 1 else 0.
Definition hop_o : oracles := with_stream (ex_orc 1) hop_w 4.
Definition landed (o : option (Z * proposal)) : bool :=
  match o with Some (_, c) => match proposed c with Some w1 => (Samp.Model.eleIdx w1 0 =? 1) && (Samp.Model.eleIdx w1 1 =? 1) | None => false end | None => false end.
Lemma hop_case : exists p c w1, propose (Im 2 0) hop_o (wm 2 0 1) 0 = Some (p, c) /\ proposed c = Some w1 /\ Samp.Model.eleIdx w1 0 = 1 /\ Samp.Model.eleIdx w1 1 = 1.
Proof.
  assert (L : landed (propose (Im 2 0) hop_o (wm 2 0 1) 0) = true) by (vm_compute; reflexivity).
  destruct (propose (Im 2 0) hop_o (wm 2 0 1) 0) as [(p, c)|] eqn:E; [|discriminate]. cbn [landed] in L. destruct (proposed c) as [w1|] eqn:Ec; [|discriminate]. apply andb_prop in L. destruct L as (L0 & L1). apply Z.eqb_eq in L0, L1.
  exists p, c, w1. auto.
Qed.
Lemma psi_m a b : 0 <= a < 2 -> 0 <= b < 2 -> psi (Vm 2) (xm a b) = RtoC (if a =? b then exp (-1) else 1)%R.
Proof.
  intros Ha Hb. unfold psi. rewrite (pairs_m 2 a b Ha Hb).
  replace (correlation (Vm 2) (Green.Spec.occupation (Vm 2) (xm a b))) with (if a =? b then exp (-1) else 1)%R.
  - unfold boltzmann. cbn [vFlagRBM Vm]. now rewrite !Cmult_1_r.
  - assert (Q : counter (vT (Vm 2)) (Green.Spec.occupation (Vm 2) (xm a b)) 0 = if a =? b then 1 else 0).
    { destruct (two_m a Ha) as [-> | ->], (two_m b Hb) as [-> | ->]; reflexivity. }
    unfold correlation. change (zrange 0 (NProj (vT (Vm 2)))) with [0]. cbn [rsum]. rewrite Q. cbn [vProj Vm fst RtoC]. destruct (a =? b); [f_equal; lra|]. rewrite <- exp_0. f_equal. lra.
Qed.
Lemma psi_v a b : 0 <= a < 2 -> 0 <= b < 2 -> psi Vv (xm a b) = Cmult (psi (Vm 2) (xm a b)) (RtoC (exp (IZR (Green.Spec.occupation Vv (xm a b) 0 + Green.Spec.occupation Vv (xm a b) 2 - 1)))).
Proof.
  intros Ha Hb. unfold psi at 1. unfold boltzmann at 1. cbn [vFlagRBM Vv]. change (vM Vv) with Mv. rewrite machine_v. change (pairs Vv (xm a b)) with (pairs (Vm 2) (xm a b)). change (correlation Vv (Green.Spec.occupation Vv (xm a b))) with (correlation (Vm 2) (Green.Spec.occupation (Vm 2) (xm a b))).
  unfold psi. change (boltzmann (Vm 2) (Green.Spec.occupation (Vm 2) (xm a b))) with (RtoC 1). ring.
Qed.
Lemma same_hop V (w1 : walker) : Samp.Model.eleIdx w1 0 = 1 -> Samp.Model.eleIdx w1 1 = 1 -> Slater.Model.Ne (vS V) = 1 -> psi V (Samp.Model.eleIdx w1) = psi V (xm 1 1).
Proof. intros L0 L1 HN. apply psi_same. unfold labels. rewrite HN. intros m Hm. apply zrange_in in Hm. destruct (two_m m Hm) as [-> | ->]; [rewrite L0|rewrite L1]; reflexivity. Qed.
Lemma e1_small : (0 < exp (-1) < 1)%R.
Proof. split; [apply exp_pos|]. rewrite <- exp_0. apply exp_increasing. lra. Qed.
Lemma machine_lost : exists I V K w ip Orc p c w1, wf_input I /\ wf_wave V /\ fits I V /\ vFlagRBM V = true /\ real_transforms V /\ (forall i, snd (vpara V i) = 0%R) /\ sampled_real V K w ip /\
  propose I Orc w 0 = Some (p, c) /\ proposed c = Some w1 /\
  forall b, weight_real (renv_of V K) b w (log_ip_real (kclog K) ip) c <> Some ((Cmod (psi V (Samp.Model.eleIdx w1)) / Cmod (psi V (Samp.Model.eleIdx w))) ^ 2)%R.
Proof.
  destruct hop_case as (p & c & w1 & E & Ec & L0 & L1). exists (Im 2 0), Vv, Kr, (wm 2 0 1), 1%R, hop_o, p, c, w1.
  split; [exact (Im_wf 2 0 eq_refl)|]. split; [exact Vv_wf|]. split; [split; reflexivity|]. split; [reflexivity|]. split; [discriminate|]. split; [reflexivity|]. split; [exact sampled_v|]. split; [exact E|]. split; [exact Ec|].
  intros b X. rewrite (weight_real_ok Vv Vv_wf ltac:(discriminate) Kr (wm 2 0 1) 1 sampled_v (Im 2 0) hop_o b 0 p c w1 (Im_wf 2 0 eq_refl) ltac:(split; reflexivity) E Ec) in X. injection X as X.
  rewrite (same_hop (shadow Vv) w1 L0 L1 eq_refl), (same_hop Vv w1 L0 L1 eq_refl) in X. change (Samp.Model.eleIdx (wm 2 0 1)) with (xm 0 1) in X.
  change (psi (shadow Vv)) with (psi (Vm 2)) in X. rewrite !psi_v, !psi_m in X by lia. change (Green.Spec.occupation Vv (xm 1 1) 0 + Green.Spec.occupation Vv (xm 1 1) 2 - 1) with (-1) in X. change (Green.Spec.occupation Vv (xm 0 1) 0 + Green.Spec.occupation Vv (xm 0 1) 2 - 1) with 0 in X.
  cbn [Z.eqb Pos.eqb] in X. rewrite !Cmod_mult, !Cmod_R, !exp_0, !Rabs_R1 in X. rewrite !Rabs_pos_eq in X by (left; apply exp_pos). assert (Q := e1_small).
  unfold Rdiv in X. rewrite !Rinv_1, !Rmult_1_r in X. rewrite ?Rinv_1, ?Rmult_1_r in X. set (u := exp (-1)) in *. assert (P : (0 < u * u < 1)%R) by nra. assert (X' : (u * u = (u * u) * (u * u))%R) by (etransitivity; [|etransitivity; [exact X|]]; cbn; ring). nra.
Qed.

(** ** two translations with the weights 1 and i; the pair amplitude is 1 or 2 with the site of the up electron *)
Definition Sk : sizes := {| Slater.Model.Nsite := 2; Slater.Model.Ne := 1; NSPGaussLeg := 1; NMPTrans := 2; NQPOptTrans := 1; NSlater := 2 |}.
Definition Qk : qptables := {| QPOptTrans := fun _ r => r; QPOptTransSgn := fun _ _ => 1; QPTrans := fun m r => (r + m) mod 2; QPTransSgn := fun _ _ => 1; OrbitalIdx := fun r _ => r; OrbitalSgn := fun _ _ => 1 |}.
Definition slk (r : Z) : C := RtoC (IZR (r + 1)).
Definition Vk : wave := {| vS := Sk; vQ := Qk; vstot := 0; vbeta := fun _ => 0%R; vweight := fun _ => 0%R; vpara := fun m => if m =? 0 then RtoC 1 else Ci; vflag := false; vopt := onem; vsl := slk;
  vT := Tm 2; vProj := fun _ => RtoC (-1); vFlagRBM := false; vM := Mm 2; vRBM := fun _ => RtoC 0 |}.
Lemma Vk_wf : wf_wave Vk.
Proof.
  constructor; cbn [vS vQ vflag vT vM vRBM vFlagRBM Vk].
  - unfold valid, Sk, Qk. cbn. repeat split; try lia; try reflexivity; intros; try lia; apply Z.mod_pos_bound; lia.
  - apply (wv_T (Vm 2) (Vm_wf 2 eq_refl)).
  - apply (wv_M (Vm 2) (Vm_wf 2 eq_refl)).
  - split; reflexivity.
  - discriminate.
Qed.
(** the amplitude seen through translation m *)
Definition fk (a m : Z) : R := IZR ((a + m) mod 2 + 1).
Lemma elem_k a b m i j : 0 <= a < 2 -> 0 <= b < 2 -> 0 <= m < 2 -> 0 <= i < 2 -> 0 <= j < 2 ->
  element 2 Qk slk 0 m 0 (orbital 2 1 (xm a b) i) (orbital 2 1 (xm a b) j) = Cmult (RtoC (fk a m)) (unit2 i j).
Proof.
  intros Ha Hb Hm Hi Hj. unfold element, orbital. 
  destruct (two_m a Ha) as [-> | ->], (two_m b Hb) as [-> | ->], (two_m m Hm) as [-> | ->], (two_m i Hi) as [-> | ->], (two_m j Hj) as [-> | ->]; unfold pair, sign, up, down, unit2, slk, fk; cbn -[cos sin]; rewrite ?cos_0, ?sin_0; apply Ceq; cbn; lra.
Qed.
Lemma pm_k a b m i j : 0 <= a < 2 -> 0 <= b < 2 -> 0 <= m < 2 -> 0 <= i < 2 -> 0 <= j < 2 -> pair_matrix 2 1 (elements_of (shadow Vk) onem (fun _ => czero)) m (xm a b) i j = Cmult (RtoC (fk a m)) (unit2 i j).
Proof.
  intros Ha Hb Hm Hi Hj. rewrite <- (elem_k a b m i j Ha Hb Hm Hi Hj).
  assert (H := Slater.ProofsDer.PM Sk Qk 0 (fun _ => 0%R) (fun _ => 0%R) (re (vpara Vk)) onem onem false (wv_valid Vk Vk_wf) slk (fun _ => czero) (xm a b) (on_m 2 a b Ha Hb) 0 m 0 i j).
  cbv zeta in H. unfold projection in H. cbn [Sk NMPTrans NSPGaussLeg] in H. replace ((0 * 2 + m) * 1 + 0) with m in H by lia. rewrite ?Z.add_0_r in H. apply H; [repeat split; cbn; lia|exact Hi|exact Hj].
Qed.
Lemma pf_k a b m : 0 <= a < 2 -> 0 <= b < 2 -> 0 <= m < 2 -> pf (pair_matrix 2 1 (elements_of (shadow Vk) onem (fun _ => czero)) m (xm a b)) [0; 1] = RtoC (fk a m).
Proof. intros Ha Hb Hm. rewrite pf_two_by_two, pm_k by (assumption || lia). change (unit2 0 1) with (RtoC 1). ring. Qed.
Lemma pairs_k W a b : vS W = Sk -> vQ W = Qk -> vbeta W = (fun _ => 0%R) -> vsl W = slk -> vflag W = false -> 0 <= a < 2 -> 0 <= b < 2 ->
  pairs W (xm a b) = Cplus (Cmult (vpara W 0) (RtoC (fk a 0))) (Cmult (vpara W 1) (RtoC (fk a 1))).
Proof.
  intros E1 E2 E3 E4 E5 Ha Hb. unfold pairs, amplitude. rewrite E1, E2, E3, E4, E5. change (zrange 0 (NQPOptTrans Sk)) with [0]. change (zrange 0 (NMPTrans Sk)) with [0; 1]. change (zrange 0 (NSPGaussLeg Sk)) with [0]. cbn [csum].
  assert (P : forall m, 0 <= m < 2 -> pfaffian Sk Qk (fun _ => 0%R) slk (xm a b) 0 m 0 = RtoC (fk a m)).
  { intros m Hm. unfold pfaffian. change (zrange 0 (2 * Slater.Model.Ne Sk)) with [0; 1]. rewrite pf_two_by_two. change (Slater.Spec.half Sk (fun _ => 0%R) 0) with 0%R. change (Slater.Model.Nsite Sk) with 2. change (Slater.Model.Ne Sk) with 1.
    rewrite elem_k by (assumption || lia). change (unit2 0 1) with (RtoC 1). ring. }
  rewrite !P by lia. unfold spin_weight, opt_weight. cbn [Sk NSPGaussLeg Z.eqb Pos.eqb]. ring.
Qed.
Lemma fk0 a : 0 <= a < 2 -> fk a 0 = IZR (a + 1) /\ fk a 1 = IZR (2 - a).
Proof. intros Ha. destruct (two_m a Ha) as [-> | ->]; split; reflexivity. Qed.
Definition Kk : rsetting := {| kopt0 := onem; kE0 := fun _ => czero; kclog := principal;
  kInvM := fun k => if k =? 1 then (-1)%R else if k =? 2 then 1%R else if k =? 5 then (- / 2)%R else if k =? 6 then (/ 2)%R else 0%R; kPfM := fun q => IZR (q + 1) |}.
Lemma sampled_k : sampled_real Vk Kk (wm 2 0 1) 1.
Proof.
  destruct (sampled_r 2 0 1 ltac:(lia) ltac:(lia) ltac:(lia)) as [S1 S2 S3 S4 S5 S6 S7 S8].
  assert (PM : forall m i j, 0 <= m < 2 -> 0 <= i < 2 -> 0 <= j < 2 -> pair_matrix 2 1 (elements_of (shadow Vk) onem (fun _ => czero)) m (xm 0 1) i j = Cmult (RtoC (fk 0 m)) (unit2 i j)) by (intros; apply pm_k; lia).
  assert (PF : forall q, 0 <= q < 2 -> sPfM (embed Kk) q = pf (pair_matrix 2 1 (elements_of (shadow Vk) onem (fun _ => czero)) q (xm 0 1)) [0; 1]).
  { intros q Hq. rewrite pf_k by lia. destruct (two_m q Hq) as [-> | ->]; reflexivity. }
  constructor; try assumption.
  - intros q Hq. change (Slater.Model.NQPFull (vS (shadow Vk)) - 0) with 2 in Hq. rewrite Z.add_0_r. split; [exact (PF q Hq)|]. change (2 * Slater.Model.Ne (vS (shadow Vk))) with 2. apply is_inverse_intro.
    + apply skew_spec. intros i j Hi Hj. unfold stored. destruct (two_m q Hq) as [-> | ->], (two_m i Hi) as [-> | ->], (two_m j Hj) as [-> | ->]; cbn; apply Ceq; cbn; lra.
    + apply skew_spec. intros i j Hi Hj. change (pair_matrix (sites (shadow Vk)) (Slater.Model.Ne (vS (shadow Vk))) (elements_of (shadow Vk) (sopt0 (embed Kk)) (sE0 (embed Kk))) q (Samp.Model.eleIdx (wm 2 0 1))) with (pair_matrix 2 1 (elements_of (shadow Vk) onem (fun _ => czero)) q (xm 0 1)).
      rewrite !PM by assumption. unfold unit2. destruct (two_m i Hi) as [-> | ->], (two_m j Hj) as [-> | ->]; cbn; apply Ceq; cbn; lra.
    + apply left_inverse_spec. intros i j Hi Hj. change (pair_matrix (sites (shadow Vk)) (Slater.Model.Ne (vS (shadow Vk))) (elements_of (shadow Vk) (sopt0 (embed Kk)) (sE0 (embed Kk))) q (Samp.Model.eleIdx (wm 2 0 1))) with (pair_matrix 2 1 (elements_of (shadow Vk) onem (fun _ => czero)) q (xm 0 1)).
      change (zrange 0 2) with [0; 1]. cbn [csum]. rewrite !PM by (assumption || lia). unfold stored, unit2, kron, fk. destruct (two_m q Hq) as [-> | ->], (two_m i Hi) as [-> | ->], (two_m j Hj) as [-> | ->]; cbn; apply Ceq; cbn; lra.
  - symmetry. replace (RtoC 1) with (pairs (shadow Vk) (xm 0 1)).
    + apply (pairs_ok (shadow Vk) (wf_shadow Vk Vk_wf) (embed Kk) (xm 0 1) (sPfM (embed Kk))); [intros k Hk; apply (on_m 2 0 1); [lia|lia|]; apply zrange_in in Hk; exact Hk|]. exact PF.
    + rewrite pairs_k by (reflexivity || lia). unfold fk, shadow, re; cbn [vpara Vk Z.eqb]; apply Ceq; cbn; lra.
Qed.
Lemma corr_k V a b : vT V = Tm 2 -> vProj V = (fun _ => RtoC (-1)) -> vS V = Sk -> 0 <= a < 2 -> 0 <= b < 2 -> correlation V (Green.Spec.occupation V (xm a b)) = (if a =? b then exp (-1) else 1)%R.
Proof.
  intros E1 E2 E3 Ha Hb. unfold correlation, Green.Spec.occupation, labels, orb, sites. rewrite E1, E2, E3. change (zrange 0 (NProj (Tm 2))) with [0]. cbn [rsum].
  match goal with |- context [counter (Tm 2) ?e 0] => assert (Q : counter (Tm 2) e 0 = if a =? b then 1 else 0) end.
  { destruct (two_m a Ha) as [-> | ->], (two_m b Hb) as [-> | ->]; reflexivity. }
  rewrite Q. cbn [fst RtoC]. destruct (a =? b); [f_equal; lra|]. rewrite <- exp_0. f_equal. lra.
Qed.
Lemma momentum_lost : exists I V K w ip Orc p c w1, wf_input I /\ wf_wave V /\ fits I V /\ vFlagRBM V = false /\ real_transforms V /\ (forall i, snd (vsl V i) = 0%R) /\ sampled_real V K w ip /\
  psi V (Samp.Model.eleIdx w) <> RtoC 0 /\ propose I Orc w 0 = Some (p, c) /\ proposed c = Some w1 /\
  forall b, weight_real (renv_of V K) b w (log_ip_real (kclog K) ip) c <> Some ((Cmod (psi V (Samp.Model.eleIdx w1)) / Cmod (psi V (Samp.Model.eleIdx w))) ^ 2)%R.
Proof.
  destruct hop_case as (p & c & w1 & E & Ec & L0 & L1). exists (Im 2 0), Vk, Kk, (wm 2 0 1), 1%R, hop_o, p, c, w1.
  assert (PV : forall a b, 0 <= a < 2 -> 0 <= b < 2 -> psi Vk (xm a b) = Cmult (RtoC (if a =? b then exp (-1) else 1)) (Cplus (RtoC (IZR (a + 1))) (Cmult Ci (RtoC (IZR (2 - a)))))).
  { intros a b Ha Hb. unfold psi. rewrite corr_k, pairs_k by (reflexivity || assumption). destruct (fk0 a Ha) as (-> & ->). unfold boltzmann. cbn [vFlagRBM Vk vpara Z.eqb]. ring. }
  assert (PS : forall a b, 0 <= a < 2 -> 0 <= b < 2 -> psi (shadow Vk) (xm a b) = Cmult (RtoC (if a =? b then exp (-1) else 1)) (RtoC (IZR (a + 1)))).
  { intros a b Ha Hb. unfold psi. rewrite corr_k, pairs_k by (reflexivity || assumption). destruct (fk0 a Ha) as (-> & ->). unfold boltzmann. cbn [vFlagRBM shadow Vk vpara Z.eqb]. unfold re. cbn [Z.eqb fst RtoC Ci]. apply Ceq; cbn; ring. }
  split; [exact (Im_wf 2 0 eq_refl)|]. split; [exact Vk_wf|]. split; [split; reflexivity|]. split; [reflexivity|]. split; [discriminate|]. split; [reflexivity|]. split; [exact sampled_k|]. split.
  { change (Samp.Model.eleIdx (wm 2 0 1)) with (xm 0 1). rewrite PV by lia. intros H. apply (f_equal fst) in H. cbn in H. lra. }
  split; [exact E|]. split; [exact Ec|].
  intros b X. rewrite (weight_real_ok Vk Vk_wf ltac:(discriminate) Kk (wm 2 0 1) 1 sampled_k (Im 2 0) hop_o b 0 p c w1 (Im_wf 2 0 eq_refl) ltac:(split; reflexivity) E Ec) in X. injection X as X.
  rewrite (same_hop (shadow Vk) w1 L0 L1 eq_refl), (same_hop Vk w1 L0 L1 eq_refl) in X. change (Samp.Model.eleIdx (wm 2 0 1)) with (xm 0 1) in X.
  rewrite !PV, !PS in X by lia. cbn [Z.eqb Pos.eqb Z.add Z.sub Z.opp Z.pos_sub Pos.add Pos.succ Pos.pred_double] in X. rewrite !Cmod_mult, !Cmod_R in X. rewrite !Rabs_R1 in X. rewrite (Rabs_pos_eq (exp (-1))) in X by (left; apply exp_pos).
  assert (Q := e1_small). set (u := exp (-1)) in *. rewrite (Rabs_pos_eq 2) in X by lra.
  replace (Cmod (Cplus (RtoC 2) (Cmult Ci (RtoC 1)))) with (Cmod (Cplus (RtoC 1) (Cmult Ci (RtoC 2)))) in X by (unfold Cmod; f_equal; cbn; ring).
  set (m := Cmod (Cplus (RtoC 1) (Cmult Ci (RtoC 2)))) in *. assert (Hm : (0 < m)%R). { apply Cmod_gt_0. intros H. apply (f_equal fst) in H. cbn in H. lra. }
  assert (Y : (u * m / (1 * m) = u)%R) by (field; lra). rewrite Y in X. replace (u * 2 / (1 * 1))%R with (2 * u)%R in X by field. cbn in X. nra.
Qed.

(** ** a complex hopping amplitude with its conjugate: i c+_1 c_0 - i c+_0 c_1, spin up *)
Definition Hi : terms := Terms 0 (fun _ => 0) (fun _ => 0%R) 0 (fun _ _ => 0) (fun _ => 0%R) 0 (fun _ _ => 0) (fun _ => 0%R) 2 (fun k c => if c =? 0 then 1 - k else if c =? 2 then k else 0) (fun k => if k =? 0 then Ci else Copp Ci) 0 (fun _ _ => 0) (fun _ => 0%R)
  0 (fun _ _ => 0) (fun _ => 0%R) 0 (fun _ _ => 0) (fun _ => RtoC 0).
Lemma Hi_sites : sites_ok (Vm 2) Hi.
Proof.
  constructor; cbn [Hi NIntra Intra NInter Inter NHund Hund NTransfer Transfer NPair Pair NExchange Exchange NInterAll InterAll]; intros k Hk; unfold site, spin; change (sites (Vm 2)) with 2; try lia.
  destruct (two_m k Hk) as [-> | ->]; cbv; intuition discriminate.
Qed.
Lemma Hi_spins : spins_kept Hi. Proof. split; cbn; intros k Hk; [reflexivity|lia]. Qed.
Definition Pr (w0 : rwork) : rsched := RSched 1 (fun l _ => zrange 0 (count Hi l)) (fun _ => w0).
Lemma Pr_ok w0 : execution_real (count Hi) (Pr w0).
Proof. intros l Hl. unfold Pr. cbn [rthreads rplan threads plan]. change (zrange 0 1) with [0]. cbn [flat_map]. rewrite app_nil_r. apply Permutation_refl. Qed.
Lemma hop_value : local_value (Vm 2) (hamiltonian (Vm 2) Hi) (xm 0 1) = Copp (Cmult Ci (RtoC (exp (-1)))).
Proof.
  unfold local_value. change (hamiltonian (Vm 2) Hi) with [(Copp Ci, [(1, 0)]); (Copp (Copp Ci), [(0, 1)])]. cbn [csum fst snd]. unfold local. cbn [string]. unfold act. change (labels (Vm 2)) with [0; 1]. cbn [csum fst snd].
  change (orb (Vm 2) (xm 0 1) 0) with 0. change (orb (Vm 2) (xm 0 1) 1) with 3. cbn [Z.eqb Pos.eqb]. change (1 mod sites (Vm 2)) with 1. change (psi (Vm 2) (upd (xm 0 1) 0 1)) with (psi (Vm 2) (upd (xm 0 1) 0 1)).
  assert (E : psi (Vm 2) (upd (xm 0 1) 0 1) = psi (Vm 2) (xm 1 1)).
  { apply psi_same. intros m Hm. change (labels (Vm 2)) with [0; 1] in Hm. destruct Hm as [<- | [<- | []]]; reflexivity. }
  rewrite E, !psi_m by lia. cbn [Z.eqb Pos.eqb]. set (u := exp (-1)). apply Ceq; cbn; field.
Qed.
Lemma hopping_lost : exists V K w ip H P, wf_wave V /\ real_wave V /\ sampled V (embed K) w (fun _ => RtoC 0) (RtoC ip) /\ sites_ok V H /\ spins_kept H /\ execution_real (count H) P /\
  NTransfer H = 2 /\ (forall c, In c [0; 1] -> Transfer H 1 c = Transfer H 0 (c + 2) /\ Transfer H 1 (c + 2) = Transfer H 0 c) /\ ParaTransfer H 1 = Cconj (ParaTransfer H 0) /\
  exists v, calculate_hamiltonian_real (renv_of V K) H ip (Samp.Model.eleCfg w) (Samp.Model.eleNum w) (eleProjCnt w) P (Samp.Model.eleIdx w) = Some v /\
    RtoC v <> local_value V (hamiltonian V H) (Samp.Model.eleIdx w).
Proof.
  assert (S0 := sampled_r 2 0 1 ltac:(lia) ltac:(lia) ltac:(lia)).
  exists (Vm 2), Kr, (wm 2 0 1), 1%R, Hi, (Pr (RWork (fun _ => 0) (fun _ => 0) (fun _ => 0) (fun _ => 0%R))). split; [exact (Vm_wf 2 eq_refl)|]. split; [exact (Vm_real 2)|]. split; [exact S0|]. split; [exact Hi_sites|]. split; [exact Hi_spins|]. split; [apply Pr_ok|]. split; [reflexivity|].
  split. { intros c [<- | [<- | []]]; split; reflexivity. } split; [cbn; apply Ceq; cbn; ring|].
  eexists. split; [apply (energy_real (Vm 2) (Vm_wf 2 eq_refl) (real_real _ (Vm_real 2)) Kr (wm 2 0 1) 1 (of_real _ _ _ _ (Vm_real 2) S0) Hi Hi_sites Hi_spins); apply Pr_ok|].
  rewrite (real_shadow _ (Vm_real 2)). change (Samp.Model.eleIdx (wm 2 0 1)) with (xm 0 1). rewrite hop_value. intros X. apply (f_equal snd) in X. cbn in X. assert (Q := e1_small). lra.
Qed.
