(** Concrete cases: one electron of each spin on two or three sites with a Gutzwiller factor; two electrons with general spins
    on two sites. *)
From Coq Require Import ZArith List Bool Lia Reals Lra.
From Coquelicot Require Import Complex.
From Verif Require Import Base.ZLoop Base.Checked Base.RSum Proj.Model Proj.Spec Pf.Pfaffian Pf.Spec Pf.Proofs Pf.ProofsSeq Slater.Model Slater.Spec Slater.Proofs Slater.ProofsElm Rbm.Model Rbm.Spec Rbm.Cases Green.Model Green.Spec Green.Core Green.Cases Samp.Prog Samp.Model Samp.Spec Mark.Model Mark.Spec Samp.Config Mark.Words Mark.Chain Mark.Reverse Mark.ReverseStd Mark.Weight Mark.Balance.
From Verif Require Slater.ProofsDer.
Import ListNotations.
Local Open Scope Z_scope.

(** ** fixed spins, M sites; all pair amplitudes are 1 *)
Definition Sm (M : Z) : sizes := {| Slater.Model.Nsite := M; Slater.Model.Ne := 1; NSPGaussLeg := 1; NMPTrans := 1; NQPOptTrans := 1; NSlater := 1 |}.
Definition Qm : qptables := {| QPOptTrans := fun _ r => r; QPOptTransSgn := fun _ _ => 1; QPTrans := fun _ r => r; QPTransSgn := fun _ _ => 1;
  OrbitalIdx := fun _ _ => 0; OrbitalSgn := fun _ _ => 1 |}.
Definition Tm (M : Z) : Proj.Model.tables := {| Proj.Model.Nsite := M; NGutzwillerIdx := 1; NJastrowIdx := 0; NDoublonHolon2siteIdx := 0; NDoublonHolon4siteIdx := 0;
  GutzwillerIdx := fun _ => 0; JastrowIdx := fun _ _ => 0; DoublonHolon2siteIdx := fun _ _ => 0; DoublonHolon4siteIdx := fun _ _ => 0 |}.
Definition Mm (M : Z) : machine := Machine M 0 0 0 0 0 0 0 0 0 0 0 0 0 (fun _ => 0) (fun _ => 0) (fun _ => 0) (fun _ => 0) (fun _ => 0) (fun _ => 0) (fun _ _ => 0) (fun _ _ => 0) (fun _ _ => 0).
Definition onem (_ : Z) : C := RtoC 1.
Definition Vm (M : Z) : wave := {| vS := Sm M; vQ := Qm; vstot := 0; vbeta := fun _ => 0%R; vweight := fun _ => 0%R; vpara := onem; vflag := false; vopt := onem; vsl := onem;
  vT := Tm M; vProj := fun _ => RtoC (-1); vFlagRBM := false; vM := Mm M; vRBM := fun _ => RtoC 0 |}.
(** hopping, and exchange when [ex] is 1 *)
Definition Im (M ex : Z) : input := Input (Tm M) 1 (fun _ => 0) 0 0 ex 1 1 1 1.
Definition Invm (k : Z) : C := RtoC (IZR (if k =? 1 then -1 else if k =? 2 then 1 else 0)).
Definition Km : setting := {| sopt0 := onem; sE0 := fun _ => czero; sclog := principal; sNB := 8; sThreads := 3; sjunk := fun _ _ => czero; sInvM := Invm; sPfM := onem |}.
(** up electron on a, down electron on b *)
Definition xm (a b m : Z) : Z := if m =? 0 then a else b.
Definition wm (M a b : Z) : walker :=
  Walker (xm a b) (fun rs => if (rs =? a) || (rs =? M + b) then 0 else -1) (fun rs => if (rs =? a) || (rs =? M + b) then 1 else 0) (fun _ => if a =? b then 1 else 0) (fun _ => 0).
Definition stm (M a b : Z) : state := State (wm M a b) (fun _ => RtoC 0) Km (RtoC 1) (Scratch (fun _ => 5) (fun _ => RtoC 7) (fun _ => RtoC 9)).
Lemma Vm_wf M : 0 < M -> wf_wave (Vm M).
Proof.
  intros HM. constructor; cbn [vS vQ vflag vT vM vRBM vFlagRBM Vm].
  - unfold valid, Sm, Qm. cbn. repeat split; try lia; try reflexivity; intros; lia.
  - constructor; cbn; intros; lia.
  - constructor; cbn; unfold below; intros; lia.
  - split; reflexivity.
  - discriminate.
Qed.
Lemma Im_wf M ex : 0 < M -> wf_input (Im M ex).
Proof. intros HM. constructor; [constructor; cbn; intros; lia|exact HM|reflexivity|intros; now left]. Qed.
Lemma Im_fits M ex : fits (Im M ex) (Vm M). Proof. split; reflexivity. Qed.
Lemma two_m q : 0 <= q < 2 -> q = 0 \/ q = 1. Proof. lia. Qed.
Definition unit2 (i j : Z) : C := RtoC (IZR (if i =? j then 0 else if i =? 0 then 1 else -1)).
Lemma elem_m M a b i j : 0 <= a < M -> 0 <= b < M -> 0 <= i < 2 -> 0 <= j < 2 -> element M Qm onem 0 0 0 (orbital M 1 (xm a b) i) (orbital M 1 (xm a b) j) = unit2 i j.
Proof.
  intros Ha Hb Hi Hj.
  assert (D : forall k c, 0 <= k < 2 -> 0 <= c < M -> (c + k * M) / M = k /\ (c + k * M) mod M = c).
  { intros k c Hk Hc. split; [rewrite Z.div_add by lia; rewrite Z.div_small by lia; lia|rewrite Z.mod_add by lia; apply Z.mod_small; lia]. }
  unfold element, orbital.
  assert (X : forall k, 0 <= k < 2 -> k / 1 = k) by (intros; apply Z.div_1_r). rewrite !X by assumption.
  assert (R : forall k, 0 <= k < 2 -> 0 <= xm a b k < M) by (intros k _; unfold xm; destruct (k =? 0); assumption).
  destruct (D i (xm a b i) Hi (R i Hi)) as (-> & ->), (D j (xm a b j) Hj (R j Hj)) as (-> & ->).
  destruct (two_m i Hi) as [-> | ->], (two_m j Hj) as [-> | ->]; unfold pair, sign, up, down, unit2, onem; cbn -[cos sin]; rewrite ?cos_0, ?sin_0; apply Ceq; cbn; lra.
Qed.
Lemma on_m M a b : 0 <= a < M -> 0 <= b < M -> on_lattice M (2 * 1) (xm a b).
Proof. intros Ha Hb k _. unfold xm. destruct (k =? 0); assumption. Qed.
Lemma pm_m M a b i j : 0 <= a < M -> 0 <= b < M -> 0 <= i < 2 -> 0 <= j < 2 -> pair_matrix M 1 (elements_of (Vm M) onem (fun _ => czero)) 0 (xm a b) i j = unit2 i j.
Proof.
  intros Ha Hb Hi Hj. rewrite <- (elem_m M a b i j Ha Hb Hi Hj).
  assert (H := Slater.ProofsDer.PM (Sm M) Qm 0 (fun _ => 0%R) (fun _ => 0%R) onem onem onem false (wv_valid (Vm M) (Vm_wf M ltac:(lia))) onem (fun _ => czero) (xm a b) (on_m M a b Ha Hb) 0 0 0 i j).
  cbv zeta in H. unfold projection in H. change ((0 * NMPTrans (Sm M) + 0) * NSPGaussLeg (Sm M) + 0) with 0 in H. apply H; [repeat split; cbn; lia|exact Hi|exact Hj].
Qed.
Lemma pf_m M a b : 0 <= a < M -> 0 <= b < M -> pf (pair_matrix M 1 (elements_of (Vm M) onem (fun _ => czero)) 0 (xm a b)) [0; 1] = RtoC 1.
Proof. intros Ha Hb. rewrite pf_two_by_two, pm_m by (assumption || lia). reflexivity. Qed.
Lemma pairs_m M a b : 0 <= a < M -> 0 <= b < M -> pairs (Vm M) (xm a b) = RtoC 1.
Proof.
  intros Ha Hb. unfold pairs, amplitude. cbn [vS Vm]. change (zrange 0 (NQPOptTrans (Sm M))) with [0]. change (zrange 0 (NMPTrans (Sm M))) with [0]. change (zrange 0 (NSPGaussLeg (Sm M))) with [0]. cbn [csum].
  replace (pfaffian (Sm M) (vQ (Vm M)) (vbeta (Vm M)) (vsl (Vm M)) (xm a b) 0 0 0) with (RtoC 1).
  - unfold spin_weight, opt_weight, onem. cbn. apply Ceq; cbn; ring.
  - unfold pfaffian. change (zrange 0 (2 * Slater.Model.Ne (Sm M))) with [0; 1]. rewrite pf_two_by_two. change (Slater.Spec.half (Sm M) (vbeta (Vm M)) 0) with 0%R.
    change (Slater.Model.Nsite (Sm M)) with M. change (Slater.Model.Ne (Sm M)) with 1. cbn [vQ vsl Vm]. rewrite elem_m by (assumption || lia). reflexivity.
Qed.
Lemma legal_m M a b : M = 2 \/ M = 3 -> 0 <= a < M -> 0 <= b < M -> legal (Vm M) (stm M a b).
Proof.
  intros HM Ha Hb. constructor.
  - exact principal_log.
  - cbn; lia.
  - constructor.
    + intros mi s Hmi Hs. cbn in Hmi. assert (mi = 0) as -> by lia. exists (if s =? 0 then a else b). assert (s = 0 \/ s = 1) as [-> | ->] by lia; cbn -[Z.mul Z.add]; unfold xm; cbn -[Z.mul Z.add]; (split; [reflexivity|split; [assumption|]]).
      * replace (a + 0 * M =? a) with true by lia. reflexivity.
      * replace (b + 1 * M =? M + b) with true by lia. now rewrite orb_true_r.
    + intros r s Hr Hs. change (sites (Vm M)) with M in *. change (Slater.Model.Ne (vS (Vm M))) with 1. cbn [stW stm wm eleCfg eleNum eleIdx].
      destruct ((r + s * M =? a) || (r + s * M =? M + b)) eqn:E; [right; exists 0; repeat split; try lia|left; split; reflexivity].
      assert (s = 0 \/ s = 1) as [-> | ->] by lia; unfold xm; cbn; lia.
  - constructor; cbn [vT Vm Tm NGutzwillerIdx NJastrowIdx NDoublonHolon2siteIdx NDoublonHolon4siteIdx]; intros; try lia. assert (k = 0) as -> by lia. cbn [stW stm wm eleProjCnt].
    destruct HM as [-> | ->]; [assert (A : a = 0 \/ a = 1) by lia; assert (B : b = 0 \/ b = 1) by lia; destruct A as [-> | ->], B as [-> | ->]; reflexivity|].
    assert (A : a = 0 \/ a = 1 \/ a = 2) by lia; assert (B : b = 0 \/ b = 1 \/ b = 2) by lia; destruct A as [->|[->| ->]], B as [->|[->| ->]]; reflexivity.
  - discriminate.
  - intros q Hq. change (Slater.Model.NQPFull (vS (Vm M)) - 0) with 1 in Hq. assert (q = 0) as -> by lia. change (0 + 0) with 0.
    change (sites (Vm M)) with M. change (Slater.Model.Ne (vS (Vm M))) with 1. change (elements_of (Vm M) (sopt0 (stK (stm M a b))) (sE0 (stK (stm M a b)))) with (elements_of (Vm M) onem (fun _ => czero)). change (Samp.Model.eleIdx (stW (stm M a b))) with (xm a b). split.
    + symmetry. exact (pf_m M a b Ha Hb).
    + change (2 * 1) with 2. apply is_inverse_intro.
      * apply skew_spec. intros i j Hi Hj. unfold stored. cbn [stK stm sInvM Km]. unfold Invm. destruct (two_m i Hi) as [-> | ->], (two_m j Hj) as [-> | ->]; cbn; apply Ceq; cbn; ring.
      * apply skew_spec. intros i j Hi Hj. rewrite !pm_m by assumption. unfold unit2. destruct (two_m i Hi) as [-> | ->], (two_m j Hj) as [-> | ->]; cbn; apply Ceq; cbn; ring.
      * apply left_inverse_spec. intros i j Hi Hj. change (zrange 0 2) with [0; 1]. cbn [csum]. rewrite !pm_m by (assumption || lia).
        unfold stored, unit2, kron. cbn [stK stm sInvM Km]. unfold Invm. destruct (two_m i Hi) as [-> | ->], (two_m j Hj) as [-> | ->]; cbn; apply Ceq; cbn; ring.
  - symmetry. change (stIp (stm M a b)) with (RtoC 1). rewrite <- (pairs_m M a b Ha Hb). apply (pairs_ok (Vm M) (Vm_wf M ltac:(lia)) Km (xm a b) onem); [intros k Hk; apply (on_m M a b Ha Hb); apply zrange_in in Hk; exact Hk|].
    intros q Hq. change (Slater.Model.NQPFull (vS (Vm M))) with 1 in Hq. assert (q = 0) as -> by lia. symmetry. exact (pf_m M a b Ha Hb).
  - intros H. apply RtoC_inj in H. lra.
Qed.
Lemma propose_range I Orc n r w q p c w1 : wf_input I -> consistent (Proj.Model.Nsite (T I)) (Samp.Model.Ne I) w -> propose I (with_stream Orc r n) w q = Some (p, c) -> proposed c = Some w1 ->
  forall m, 0 <= m < 2 * Samp.Model.Ne I -> 0 <= Samp.Model.eleIdx w1 m < Proj.Model.Nsite (T I).
Proof.
  intros wf Hc E Ec m Hm. assert (R := idx_range I wf w m Hc Hm). unfold propose in E.
  destruct (get_update_type I (with_stream Orc r n) q) as (q1, ut). destruct ut; [| |injection E as _ <-; discriminate|injection E as _ <-; discriminate].
  - unfold propose_hop in E. destruct (eval (make_candidate_hopping I (with_stream Orc r n) w q1)) as [((p1, (((mi, ri), rj), s)), flag)|] eqn:Em; [|discriminate]. cbn [bind] in E.
    destruct (Z.eqb_spec flag 1) as [Ef|Ef]; [injection E as _ <-; discriminate|]. apply eval_some in Em.
    destruct (hop_info _ _ wf _ _ w _ _ _ _ _ _ _ Hc Em Ef) as (p0 & [F1 F2 F3 F4 F5 F6 F7 F8 F9 F10] & -> & Et).
    rewrite (update_eval I Orc wf n r mi ri rj s w F1 F2 F3 F4) in E. cbn [eval bind] in E. injection E as -> <-. cbn [proposed] in Ec. injection Ec as <-. cbn [Samp.Model.eleIdx]. rewrite upd_get. now destruct (m =? _).
  - unfold propose_exchange in E. destruct (eval (make_candidate_exchange I (with_stream Orc r n) w q1)) as [(p1, [(((mi, ri), rj), s)|])|] eqn:Em; [| |discriminate]; cbn [bind] in E; [|injection E as _ <-; discriminate].
    apply eval_some in Em. destruct (exchange_info _ _ wf _ w Hc _ _ _ _ _ _ _ Em) as (A1 & A2 & A3 & A4 & A5 & A6 & A7 & mj & A8 & A9 & A10).
    rewrite rd_ok in E by nia. cbn [bind] in E. rewrite A9 in E. rewrite (update_eval I Orc wf n r mi ri rj s w) in E by assumption. cbn [eval bind] in E.
    rewrite (update_eval I Orc wf n r mj rj ri (1 - s)) in E by (assumption || lia). cbn [eval bind] in E. remember (1 - s) as t. injection E as -> <-. cbn [proposed] in Ec. injection Ec as <-. cbn [Samp.Model.eleIdx].
    rewrite !upd_get. destruct (m =? mj + _); [assumption|]. now destruct (m =? _).
Qed.
(** the four configurations on two sites *)
Definition L4 : list state := [stm 2 0 0; stm 2 0 1; stm 2 1 0; stm 2 1 1].
Lemma in_L4 x : In x L4 <-> exists a b, 0 <= a < 2 /\ 0 <= b < 2 /\ x = stm 2 a b.
Proof.
  split.
  - intros H. cbn in H. destruct H as [<-|[<-|[<-|[<-|[]]]]]; [exists 0, 0|exists 0, 1|exists 1, 0|exists 1, 1]; repeat split; lia.
  - intros (a & b & Ha & Hb & ->). destruct (two_m a Ha) as [-> | ->], (two_m b Hb) as [-> | ->]; cbn; auto.
Qed.
Lemma L4_legal x : In x L4 -> legal (Vm 2) x.
Proof. intros H. apply in_L4 in H. destruct H as (a & b & Ha & Hb & ->). apply legal_m; auto. Qed.
Lemma stm_inj M a b a' b' : stm M a b = stm M a' b' -> a = a' /\ b = b'.
Proof. intros H. assert (E : forall m, xm a b m = xm a' b' m) by (intros m; change (eleIdx (stW (stm M a b)) m = eleIdx (stW (stm M a' b')) m); now rewrite H). split; [apply (E 0)|apply (E 1)]. Qed.
Lemma L4_closed ex Orc n : closed (Im 2 ex) (Vm 2) Orc n L4.
Proof.
  split; [|split].
  - unfold L4. repeat (constructor; [cbn [In]; intros H; repeat (destruct H as [H|H]); try contradiction; apply stm_inj in H; lia|]). constructor.
  - intros x y Hx Hy E. apply in_L4 in Hx, Hy. destruct Hx as (a & b & Ha & Hb & ->), Hy as (a' & b' & Ha' & Hb' & ->).
    assert (Q := proj1 (same_idx_spec _ _ _) E). cbn [Im Samp.Model.Ne stW stm wm Samp.Model.eleIdx] in Q. assert (Q0 := Q 0 ltac:(lia)). assert (Q1 := Q 1 ltac:(lia)). cbn in Q0, Q1. now subst.
  - intros x l p w1 v Hx Hl E Hp Hv. assert (Lx := L4_legal x Hx). destruct (step_facts (Im 2 ex) (Vm 2) (Im_wf 2 ex eq_refl) (Vm_wf 2 eq_refl) (Im_fits 2 ex) Orc n x l p w1 v Lx E) as ((c & Ep & Ec) & _).
    assert (R := propose_range _ _ _ _ _ _ _ _ _ (Im_wf 2 ex eq_refl) (state_consistent (Im 2 ex) (Vm 2) (Vm_wf 2 eq_refl) (Im_fits 2 ex) _ _ _ _ Lx) Ep Ec).
    cbn [Im Samp.Model.Ne T Tm Proj.Model.Nsite] in R. exists (stm 2 (eleIdx w1 0) (eleIdx w1 1)). split.
    + apply in_L4. exists (eleIdx w1 0), (eleIdx w1 1). repeat split; apply R; lia.
    + apply same_idx_spec. cbn [Im Samp.Model.Ne]. intros m Hm. destruct (two_m m Hm) as [-> | ->]; reflexivity.
Qed.
Lemma density_m M a b : 0 <= a < M -> 0 <= b < M -> M = 2 \/ M = 3 -> density (Vm M) (stm M a b) = (if a =? b then exp (-1) ^ 2 else 1)%R.
Proof.
  intros Ha Hb HM. unfold density. change (Samp.Model.eleIdx (stW (stm M a b))) with (xm a b). unfold psi. rewrite (pairs_m M a b Ha Hb).
  replace (correlation (Vm M) (occupation (Vm M) (xm a b))) with (if a =? b then exp (-1) else 1)%R.
  - unfold boltzmann. cbn [vFlagRBM Vm]. rewrite !Cmult_1_r, Cmod_R. destruct (a =? b); [|rewrite Rabs_R1; ring]. rewrite Rabs_right; [reflexivity|]. left. apply exp_pos.
  - assert (Q : counter (vT (Vm M)) (occupation (Vm M) (xm a b)) 0 = if a =? b then 1 else 0).
    { destruct HM as [-> | ->]; [assert (A : a = 0 \/ a = 1) by lia; assert (B : b = 0 \/ b = 1) by lia; destruct A as [-> | ->], B as [-> | ->]; reflexivity|].
      assert (A : a = 0 \/ a = 1 \/ a = 2) by lia; assert (B : b = 0 \/ b = 1 \/ b = 2) by lia; destruct A as [->|[->| ->]], B as [->|[->| ->]]; reflexivity. }
    unfold correlation. change (zrange 0 (NProj (vT (Vm M)))) with [0]. cbn [rsum]. rewrite Q. cbn [vProj Vm fst RtoC]. destruct (a =? b); [f_equal; lra|]. rewrite <- exp_0. f_equal. lra.
Qed.
