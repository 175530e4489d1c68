(** Concrete cases: two sites with correlation factors and a machine; four sites for the three-body string. *)
From Coq Require Import ZArith List Bool Lia Reals Lra.
From Coquelicot Require Import Complex.
From Verif Require Import Base.ZLoop Base.Checked Base.RSum Proj.Model Proj.Spec Proj.Proofs Pf.Pfaffian Pf.Spec Pf.Proofs Pf.ProofsSeq Slater.Model Slater.Spec Slater.Proofs Slater.ProofsElm Slater.ProofsDiff Slater.ProofsProp Slater.Cases Rbm.Model Rbm.Spec Rbm.Proofs Rbm.Cases Samp.Model Samp.Spec Green.Model Green.Spec Green.Moves Green.Core Green.Proofs Green.ProofsN.
From Verif Require Slater.ProofsDer.
Import ListNotations.
Local Open Scope Z_scope.

(** ** two sites, up electron on site 0, down electron on site 1, one Gutzwiller and one Jastrow parameter, a machine with all kinds of weights *)
Definition T2 : Proj.Model.tables := {| Proj.Model.Nsite := 2; NGutzwillerIdx := 1; NJastrowIdx := 1; NDoublonHolon2siteIdx := 0; NDoublonHolon4siteIdx := 0;
  GutzwillerIdx := fun _ => 0; JastrowIdx := fun _ _ => 0; DoublonHolon2siteIdx := fun _ _ => 0; DoublonHolon4siteIdx := fun _ _ => 0 |}.
Definition V2 : wave := {| vS := S_ex; vQ := T_ex; vstot := 0; vbeta := fun _ => 0%R; vweight := fun _ => 0%R; vpara := one_ex; vflag := true; vopt := one_ex; vsl := sl_ex;
  vT := T2; vProj := fun k => RtoC (IZR (k - 2)); vFlagRBM := true; vM := ma; vRBM := wa |}.
Definition K2 : setting := {| sopt0 := one_ex; sE0 := fun _ => czero; sclog := principal; sNB := 8; sThreads := 3; sjunk := fun _ _ => czero; sInvM := Slater.Cases.Inv_ex; sPfM := Slater.Cases.Pf_ex |}.
Definition w2 (cnt : Z -> Z) : walker := Walker Slater.Cases.ele_ex (fun rs => if (rs =? 0) || (rs =? 3) then 0 else -1) ea cnt (fun _ => 0).
Lemma V2_wf : wf_wave V2.
Proof.
  constructor; cbn [vS vQ vflag vT vM vRBM V2].
  - exact valid_ex.
  - constructor; cbn; intros; lia.
  - exact ma_wf.
  - split; reflexivity.
  - intros _ e _. apply wa_neq0.
Qed.
Lemma ea_occ : occ01 2 ea. Proof. intros rs _. unfold ea. destruct ((rs =? 0) || (rs =? 3)); auto. Qed.
Lemma V2_sampled : exists cnt rcnt, sampled V2 K2 (w2 cnt) rcnt (RtoC 8).
Proof.
  destruct (make_correct T2 (wv_T V2 V2_wf) ea ea_occ (fun _ => 0)) as (cnt & _ & Hcnt & _).
  destruct (make_cells ma ma_wf wa (fun _ => RtoC 0) ea) as (rcnt & _ & Hrcnt).
  exists cnt, rcnt. constructor.
  - exact principal_log.
  - cbn; lia.
  - constructor.
    + intros mi s Hmi Hs. cbn in Hmi. assert (mi = 0) as -> by lia. exists s. assert (s = 0 \/ s = 1) as [-> | ->] by lia; cbn; repeat split; try reflexivity; lia.
    + intros r s Hr Hs. cbn in Hr. assert (r = 0 \/ r = 1) as [-> | ->] by lia; assert (s = 0 \/ s = 1) as [-> | ->] by lia; cbn; try (left; split; reflexivity); right; exists 0; repeat split; try reflexivity; lia.
  - exact Hcnt.
  - intros _. exact Hrcnt.
  - exact current_ex.
  - change (RtoC 8 = calculate_ip A_ex 0 (Slater.Model.NQPFull S_ex) Slater.Cases.Pf_ex). symmetry.
    unfold A_ex. rewrite (Slater.ProofsDer.ip_is S_ex T_ex 0 (fun _ => 0%R) (fun _ => 0%R) one_ex one_ex one_ex true valid_ex sl_ex (fun _ => czero) Slater.Cases.Inv_ex Slater.Cases.Pf_ex Slater.Cases.ele_ex Slater.Cases.on_ex Slater.Cases.current_ex).
    rewrite amp_ex. unfold opt_weight, one_ex. apply Ceq; cbn; lra.
  - intros H. apply RtoC_inj in H. lra.
Qed.

(** ** four sites, two electrons of each spin on sites 0 and 1; pairs on equal sites and from 3 to 1 *)
Definition S3 : sizes := {| Slater.Model.Nsite := 4; Slater.Model.Ne := 2; NSPGaussLeg := 1; NMPTrans := 1; NQPOptTrans := 1; NSlater := 2 |}.
Definition Q3 : qptables := {| QPOptTrans := fun _ r => r; QPOptTransSgn := fun _ _ => 1; QPTrans := fun _ r => r; QPTransSgn := fun _ _ => 1;
  OrbitalIdx := fun a b => if (a =? b) || ((a =? 3) && (b =? 1)) then 0 else 1; OrbitalSgn := fun _ _ => 1 |}.
Definition sl3 (k : Z) : C := RtoC (IZR (1 - k)).
Definition T3 : Proj.Model.tables := {| Proj.Model.Nsite := 4; NGutzwillerIdx := 1; NJastrowIdx := 0; NDoublonHolon2siteIdx := 0; NDoublonHolon4siteIdx := 0;
  GutzwillerIdx := fun _ => 0; JastrowIdx := fun _ _ => 0; DoublonHolon2siteIdx := fun _ _ => 0; DoublonHolon4siteIdx := fun _ _ => 0 |}.
Definition M3 : machine := Machine 4 0 0 0 0 0 0 0 0 0 0 0 0 0 (fun _ => 0) (fun _ => 0) (fun _ => 0) (fun _ => 0) (fun _ => 0) (fun _ => 0) (fun _ _ => 0) (fun _ _ => 0) (fun _ _ => 0).
Definition V3 : wave := {| vS := S3; vQ := Q3; vstot := 0; vbeta := fun _ => 0%R; vweight := fun _ => 0%R; vpara := one_ex; vflag := false; vopt := one_ex; vsl := sl3;
  vT := T3; vProj := fun _ => RtoC (-1); vFlagRBM := false; vM := M3; vRBM := fun _ => czero |}.
Definition Inv3 (k : Z) : C := RtoC (IZR (if (k =? 2) || (k =? 7) then -1 else if (k =? 8) || (k =? 13) then 1 else 0)).
Definition Pf3 (q : Z) : C := RtoC (-1).
Definition K3 : setting := {| sopt0 := one_ex; sE0 := fun _ => czero; sclog := principal; sNB := 8; sThreads := 3; sjunk := fun _ _ => czero; sInvM := Inv3; sPfM := Pf3 |}.
Definition x3 (m : Z) : Z := m mod 2.
Definition e3 (rs : Z) : Z := if (rs mod 4) <? 2 then 1 else 0.
Definition w3 (cnt : Z -> Z) : walker := Walker x3 (fun rs => if (rs mod 4) <? 2 then rs mod 4 else -1) e3 cnt (fun _ => 0).
Lemma V3_wf : wf_wave V3.
Proof.
  constructor; cbn [vS vQ vflag vT vM vRBM vFlagRBM V3].
  - unfold valid, S3, Q3. cbn. do 6 (split; [lia|]). split; [reflexivity|]. split; [intros; lia|]. split; [intros; lia|].
    intros a b _ _. destruct ((a =? b) || ((a =? 3) && (b =? 1))); lia.
  - constructor; cbn; intros; lia.
  - constructor; cbn; unfold below; intros; lia.
  - split; reflexivity.
  - discriminate.
Qed.
Lemma four m : 0 <= m < 4 -> m = 0 \/ m = 1 \/ m = 2 \/ m = 3. Proof. lia. Qed.
Definition same_sites (y : Z -> Z) : Prop := forall i j, 0 <= i < 2 -> 0 <= j < 2 -> OrbitalIdx Q3 (y i) (y (2 + j)) = if i =? j then 0 else 1.
Definition unit_pairs (i j : Z) : C := RtoC (IZR (if (i + 2 =? j) then 1 else if (j + 2 =? i) then -1 else 0)).
Lemma on_four y : (forall m, In m (labels V3) -> 0 <= y m < 4) -> on_lattice 4 (2 * 2) y.
Proof. intros H k Hk. apply H. apply zrange_in. exact Hk. Qed.
Lemma elem3 y i j : on_lattice 4 (2 * 2) y -> same_sites y -> 0 <= i < 4 -> 0 <= j < 4 -> element 4 Q3 sl3 0 0 0 (orbital 4 2 y i) (orbital 4 2 y j) = unit_pairs i j.
Proof.
  intros Hy Hs Hi Hj.
  assert (D : forall k, 0 <= k < 4 -> (y k + k / 2 * 4) / 4 = k / 2 /\ (y k + k / 2 * 4) mod 4 = y k).
  { intros k Hk. specialize (Hy k ltac:(lia)). split; [rewrite Z.div_add by lia; rewrite Z.div_small by lia; lia|rewrite Z.mod_add by lia; apply Z.mod_small; lia]. }
  unfold element, orbital. destruct (D i Hi) as (-> & ->), (D j Hj) as (-> & ->).
  assert (S : forall a b, 0 <= a < 2 -> 0 <= b < 2 -> pair Q3 sl3 0 0 (y a) (y (2 + b)) = RtoC (IZR (if a =? b then 1 else 0))).
  { intros a b Ha Hb. unfold pair, image, sign, sl3. cbn [QPOptTrans QPOptTransSgn QPTrans QPTransSgn OrbitalSgn Q3]. rewrite Hs by assumption. destruct (a =? b); apply Ceq; cbn; lra. }
  assert (S0 := S 0 0 ltac:(lia) ltac:(lia)). assert (S1 := S 0 1 ltac:(lia) ltac:(lia)). assert (S2 := S 1 0 ltac:(lia) ltac:(lia)). assert (S3' := S 1 1 ltac:(lia) ltac:(lia)).
  cbn in S0, S1, S2, S3'.
  destruct (four i Hi) as [->|[->|[->| ->]]], (four j Hj) as [->|[->|[->| ->]]]; unfold up, down, unit_pairs; cbn -[cos sin pair]; rewrite ?cos_0, ?sin_0, ?S0, ?S1, ?S2, ?S3'; apply Ceq; cbn; try lra.
Qed.
Definition table3 := elements_of V3 one_ex (fun _ => czero).
Lemma pm3 y i j : on_lattice 4 (2 * 2) y -> same_sites y -> 0 <= i < 4 -> 0 <= j < 4 -> pair_matrix 4 2 table3 0 y i j = unit_pairs i j.
Proof.
  intros Hy Hs Hi Hj. rewrite <- (elem3 y i j Hy Hs Hi Hj).
  assert (H := Slater.ProofsDer.PM S3 Q3 0 (fun _ => 0%R) (fun _ => 0%R) one_ex one_ex one_ex false (wv_valid V3 V3_wf) sl3 (fun _ => czero) y Hy 0 0 0 i j).
  cbv zeta in H. unfold projection in H. change ((0 * NMPTrans S3 + 0) * NSPGaussLeg S3 + 0) with 0 in H. apply H; [repeat split; cbn; lia|exact Hi|exact Hj].
Qed.
Lemma pf_unit : pf unit_pairs [0; 1; 2; 3] = RtoC (-1).
Proof. unfold pf, unit_pairs. cbn. apply Ceq; cbn; ring. Qed.
Lemma pf3 y : on_lattice 4 (2 * 2) y -> same_sites y -> pf (pair_matrix 4 2 table3 0 y) (labels V3) = RtoC (-1).
Proof.
  intros Hy Hs. change (labels V3) with [0; 1; 2; 3]. rewrite <- pf_unit. apply (Pfaffian.pf_ext _ _ 4); [cbn; lia|]. intros i j Hi Hj.
  apply pm3; try assumption; cbn in Hi, Hj; lia.
Qed.
Lemma pairs3 y : on_lattice 4 (2 * 2) y -> same_sites y -> pairs V3 y = RtoC (-1).
Proof.
  intros Hy Hs. unfold pairs, amplitude. cbn [vS V3]. change (zrange 0 (NQPOptTrans S3)) with [0]. change (zrange 0 (NMPTrans S3)) with [0]. change (zrange 0 (NSPGaussLeg S3)) with [0]. cbn [csum].
  replace (pfaffian S3 (vQ V3) (vbeta V3) (vsl V3) y 0 0 0) with (RtoC (-1)).
  - unfold spin_weight, opt_weight. cbn. apply Ceq; cbn; ring.
  - unfold pfaffian. change (zrange 0 (2 * Slater.Model.Ne S3)) with [0; 1; 2; 3]. rewrite <- pf_unit. apply (Pfaffian.pf_ext _ _ 4); [cbn; lia|]. intros i j Hi Hj. symmetry.
    change (half S3 (vbeta V3) 0) with 0%R. apply elem3; try assumption; cbn in Hi, Hj; lia.
Qed.
Lemma x3_on : on_lattice 4 (2 * 2) x3. Proof. intros k _. unfold x3. pose proof (Z.mod_pos_bound k 2). lia. Qed.
Lemma two' m : 0 <= m < 2 -> m = 0 \/ m = 1. Proof. lia. Qed.
Lemma x3_same : same_sites x3.
Proof. intros i j Hi Hj. destruct (two' i Hi) as [-> | ->], (two' j Hj) as [-> | ->]; reflexivity. Qed.
Lemma e3_occ : occ01 4 e3. Proof. intros rs _. unfold e3. destruct (rs mod 4 <? 2); auto. Qed.
Lemma V3_sampled rcnt : exists cnt, sampled V3 K3 (w3 cnt) rcnt (RtoC (-1)).
Proof.
  destruct (make_correct T3 (wv_T V3 V3_wf) e3 e3_occ (fun _ => 0)) as (cnt & _ & Hcnt & _).
  exists cnt. constructor.
  - exact principal_log.
  - cbn; lia.
  - constructor.
    + intros mi s Hmi Hs. cbn in Hmi. exists mi. destruct (two' mi Hmi) as [-> | ->]; assert (s = 0 \/ s = 1) as [-> | ->] by lia; cbn; repeat split; try reflexivity; lia.
    + intros r s Hr Hs. cbn in Hr. destruct (four r Hr) as [->|[->|[->| ->]]]; assert (s = 0 \/ s = 1) as [-> | ->] by lia;
        (left; split; reflexivity) || (right; exists 0; repeat split; cbn; (reflexivity || lia)) || (right; exists 1; repeat split; cbn; (reflexivity || lia)).
  - exact Hcnt.
  - discriminate.
  - intros q Hq. change (Slater.Model.NQPFull (vS V3) - 0) with 1 in Hq. assert (q = 0) as -> by lia. change (0 + 0) with 0.
    change (sites V3) with 4. change (Slater.Model.Ne (vS V3)) with 2. change (elements_of V3 (sopt0 K3) (sE0 K3)) with table3. change (Samp.Model.eleIdx (w3 cnt)) with x3. split.
    + symmetry. exact (pf3 x3 x3_on x3_same).
    + change (2 * 2) with 4. apply is_inverse_intro.
      * apply skew_spec. intros i j Hi Hj. unfold stored. cbn [sInvM K3]. unfold Inv3.
        destruct (four i Hi) as [->|[->|[->| ->]]], (four j Hj) as [->|[->|[->| ->]]]; cbn; apply Ceq; cbn; ring.
      * apply skew_spec. intros i j Hi Hj. rewrite !pm3 by (assumption || apply x3_on || apply x3_same). unfold unit_pairs.
        destruct (four i Hi) as [->|[->|[->| ->]]], (four j Hj) as [->|[->|[->| ->]]]; cbn; apply Ceq; cbn; ring.
      * apply left_inverse_spec. intros i j Hi Hj. change (zrange 0 4) with [0; 1; 2; 3]. cbn [csum]. rewrite !pm3 by (lia || apply x3_on || apply x3_same).
        unfold stored, unit_pairs, kron. cbn [sInvM K3]. unfold Inv3.
        destruct (four i Hi) as [->|[->|[->| ->]]], (four j Hj) as [->|[->|[->| ->]]]; cbn; apply Ceq; cbn; ring.
  - symmetry. rewrite <- (pairs3 x3 x3_on x3_same). apply (pairs_ok V3 V3_wf K3 x3 Pf3); [intros k Hk; apply x3_on; apply zrange_in in Hk; exact Hk|].
    intros q Hq. change (Slater.Model.NQPFull (vS V3)) with 1 in Hq. assert (q = 0) as -> by lia. symmetry. exact (pf3 x3 x3_on x3_same).
  - intros H. apply RtoC_inj in H. lra.
Qed.

(** the three-body string: up 0 -> 2, up 1 -> 3, down 0 -> 2 *)
Definition a3 (k : Z) : Z := if k =? 0 then 2 else if k =? 1 then 3 else 6.
Definition b3 (k : Z) : Z := if k =? 0 then 0 else if k =? 1 then 1 else 4.
Lemma three k : 0 <= k < 3 -> k = 0 \/ k = 1 \/ k = 2. Proof. lia. Qed.
Lemma legal3 : legal_ops V3 3 a3 b3.
Proof. intros k Hk. destruct (three k Hk) as [->|[->| ->]]; repeat split; cbn; lia. Qed.
Lemma clean3 cnt : clean V3 (w3 cnt) (operators 3 a3 b3).
Proof.
  change (operators 3 a3 b3) with [(2, 0); (3, 1); (6, 4)]. repeat split; cbn; try lia.
  all: try intros; cbn in *; repeat match goal with H : _ \/ _ |- _ => destruct H as [<-|H] | H : False |- _ => destruct H end; cbn; try lia.
Qed.
(* up on 2 and 3, down on 2 and 1 *)
Lemma moved3 cnt m : 0 <= m < 4 -> moves V3 (w3 cnt) (operators 3 a3 b3) m = if m =? 0 then 2 else if m =? 1 then 3 else if m =? 2 then 2 else 1.
Proof. intros Hm. destruct (four m Hm) as [->|[->|[->| ->]]]; reflexivity. Qed.
Lemma true3 cnt rcnt : sampled V3 K3 (w3 cnt) rcnt (RtoC (-1)) -> local V3 (operators 3 a3 b3) x3 <> RtoC 0.
Proof.
  intros HS.
  assert (Hc : consistent (sites V3) (Slater.Model.Ne (vS V3)) (w3 cnt)) by exact (sa_tables _ _ _ _ _ HS).
  assert (E := clean_value V3 (N_pos V3 V3_wf) (Ne_pos V3 V3_wf) (w3 cnt) Hc (operators 3 a3 b3) (psi V3) (clean3 cnt)). change (Samp.Model.eleIdx (w3 cnt)) with x3 in E.
  assert (P : forall e y, pairs V3 y = RtoC (-1) -> Cmult (Cmult (RtoC (correlation V3 e)) (boltzmann V3 e)) (pairs V3 y) <> RtoC 0).
  { intros e y ->. apply Cmult_neq_0; [apply Cmult_neq_0|].
    - intros X. apply RtoC_inj in X. pose proof (exp_pos (rsum (zrange 0 (NProj (vT V3))) (fun k => fst (vProj V3 k) * IZR (counter (vT V3) e k))%R)). unfold correlation in X. lra.
    - intros X. apply RtoC_inj in X. lra.
    - intros X. apply RtoC_inj in X. lra. }
  unfold local. rewrite E. intros X. apply (f_equal Cconj) in X. match type of X with Cconj (Cconj ?z) = _ => replace (Cconj (Cconj z)) with z in X by (apply Ceq; cbn [Cconj fst snd]; ring) end. replace (Cconj (RtoC 0)) with (RtoC 0) in X by (apply Ceq; cbn; ring).
  assert (P1 : psi V3 (moves V3 (w3 cnt) (operators 3 a3 b3)) <> RtoC 0).
  { apply P. apply pairs3.
    - intros k Hk. rewrite moved3 by lia. destruct (four k ltac:(lia)) as [->|[->|[->| ->]]]; cbn; lia.
    - intros i j Hi Hj. rewrite !moved3 by lia. destruct (two' i Hi) as [-> | ->], (two' j Hj) as [-> | ->]; reflexivity. }
  assert (P2 : psi V3 x3 <> RtoC 0) by (apply P; apply pairs3; [apply x3_on|apply x3_same]).
  apply P1. transitivity (Cmult (Cdiv (psi V3 (moves V3 (w3 cnt) (operators 3 a3 b3))) (psi V3 x3)) (psi V3 x3)); [unfold Cdiv; rewrite <- Cmult_assoc, Cinv_l, Cmult_1_r by exact P2; reflexivity|].
  rewrite X. ring.
Qed.
Lemma code3 cnt rcnt skpfa lda k0 : sampled V3 K3 (w3 cnt) rcnt (RtoC (-1)) -> (forall m l A, Z.odd m = true -> skpfa m l A = RtoC 0) -> starts (w3 cnt) k0 ->
  good (w3 cnt) (RtoC 0) (green_n (env_of V3 K3) (new_pfmn (env_of V3 K3) skpfa lda) 1 3 a3 b3 (RtoC (-1)) (Samp.Model.eleCfg (w3 cnt)) cnt rcnt k0).
Proof.
  intros HS Ho Hk0. cbn [green_n]. change (gNsite (env_of V3 K3)) with 4.
  change (existsb _ _) with false. cbn [Z.leb Z.compare Pos.compare Pos.compare_cont Z.eqb Pos.eqb]. 
  destruct (starts_eq (w3 cnt) k0 Hk0) as (Ex & Ee). rewrite Ee. change (reduce_all 3 a3 b3 (Samp.Model.eleNum (w3 cnt))) with (@None reduced). cbv iota.
  apply (all_moves_zero V3 V3_wf (w3 cnt) K3 rcnt (RtoC (-1)) HS _ 3 a3 b3 ltac:(lia) (clean3 cnt) k0); [|exact Hk0].
  intros q msj y. unfold new_pfmn. cbv zeta. rewrite Ho by reflexivity. ring.
Qed.
Lemma ideal_kernel : exists kernel, forall cnt, pfaffian_routine V3 K3 (w3 cnt) kernel.
Proof.
  exists (fun q _ _ _ y => pf (pair_matrix (sites V3) (Slater.Model.Ne (vS V3)) (elements_of V3 (sopt0 K3) (sE0 K3)) q y) (labels V3)).
  intros cnt q n msj rsj y _ _ _ _ _ _. reflexivity.
Qed.
Lemma kernel_refuted : exists V K w rcnt ip a b,
  wf_wave V /\ sampled V K w rcnt ip /\ (forall i, 0 <= i < 3 -> operator V (a i, b i)) /\
  local V (operators 3 a b) (Samp.Model.eleIdx w) <> RtoC 0 /\
  forall skpfa lda k, (forall m l A, Z.odd m = true -> skpfa m l A = RtoC 0) -> starts w k ->
    exists k', green_n (env_of V K) (new_pfmn (env_of V K) skpfa lda) 1 3 a b ip (Samp.Model.eleCfg w) (eleProjCnt w) rcnt k = Some (RtoC 0, k').
Proof.
  destruct (V3_sampled (fun _ => RtoC 0)) as (cnt & HS). exists V3, K3, (w3 cnt), (fun _ => RtoC 0), (RtoC (-1)), a3, b3.
  split; [exact V3_wf|]. split; [exact HS|]. split; [exact legal3|]. split; [exact (true3 cnt _ HS)|].
  intros skpfa lda k Ho Hk. destruct (code3 cnt _ skpfa lda k HS Ho Hk) as (k' & E & _). exists k'. exact E.
Qed.
