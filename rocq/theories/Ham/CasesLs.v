(** Concrete cases for the local values of H*H; the machine's counters are missing in the two-body terms. *)
From Coq Require Import ZArith List Bool Lia Reals Lra Permutation.
From Coquelicot Require Import Complex.
From Verif Require Import Base.ZLoop Base.Checked Base.RSum Proj.Model Proj.Spec Pf.Pfaffian Pf.Spec Pf.Proofs Pf.ProofsSeq Slater.Model Slater.Spec Slater.ProofsProp Slater.Cases Rbm.Model Rbm.Spec Rbm.Proofs Rbm.Cases Samp.Model Samp.Spec
  Green.Model Green.Spec Green.Moves Green.Cases Ham.Model Ham.Spec Ham.Proofs Ham.ProofsFlip Ham.ProofsLs Ham.Cases.
From Verif Require SR.Proofs.
Notation Ceq := SR.Proofs.Ceq (only parsing).
Import ListNotations.
Local Open Scope Z_scope.

(** with one projection no Pfaffian can vanish alone *)
Lemma one_projection V : NQPOptTrans (vS V) = 1 -> NMPTrans (vS V) = 1 -> NSPGaussLeg (vS V) = 1 -> no_partial_zero V.
Proof.
  intros E1 E2 E3 y _ Hp o m s (H1 & H2 & H3) E. rewrite E1 in H1. rewrite E2 in H2. rewrite E3 in H3.
  assert (o = 0) as -> by lia. assert (m = 0) as -> by lia. assert (s = 0) as -> by lia.
  apply Hp. unfold pairs, amplitude. rewrite E1, E2, E3. change (zrange 0 1) with [0]. cbn [csum]. rewrite E. ring.
Qed.
Lemma V3_regular : no_partial_zero V3. Proof. apply one_projection; reflexivity. Qed.
(** two projections, all pair amplitudes positive *)
Lemma V2_regular : no_partial_zero V2.
Proof.
  intros y Hy _ o m s (H1 & H2 & H3). cbn in H1, H2, H3. assert (m = 0) as -> by lia. assert (s = 0) as -> by lia.
  assert (Y0 : y 0 = 0 \/ y 0 = 1) by (specialize (Hy 0); change (sites V2) with 2 in Hy; change (labels V2) with [0; 1] in Hy; cbn in Hy; lia).
  assert (Y1 : y 1 = 0 \/ y 1 = 1) by (specialize (Hy 1); change (sites V2) with 2 in Hy; change (labels V2) with [0; 1] in Hy; cbn in Hy; lia).
  unfold pfaffian. cbn [V2 vS vQ vbeta vsl]. change (zrange 0 (2 * Slater.Model.Ne S_ex)) with [0; 1]. rewrite pf_two_by_two.
  change (half S_ex (fun _ : Z => 0%R) 0) with 0%R. change (Slater.Model.Nsite S_ex) with 2. change (Slater.Model.Ne S_ex) with 1.
  unfold element, orbital. change (0 / 1) with 0. change (1 / 1) with 1.
  destruct (Slater.Cases.two o H1) as [-> | ->], Y0 as [-> | ->], Y1 as [-> | ->]; unfold pair, image, sign, up, down, sl_ex, T_ex; cbn -[cos sin]; rewrite ?cos_0, ?sin_0; intros F; apply (f_equal fst) in F; cbn in F; lra.
Qed.
(** hopping and repulsion on two sites *)
Definition H_hop : terms := Terms 2 (fun k => k) (fun _ => 5%R) 1 (fun _ c => c) (fun _ => 1%R) 0 none2 (fun _ => 0%R) 2 (fun k c => if c =? 0 then 1 else if c =? 2 then 0 else k) (fun k => (1, IZR k)%R) 0 none2 (fun _ => 0%R)
  0 none2 (fun _ => 0%R) 0 none2 (fun _ => RtoC 0).
Lemma H_hop_sites : sites_ok V2 H_hop.
Proof.
  constructor; cbn [H_hop NIntra Intra NInter Inter NHund Hund NTransfer Transfer NPair Pair NExchange Exchange NInterAll InterAll]; intros k Hk; unfold site, spin, none1; change (sites V2) with 2; try lia.
  destruct (one_two k Hk) as [-> | ->]; cbv; intuition discriminate.
Qed.
Lemma H_hop_spins : spins_kept H_hop.
Proof. split; cbn; intros k Hk; [destruct (one_two k Hk) as [-> | ->]; reflexivity|lia]. Qed.
Lemma H_hop_one : ~ two_body H_hop. Proof. unfold two_body. cbn. lia. Qed.
Lemma H_all_two : two_body H_all. Proof. left. cbn. lia. Qed.
(** one thread *)
Definition P_all (n : Z -> Z) (w0 : work) : sched := Sched 1 (fun l _ => zrange 0 (n l)) (fun _ => w0).
Lemma P_all_ok n w0 : execution n (P_all n w0).
Proof. intros l Hl. unfold P_all. cbn [threads plan]. change (zrange 0 1) with [0]. cbn [flat_map]. rewrite app_nil_r. apply Permutation_refl. Qed.

(** ** a machine with one charge neuron added to the four sites; c+_2,up c_0,up c+_3,down c_1,down *)
Definition M4 : machine := Machine 4 1 0 0 1 0 0 1 0 0 1 0 0 1 (fun _ => 0) (fun _ => 0) (fun _ => 0) (fun _ => 0) (fun _ => 0) (fun _ => 0) (fun _ _ => 0) (fun _ _ => 0) (fun _ _ => 0).
Definition V4 : wave := {| vS := S3; vQ := Q3; vstot := 0; vbeta := fun _ => 0%R; vweight := fun _ => 0%R; vpara := one_ex; vflag := false; vopt := one_ex; vsl := sl3;
  vT := T3; vProj := fun _ => RtoC (-1); vFlagRBM := true; vM := M4; vRBM := wa |}.
Lemma M4_wf : wf_machine M4. Proof. constructor; cbn; unfold below; intros; lia. Qed.
Lemma V4_wf : wf_wave V4.
Proof.
  constructor.
  - exact (wv_valid V3 V3_wf).
  - exact (wv_T V3 V3_wf).
  - exact M4_wf.
  - split; reflexivity.
  - intros _ e _. apply real_weight. intros. reflexivity.
Qed.
Lemma V4_sampled : exists cnt rcnt, sampled V4 K3 (w3 cnt) rcnt (RtoC (-1)).
Proof.
  destruct (make_cells M4 M4_wf wa (fun _ => RtoC 0) e3) as (rcnt & _ & Hrcnt). destruct (V3_sampled rcnt) as (cnt & HS). exists cnt, rcnt. constructor.
  - exact (sa_log _ _ _ _ _ HS).
  - exact (sa_num _ _ _ _ _ HS).
  - exact (sa_tables _ _ _ _ _ HS).
  - exact (sa_cnt _ _ _ _ _ HS).
  - intros _. exact Hrcnt.
  - exact (sa_mat _ _ _ _ _ HS).
  - exact (sa_ip _ _ _ _ _ HS).
  - exact (sa_nz _ _ _ _ _ HS).
Qed.
Lemma V4_regular : no_partial_zero V4. Proof. apply one_projection; reflexivity. Qed.
Definition H_four : terms := Terms 0 none1 (fun _ => 0%R) 0 none2 (fun _ => 0%R) 0 none2 (fun _ => 0%R) 0 none2 (fun _ => RtoC 0) 0 none2 (fun _ => 0%R) 0 none2 (fun _ => 0%R)
  1 (fun _ c => if c =? 0 then 2 else if c =? 4 then 3 else if c <? 5 then 0 else 1) (fun _ => RtoC 1).
Lemma H_four_sites : sites_ok V4 H_four.
Proof.
  constructor; cbn [H_four NIntra Intra NInter Inter NHund Hund NTransfer Transfer NPair Pair NExchange Exchange NInterAll InterAll]; intros k Hk; unfold site, spin; change (sites V4) with 4; try lia.
  cbv; intuition discriminate.
Qed.
Lemma H_four_spins : spins_kept H_four. Proof. split; cbn; intros k Hk; [lia|split; reflexivity]. Qed.
Definition q4 : list (Z * Z) := [(2, 0); (7, 5)].
Lemma pairs_zero cnt : pairs V4 (moves V4 (w3 cnt) q4) = RtoC 0.
Proof.
  unfold pairs, amplitude. cbn [vS V4]. change (zrange 0 (NQPOptTrans S3)) with [0]. change (zrange 0 (NMPTrans S3)) with [0]. change (zrange 0 (NSPGaussLeg S3)) with [0]. cbn [csum].
  replace (pfaffian S3 (vQ V4) (vbeta V4) (vsl V4) (moves V4 (w3 cnt) q4) 0 0 0) with (RtoC 0); [ring|]. symmetry.
  unfold pfaffian. change (zrange 0 (2 * Slater.Model.Ne S3)) with [0; 1; 2; 3].
  rewrite (Pfaffian.pf_ext _ (fun _ _ => RtoC 0) 4); [unfold pf; cbn; apply Ceq; cbn; ring|cbn; lia|]. intros i j Hi Hj.
  change (half S3 (vbeta V4) 0) with 0%R. change (Slater.Model.Nsite S3) with 4. change (Slater.Model.Ne S3) with 2.
  assert (I : 0 <= i < 4) by (cbn in Hi; lia). assert (J : 0 <= j < 4) by (cbn in Hj; lia).
  destruct (four i I) as [->|[->|[->| ->]]], (four j J) as [->|[->|[->| ->]]]; unfold element, orbital, pair, image, sign, up, down; cbn -[cos sin]; rewrite ?cos_0, ?sin_0; apply Ceq; cbn; lra.
Qed.
Lemma rbm_refuted : exists V K w rcnt ip H kernel, wf_wave V /\ no_partial_zero V /\ sampled V K w rcnt ip /\ sites_ok V H /\ spins_kept H /\ pfaffian_routine V K w kernel /\
  forall own sh P0 P h1, holds K w sh -> execution (count H) P0 -> ls_local_q (env_of V K) H kernel own (eleProjCnt w) rcnt P0 P h1 ip sh = None.
Proof.
  destruct V4_sampled as (cnt & rcnt & HS).
  set (kernel := fun q (_ : Z) (_ _ : Z -> Z) y => Pfaffian.pf (pair_matrix (sites V4) (Slater.Model.Ne (vS V4)) (elements_of V4 (sopt0 K3) (sE0 K3)) q y) (labels V4)).
  exists V4, K3, (w3 cnt), rcnt, (RtoC (-1)), H_four, kernel. split; [exact V4_wf|]. split; [exact V4_regular|]. split; [exact HS|]. split; [exact H_four_sites|]. split; [exact H_four_spins|].
  assert (Hker : pfaffian_routine V4 K3 (w3 cnt) kernel) by (intros q n msj rsj y _ _ _ _ _ _; reflexivity).
  split; [exact Hker|]. intros own sh P0 P h1 Hh HP0. rewrite (holds_eq K3 (w3 cnt) sh Hh).
  unfold ls_local_q. change (hNum (sh0 K3 (w3 cnt))) with (Samp.Model.eleNum (w3 cnt)).
  change (genv (env_of V4 K3) (sh0 K3 (w3 cnt))) with (env_of V4 K3).
  rewrite (hamiltonian0_diag V4 V4_wf (w3 cnt) H_four H_four_sites (env_of V4 K3) eq_refl P0 HP0). cbn [bind].
  unfold calculate_hk, calculate_hw. change (NTransfer H_four) with 0. change (NPair H_four) with 0. change (NExchange H_four) with 0. change (NInterAll H_four) with 1. rewrite !loopM_nil by lia. cbn [bind snd].
  assert (E : forall Q, cal_hcaca (env_of V4 K3) H_four kernel own (eleProjCnt (w3 cnt)) rcnt Q 2 0 3 1 0 1 h1 (RtoC (-1)) (sh0 K3 (w3 cnt)) = None).
  { intros Q. unfold cal_hcaca. change (gNsite (env_of V4 K3)) with 4. change (hNum (sh0 K3 (w3 cnt))) with e3. rewrite !rd_ok by lia. cbn [bind].
    change (e3 (0 + 0 * 4)) with 1. change (e3 (2 + 0 * 4)) with 0. change (e3 (3 + 1 * 4)) with 0. change (e3 (1 + 1 * 4)) with 1. cbn [Z.eqb Z.add Z.mul Pos.eqb Pos.mul Pos.add].
    rewrite (check_gf2_ok V4 V4_wf K3 (w3 cnt) rcnt (RtoC (-1)) HS own 2 0 3 1 0 1) by (reflexivity || (change (sites V4) with 4; lia)). cbn [bind fst snd].
    destruct (Rlt_dec tiny _) as [L|L].
    - exfalso. change (sites V4) with 4 in L. change [(2 + 0 * 4, 0 + 0 * 4); (3 + 1 * 4, 1 + 1 * 4)] with q4 in L. rewrite pairs_zero in L. unfold Cdiv in L. rewrite Cmult_0_l, Cmod_0 in L. pose proof tiny_pos. lra.
    - reflexivity. }
  unfold loopM. change (zrange 0 1) with [0]. cbn [fold_left bind fst snd add_val]. change (InterAll H_four 0 0) with 2. change (InterAll H_four 0 2) with 0. change (InterAll H_four 0 4) with 3. change (InterAll H_four 0 6) with 1. change (InterAll H_four 0 3) with 0. change (InterAll H_four 0 7) with 1. unfold add_val. change (zrange 0 0) with (@nil Z). cbn [fold_left bind fst snd]. now rewrite E.
Qed.
