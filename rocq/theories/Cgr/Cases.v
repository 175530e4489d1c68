(** Requests on the lattices of Green/Cases.v and Gfz/Cases.v; a race between two threads; a request that changes the spin. *)
From Coq Require Import ZArith List Bool Lia Reals Lra Permutation.
From Coquelicot Require Import Complex.
From Verif Require Import Base.ZLoop Base.Checked Base.RSum Slater.Model Samp.Model Green.Model Green.Spec Green.Cases Green.Proofs Ham.Model Gfz.Model Gfz.Spec Gfz.Proofs Gfz.Cases Fsz.Cases Hfz.Model Hfz.Proofs Cgr.Model Cgr.Spec Cgr.Proofs.
From Verif Require Ham.Spec Ham.Proofs SR.Proofs.
Import ListNotations.
Local Open Scope Z_scope.

Definition rows (l : list (list Z)) (i c : Z) : Z := nth (Z.to_nat c) (nth (Z.to_nat i) l []) 0.
Definition m0 : meas := Meas (fun _ => RtoC 9) (fun _ => RtoC 8) (fun _ => RtoC 0) (fun _ => RtoC 0) (fun _ => RtoC 0).
(** ** three one-body rows, two two-body rows, two products; two threads *)
Definition Q3 : requests := Req 3 (rows [[2; 0; 1; 0]; [1; 0; 2; 0]; [0; 1; 0; 1]]) 2 (rows [[2; 0; 1; 0; 2; 1; 1; 1]; [0; 0; 2; 0; 3; 1; 0; 1]]) 2 (rows [[0; 1]; [2; 2]]).
Lemma Q3_ok : requests_ok (sites V3) Q3.
Proof.
  constructor; cbn [Q3 NCisAjs CisAjsIdx NDC DCIdx NAlt AltIdx]; intros i Hi; change (sites V3) with 4;
    [assert (i = 0 \/ i = 1 \/ i = 2) as [-> |[-> | ->]] by lia|assert (i = 0 \/ i = 1) as [-> | ->] by lia|assert (i = 0 \/ i = 1) as [-> | ->] by lia]; unfold site_spin; cbv; intuition discriminate.
Qed.
Lemma Q3_kept : requests_kept Q3.
Proof.
  split; cbn [Q3 NCisAjs CisAjsIdx NDC DCIdx]; intros i Hi; [assert (i = 0 \/ i = 1 \/ i = 2) as [-> |[-> | ->]] by lia|assert (i = 0 \/ i = 1) as [-> | ->] by lia]; repeat split.
Qed.
Definition P3 (sp : Z -> work) : gsched := GSched sp [(1, false, 2); (0, false, 0); (1, true, 0); (0, false, 1); (0, true, 1)] [(2, 0); (0, 0); (1, 0); (0, 1); (1, 1); (0, 2); (2, 1)].
Lemma P3_ok sp : g_execution Q3 (P3 sp).
Proof.
  assert (R1 : rows1 Q3 = [(false, 0); (false, 1); (false, 2); (true, 0); (true, 1)]) by (vm_compute; reflexivity).
  assert (R2 : rows2 Q3 = [(0, 0); (0, 1); (0, 2); (1, 0); (1, 1); (2, 0); (2, 1)]) by (vm_compute; reflexivity).
  split; apply NoDup_Permutation; try apply rows1_nodup; try apply rows2_nodup; rewrite ?R1, ?R2; cbn [P3 phase1 phase2 map fst snd].
  - repeat (constructor; [cbn; intuition congruence|]). constructor.
  - intros (b, i). cbn. intuition congruence.
  - repeat (constructor; [cbn; intuition congruence|]). constructor.
  - intros (b, i). cbn. intuition congruence.
Qed.
(** ** general spins *)
Definition Qr : requests := Req 2 (rows [[0; 1; 1; 0]; [0; 1; 0; 1]]) 1 (rows [[0; 0; 0; 1; 1; 1; 1; 0]]) 1 (rows [[0; 0]]).
Lemma Qr_ok : requests_ok (fsites Vg) Qr.
Proof.
  constructor; cbn [Qr NCisAjs CisAjsIdx NDC DCIdx NAlt AltIdx]; intros i Hi; change (fsites Vg) with 2;
    [assert (i = 0 \/ i = 1) as [-> | ->] by lia|assert (i = 0) as -> by lia|assert (i = 0) as -> by lia]; unfold site_spin; cbv; intuition discriminate.
Qed.
Definition Pr (sp : Z -> fwork) pv : fgsched := FGSched sp [Assign 1 false 1; Call 1; Assign 0 false 0; Call 0; Assign 1 true 0; Call 1] [(2, 0); (0, 1); (0, 0)] (ShVars 7 7 7) pv.
Lemma Pr_ok sp pv : no_overlap Qr (Pr sp pv).
Proof.
  assert (R1 : rows1 Qr = [(false, 0); (false, 1); (true, 0)]) by (vm_compute; reflexivity).
  assert (R2 : rows2_fsz Qr = [(0, 0); (0, 1); (2, 0)]) by (vm_compute; reflexivity).
  exists [(1, false, 1); (0, false, 0); (1, true, 0)]. split; [reflexivity|]. split; apply NoDup_Permutation; try apply rows1_nodup; try apply rows2_fsz_nodup; rewrite ?R1, ?R2; cbn [Pr fphase2 map fst snd].
  - repeat (constructor; [cbn; intuition congruence|]). constructor.
  - intros (b, i). cbn. intuition congruence.
  - repeat (constructor; [cbn; intuition congruence|]). constructor.
  - intros (b, i). cbn. intuition congruence.
Qed.
(** *** the race: thread 1 overwrites t between the assignments and the call of thread 0 *)
Definition Qx : requests := Req 2 (rows [[0; 1; 1; 0]; [0; 1; 0; 1]]) 0 (rows []) 0 (rows []).
Lemma Qx_ok : requests_ok (fsites Vg) Qx.
Proof.
  constructor; cbn [Qx NCisAjs CisAjsIdx NDC DCIdx NAlt AltIdx]; intros i Hi; change (fsites Vg) with 2; try lia. assert (i = 0 \/ i = 1) as [-> | ->] by lia; unfold site_spin; cbv; intuition discriminate.
Qed.
Definition Px : fgsched := FGSched (fun _ => kg) [Assign 0 false 0; Assign 1 false 1; Call 0; Call 1] [(0, 0); (0, 1)] (ShVars 0 0 0) (fun _ => PVars false 0 0 0 0 0 0 0).
Lemma Px_overlap : any_overlap Qx Px.
Proof.
  split; [|split; [|apply Permutation_refl]].
  - apply Permutation_refl.
  - intros th. cbn [Px fphase1 filter]. rewrite (Z.eqb_sym 0 th), (Z.eqb_sym 1 th). destruct (Z.eqb_spec th 0) as [->|N0]; [exists [(false, 0)]; reflexivity|]. destruct (Z.eqb_spec th 1) as [->|N1]; [exists [(false, 1)]; reflexivity|exists []; reflexivity].
Qed.
Lemma spaces_g cnt t : forall rs, 0 <= rs < 4 -> fNum (fcopy_tables Gg eg (Samp.Model.eleIdx (wg cnt)) (Samp.Model.eleSpn (wg cnt)) (fgspace Px t)) rs = eg rs.
Proof. intros rs Hrs. unfold fcopy_tables. cbn [fNum]. apply (fcopy_get 4 eg _ rs Hrs). Qed.
Lemma race_value cnt : exists m', calculate_green_fsz Qx 1 Gg (RtoC (-30)) (Samp.Model.eleCfg (wg cnt)) eg (eleProjCnt (wg cnt)) Px (Samp.Model.eleIdx (wg cnt)) (Samp.Model.eleSpn (wg cnt)) m0 = Some m' /\ mPh1 m' 0 = RtoC 0.
Proof.
  unfold calculate_green_fsz. set (sp := fun t => fcopy_tables Gg eg (Samp.Model.eleIdx (wg cnt)) (Samp.Model.eleSpn (wg cnt)) (fgspace Px t)).
  assert (S2 : forall t, fNum (sp t) 2 = 0) by (intros t; unfold sp; now rewrite spaces_g by lia). assert (S3 : forall t, fNum (sp t) 3 = 0) by (intros t; unfold sp; now rewrite spaces_g by lia).
  assert (G0 : forall c q k, fNum k 2 = 0 -> fNum k 3 = 0 -> green1_fsz Gg 0 1 1 (RtoC (-30)) c q k = Some (RtoC 0, k)).
  { intros c q k E2 E3. unfold green1_fsz. change (gNsite Gg) with 2. rewrite !rd_ok by lia. cbn [bind]. change (0 + 1 * 2) with 2. change (1 + 1 * 2) with 3. now rewrite E2, E3. }
  assert (G1 : forall c q k, fNum k 2 = 0 -> green1_fsz Gg 0 0 1 (RtoC (-30)) c q k = Some (RtoC (IZR 0), k)).
  { intros c q k E2. unfold green1_fsz. change (gNsite Gg) with 2. rewrite !rd_ok by lia. cbn [bind]. change (0 + 1 * 2) with 2. now rewrite E2. }
  cbn [Px fphase1 fpv0 fsh0]. rewrite !all_cons. unfold assign at 1. cbn [bind]. rewrite !all_cons. unfold assign at 1. cbn [bind fg_sp fg_pv fg_sh fg_m]. rewrite !all_cons. unfold call at 1. cbn [fg_sp fg_pv fg_sh fg_m].
  change (upd (upd (fun _ : Z => PVars false 0 0 0 0 0 0 0) 0 (PVars false 0 (CisAjsIdx Qx 0 0) (CisAjsIdx Qx 0 2) (CisAjsIdx Qx 0 1) 0 0 0)) 1 (PVars false 1 (CisAjsIdx Qx 1 0) (CisAjsIdx Qx 1 2) (CisAjsIdx Qx 1 1) 0 0 0) 0) with (PVars false 0 0 1 1 0 0 0).
  cbn [p_two p_s p_ri p_rj p_idx sh_t]. change (CisAjsIdx Qx 1 3) with 1. change (1 =? 1) with true. cbn iota. rewrite G0 by auto. cbn [bind fst snd]. rewrite wr_ok by (cbn; lia). cbn [bind]. rewrite !all_cons. unfold call at 1. cbn [fg_sp fg_pv fg_sh fg_m].
  change (upd (upd (fun _ : Z => PVars false 0 0 0 0 0 0 0) 0 (PVars false 0 (CisAjsIdx Qx 0 0) (CisAjsIdx Qx 0 2) (CisAjsIdx Qx 0 1) 0 0 0)) 1 (PVars false 1 (CisAjsIdx Qx 1 0) (CisAjsIdx Qx 1 2) (CisAjsIdx Qx 1 1) 0 0 0) 1) with (PVars false 1 0 0 1 0 0 0).
  cbn [p_two p_s p_ri p_rj p_idx sh_t]. change (1 =? 1) with true. cbn iota. rewrite G1 by (rewrite Base.ZLoop.upd_other by lia; auto). cbn [bind fst snd]. rewrite wr_ok by (cbn; lia). cbn [bind].
  unfold all. cbn [fold_left bind Px fphase2 fg_m]. unfold accumulate, addC. cbn [fst snd Z.eqb]. change (NCisAjs Qx) with 2. rewrite !rd_ok by lia. cbn [bind]. rewrite wr_ok by lia. cbn [bind mLoc1 mPh1]. rewrite !rd_ok by lia. cbn [bind]. rewrite wr_ok by lia. cbn [bind].
  eexists. split; [reflexivity|]. cbn [mPh1 m0]. unfold upd. cbn. apply SR.Proofs.Ceq; cbn; lra.
Qed.
Lemma race_refuted : exists V G wk ip Q P m m', wf_fwave V /\ sampled_fsz V G wk ip /\ requests_ok (fsites V) Q /\ any_overlap Q P /\
  calculate_green_fsz Q 1 G ip (Samp.Model.eleCfg wk) (Samp.Model.eleNum wk) (eleProjCnt wk) P (Samp.Model.eleIdx wk) (Samp.Model.eleSpn wk) m = Some m' /\
  ~ adds Q (fsites V) 1 (fun ops => flocal V ops (config V wk)) m m'.
Proof.
  destruct Vg_sampled as (cnt & HS). destruct (race_value cnt) as (m' & E & Ev). exists Vg, Gg, (wg cnt), (RtoC (-30)), Qx, Px, m0, m'.
  split; [exact Vg_wf|]. split; [exact HS|]. split; [exact Qx_ok|]. split; [exact Px_overlap|]. split; [exact E|]. intros (A & _). specialize (A 0 ltac:(cbn; lia)). rewrite Ev in A.
  change (row1 (fsites Vg) (CisAjsIdx Qx 0)) with [(2, 1)] in A. rewrite value_g in A. apply (f_equal fst) in A. cbn in A. pose proof (exp_pos (-1)). lra.
Qed.
(** ** fixed spins, row 0 0 0 1: creates an up electron and annihilates a down one *)
Definition Qs : requests := Req 1 (rows [[0; 0; 0; 1]]) 0 (rows []) 0 (rows []).
Lemma Qs_ok : requests_ok (sites V3) Qs.
Proof. constructor; cbn [Qs NCisAjs CisAjsIdx NDC DCIdx NAlt AltIdx]; intros i Hi; change (sites V3) with 4; try lia. assert (i = 0) as -> by lia. unfold site_spin; cbv; intuition discriminate. Qed.
Definition Ps : gsched := GSched (fun _ => Work x3 e3 (fun _ => 0) (fun _ => RtoC 0) (fun _ => RtoC 0)) [(0, false, 0)] [(0, 0)].
Lemma flip_green_refuted : exists V K wk rcnt ip Q P m m', wf_wave V /\ sampled V K wk rcnt ip /\ requests_ok (sites V) Q /\ g_execution Q P /\
  calculate_green Q 1 (env_of V K) ip (Samp.Model.eleCfg wk) (Samp.Model.eleNum wk) (eleProjCnt wk) rcnt P (Samp.Model.eleIdx wk) m = Some m' /\
  ~ adds Q (sites V) 1 (fun ops => Ham.Spec.local_any V ops (Samp.Model.eleIdx wk)) m m'.
Proof.
  destruct (V3_sampled (fun _ => RtoC 0)) as (cnt & HS).
  assert (HP : g_execution Qs Ps) by (split; apply Permutation_refl).
  destruct (green_ignored V3 V3_wf K3 (w3 cnt) _ _ HS Qs 1%R Qs_ok Ps HP m0) as (m' & E & A & _).
  exists V3, K3, (w3 cnt), (fun _ => RtoC 0), (RtoC (-1)), Qs, Ps, m0, m'. split; [exact V3_wf|]. split; [exact HS|]. split; [exact Qs_ok|]. split; [exact HP|]. split; [exact E|].
  intros (B & _). specialize (A 0 ltac:(cbn; lia)). specialize (B 0 ltac:(cbn; lia)). rewrite A in B.
  change (row1 (sites V3) (CisAjsIdx (spins_read Qs) 0)) with [Ham.Spec.number 4] in B. change (row1 (sites V3) (CisAjsIdx Qs 0)) with [(0, 4)] in B.
  unfold Ham.Spec.local_any in B. change (0 / sites V3 =? 4 / sites V3) with false in B.
  rewrite (local_1 V3 V3_wf (w3 cnt) K3 _ _ HS) in B.
  - apply (f_equal fst) in B. cbn in B. lra.
  - rewrite (Ham.Proofs.string_number V3 V3_wf (w3 cnt) (sa_tables _ _ _ _ _ HS) 4 (psi V3)) by (change (sites V3) with 4; lia). change (Samp.Model.eleNum (w3 cnt) 4) with 1. ring.
Qed.
