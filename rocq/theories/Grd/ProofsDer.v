(** The assembled vector holds the logarithmic derivatives. *)
From Coq Require Import ZArith List Bool Lia Reals Lra FunctionalExtensionality.
From Coquelicot Require Import Coquelicot.
From Verif Require Import Base.ZLoop Base.Checked Base.RSum Proj.Model Proj.Spec Pf.Pfaffian Pf.Spec Slater.Model Slater.Spec Slater.Derive Slater.ProofsProp
  Rbm.Model Rbm.Spec Rbm.Proofs Rbm.ProofsDiff Samp.Model Samp.Spec Green.Model Green.Spec Green.Anti Green.Moves Green.Core Grd.Model Grd.Spec.
From Verif Require Green.Proofs.
Import ListNotations.
Local Open Scope Z_scope.

(** ** cells of the correlation factors *)
Lemma opt_proj_cells n cnt O : 0 <= n -> let O' := opt_proj n cnt O in
  O' 0 = RtoC 1 /\ O' 1 = RtoC 0 /\ (forall k, 0 <= k < n -> O' (2 * k + 2) = RtoC (IZR (cnt k)) /\ O' (2 * k + 3) = RtoC 0) /\
  (forall i, ~ 0 <= i < 2 * n + 2 -> O' i = O i).
Proof.
  intros Hn. unfold opt_proj. cbv zeta.
  set (O1 := upd (upd O 0 (RtoC 1)) 1 (RtoC 0)).
  assert (H1 : O1 0 = RtoC 1 /\ O1 1 = RtoC 0 /\ forall i, ~ 0 <= i < 2 -> O1 i = O i).
  { unfold O1. split; [rewrite upd_other, upd_same by lia; reflexivity|]. split; [apply upd_same|]. intros i Hi. rewrite !upd_other by lia. reflexivity. }
  clearbody O1. destruct H1 as (A & B & Cc).
  apply (loop_inv (fun j O' => O' 0 = RtoC 1 /\ O' 1 = RtoC 0 /\ (forall k, 0 <= k < j -> O' (2 * k + 2) = RtoC (IZR (cnt k)) /\ O' (2 * k + 3) = RtoC 0) /\ (forall i, ~ 0 <= i < 2 * j + 2 -> O' i = O i))).
  - exact Hn.
  - split; [exact A|]. split; [exact B|]. split; [intros; lia|]. intros i Hi. apply Cc. lia.
  - intros i O' Hi (a & b & c & d). split; [rewrite !upd_other by lia; exact a|]. split; [rewrite !upd_other by lia; exact b|]. split.
    + intros k Hk. destruct (Z.eq_dec k i) as [->|Ne].
      * split; [rewrite upd_other by lia; replace (2 * i + 2) with ((i + 1) * 2) by lia; now rewrite upd_same|replace (2 * i + 3) with ((i + 1) * 2 + 1) by lia; now rewrite upd_same].
      * rewrite !upd_other by lia. apply c. lia.
    + intros k Hk. rewrite !upd_other by lia. apply d. lia.
Qed.

(** ** the machine part writes its own cells only *)
Section Keeps.
Variables (M : machine) (p : Z).
Hypothesis Hp : ~ 0 <= p < 2 * NRBM M.
Definition keeps (f : (Z -> C) -> option (Z -> C)) : Prop := forall O O', f O = Some O' -> O' p = O p.
Lemma keeps_wr i v : keeps (fun O => wr (2 * NRBM M) O i v).
Proof. intros O O' E. unfold wr in E. destruct (inb (2 * NRBM M) i) eqn:Ei; [|discriminate]. injection E as <-. apply upd_other. intros ->. apply Hp. unfold inb in Ei. lia. Qed.
Lemma keeps_cinc i v : keeps (fun O => cinc (2 * NRBM M) O i v).
Proof. intros O O' E. unfold cinc in E. destruct (inb (2 * NRBM M) i) eqn:Ei; [|discriminate]. injection E as <-. apply upd_other. intros ->. apply Hp. unfold inb in Ei. lia. Qed.
Lemma keeps_bind f g : keeps f -> keeps g -> keeps (fun O => O <- f O;; g O).
Proof. intros F G O O' E. destruct (f O) as [O1|] eqn:E1; [|discriminate]. cbn in E. rewrite (G _ _ E). now apply F. Qed.
Lemma keeps_loop a b f : (forall i, keeps (f i)) -> keeps (loopM a b f).
Proof.
  intros F O O' E. unfold loopM in E. revert O E. induction (zrange a b) as [|i l IH]; intros O E; cbn [fold_left] in E.
  - now injection E as <-.
  - cbn [bind] in E. destruct (f i O) as [O1|] eqn:E1; [|rewrite fold_bind_none in E; discriminate]. rewrite (IH _ E). now apply (F i).
Qed.
Lemma keeps_put2 i v : keeps (fun O => put2 M O i v).
Proof. unfold put2. apply keeps_bind; apply keeps_cinc. Qed.
Lemma keeps_family nn sz hid ph first oh op x c : keeps (diff_family M nn sz hid ph first oh op x c).
Proof.
  unfold diff_family. apply keeps_loop. intros hi O O' E.
  destruct (rd nn hid hi) as [idx|]; [|discriminate]. cbn [bind] in E. destruct (rd _ c (hi + first)) as [th|]; [|discriminate]. cbn [bind] in E. cbv zeta in E.
  revert E. apply (keeps_bind (fun O => put2 M O (2 * idx + oh) (ctanh th))); [apply keeps_put2|].
  apply keeps_loop. intros ri O1 O2 E. destruct (x ri) as [xi|]; [|discriminate]. cbn [bind] in E.
  destruct (if inb sz ri then rd nn (ph ri) hi else None) as [k|]; [|discriminate]. cbn [bind] in E. revert E. apply keeps_put2.
Qed.
Lemma keeps_diff c e : keeps (fun O => rbm_diff M O c e).
Proof.
  unfold rbm_diff. cbv zeta.
  apply (keeps_bind (loopM 0 (2 * NRBM M) (fun idx O => wr (2 * NRBM M) O idx (RtoC 0)))); [apply keeps_loop; intros; apply keeps_wr|].
  apply (keeps_bind (loopM 0 (NPhys M) (fun idx O => ctmp <- rd (nRBM M) c idx;; O <- wr (2 * NRBM M) O (2 * idx) ctmp;; wr (2 * NRBM M) O (2 * idx + 1) (Cmult Ci ctmp)))).
  { apply keeps_loop. intros i O O' E. destruct (rd _ c i) as [v|]; [|discriminate]. cbn [bind] in E. revert E. apply (keeps_bind (fun O => wr (2 * NRBM M) O (2 * i) v)); apply keeps_wr. }
  apply (keeps_bind (diff_family M (NneuronC M) (Nsite M) (HidC M) (PhC M) (NPhys M) (2 * NPhys M) (2 * NPhys M + 2 * NHid M) (xcharge M e) c)); [apply keeps_family|].
  apply (keeps_bind (diff_family M (NneuronS M) (Nsite M) (HidS M) (PhS M) (NPhys M + NneuronC M) (2 * NPhys M + 2 * NHidC M) (2 * NPhys M + 2 * NHid M + 2 * NPhC M) (xspin M e) c)); [apply keeps_family|].
  apply keeps_family.
Qed.
End Keeps.

(** ** sections of the parameter vector *)
Lemma section_out P first n c t : ~ first <= c / 2 < first + n -> section (shifted P c t) first n = section P first n.
Proof.
  intros H. apply functional_extensionality. intros k. unfold section. destruct (inb n k) eqn:E; [|reflexivity]. unfold inb in E.
  unfold shifted. destruct (c mod 2 =? 0); unfold shift_re, shift_im; apply upd_other; lia.
Qed.
Lemma section_in P first n c t : first <= c / 2 < first + n ->
  section (shifted P c t) first n = if c mod 2 =? 0 then shift_re (section P first n) (c / 2 - first) t else shift_im (section P first n) (c / 2 - first) t.
Proof.
  intros H. apply functional_extensionality. intros k. unfold section at 1, shifted. destruct (c mod 2 =? 0); unfold shift_re, shift_im; rewrite !upd_get; unfold section.
  all: destruct (Z.eqb_spec k (c / 2 - first)) as [->|Ne].
  all: try (rewrite inb_true by lia; replace (first + (c / 2 - first)) with (c / 2) by lia; now rewrite Z.eqb_refl).
  all: destruct (inb n k) eqn:E; [|reflexivity]; unfold inb in E; destruct (Z.eqb_spec (first + k) (c / 2)); [lia|reflexivity].
Qed.
Lemma shifted_0 P c : shifted P c 0 = P.
Proof.
  apply functional_extensionality. intros k. unfold shifted. destruct (c mod 2 =? 0); unfold shift_re, shift_im; rewrite upd_get.
  all: destruct (Z.eqb_spec k (c / 2)) as [->|]; [|reflexivity]; destruct (P (c / 2)) as [u v]; unfold Cplus; cbn; f_equal; lra.
Qed.

(** ** logarithmic derivatives of products *)
Lemma logd_of F x : log_derivative F x -> logd F x.
Proof. intros [A B]. split; apply is_derive_Reals; assumption. Qed.
Lemma logd_const z : logd (fun _ => z) (RtoC 0).
Proof. unfold logd. rewrite Cmult_0_l. apply cderive_const. Qed.
Lemma logd_ext F G x : (forall t, F t = G t) -> logd F x -> logd G x.
Proof. intros H L. unfold logd in *. rewrite <- (H R0). now apply (cderive_ext F). Qed.
Lemma logd_eq F x y : x = y -> logd F x -> logd F y.
Proof. now intros ->. Qed.

(** the exponential of a sum with one moving term *)
Lemma logd_rexp f (d : R) : is_derive f R0 d -> logd (fun t => RtoC (exp (f t))) (RtoC d).
Proof.
  intros D. split; cbn [fst snd RtoC Cmult].
  - evar_last; [apply is_derive_Reals; apply (derivable_pt_lim_comp f exp); [apply is_derive_Reals; exact D|apply derivable_pt_lim_exp]|].
    match goal with |- @eq _ ?a ?b => change (@eq R a b) end. ring.
  - evar_last; [apply (is_derive_const 0%R)|]. unfold zero; cbn. ring.
Qed.
Lemma rsum_derive {A} (l : list A) (F : R -> A -> R) (d : A -> R) : (forall a, In a l -> is_derive (fun t => F t a) R0 (d a)) -> is_derive (fun t => rsum l (F t)) R0 (rsum l d).
Proof.
  induction l as [|a l IH]; intros H; cbn [rsum].
  - apply (is_derive_const 0%R).
  - apply (is_derive_plus (fun t => F t a) (fun t => rsum l (F t))); [apply H; now left|]. apply IH. intros; apply H; now right.
Qed.

Section Der.
Variables (V0 : wave) (P : Z -> C).
Notation V := (with_para V0 P).
Hypothesis HV : wf_wave V.
Variables (K : setting) (w : walker) (rcnt : Z -> C) (ip : C).
Hypothesis Hsa : sampled V K w rcnt ip.
Notation np := (NProj (vT V0)).
Notation nr := (n_rbm (vFlagRBM V0) (vM V0)).
Notation x := (Samp.Model.eleIdx w).
Notation e := (Samp.Model.eleNum w).
Definition Vt (c : Z) (t : R) : wave := with_para V0 (shifted P c t).

Lemma sizes_ok : 0 <= np /\ 0 <= nr /\ 0 <= NSlater (vS V0).
Proof.
  split; [|split].
  - pose proof (wv_T V HV) as HT. cbn in HT. pose proof (wf_ng _ HT). pose proof (wf_nj _ HT). pose proof (wf_n2 _ HT). pose proof (wf_n4 _ HT). unfold NProj. lia.
  - unfold n_rbm. destruct (vFlagRBM V0); [|lia]. pose proof (wf_sizes _ (wv_M V HV)) as Hs. cbn in Hs. unfold NRBM, NPhys, NHid, NPh. lia.
  - destruct (wv_valid V HV) as (_ & _ & _ & _ & _ & H & _). exact H.
Qed.

Notation o := (occupation V0 x).
Lemma psi_t c t : psi (Vt c t) x = Cmult (Cmult (RtoC (correlation (Vt c t) o)) (boltzmann (Vt c t) o)) (pairs (Vt c t) x).
Proof. reflexivity. Qed.
Lemma corr_out c t : ~ 0 <= c / 2 < np -> correlation (Vt c t) o = correlation V o.
Proof. intros H. unfold correlation, Vt. cbn [with_para vProj vT]. rewrite section_out by lia. reflexivity. Qed.
Lemma boltz_out c t : ~ np <= c / 2 < np + nr -> boltzmann (Vt c t) o = boltzmann V o.
Proof. intros H. unfold boltzmann, Vt. cbn [with_para vFlagRBM vM vRBM]. rewrite section_out by lia. reflexivity. Qed.
Lemma pairs_out c t : ~ np + nr <= c / 2 < np + nr + NSlater (vS V0) -> pairs (Vt c t) x = pairs V x.
Proof. intros H. unfold pairs, Vt. cbn [with_para vS vQ vstot vbeta vweight vpara vflag vopt vsl]. rewrite section_out by lia. reflexivity. Qed.

Let Hc : consistent (sites V) (Slater.Model.Ne (vS V)) w := sa_tables _ _ _ _ _ Hsa.
Lemma Npos : 0 < sites V. Proof. exact (N_pos V HV). Qed.
Lemma Nepos : 0 < Slater.Model.Ne (vS V). Proof. exact (Ne_pos V HV). Qed.
Lemma occ_e rs : 0 <= rs < 2 * sites V -> o rs = e rs.
Proof. intros H. exact (occupation_e V Npos Nepos w Hc rs H). Qed.
Lemma e_01 : occ01 (sites V) e.
Proof. intros rs H. exact (e01 V Npos Nepos w Hc rs H). Qed.
Lemma cnt_is k : 0 <= k < np -> eleProjCnt w k = counter (vT V0) o k.
Proof.
  intros Hk. pose proof (proj1 (wv_sites V HV)) as HT. rewrite (counter_of (vT V0) e (eleProjCnt w) (wv_T V HV) (sa_cnt _ _ _ _ _ Hsa) k Hk).
  apply (counter_ext (vT V0) e o (wv_T V HV)); [|intros rs Hrs; symmetry; apply occ_e|exact Hk]; cbn in HT; rewrite HT in *; [exact e_01|exact Hrs].
Qed.
Lemma parity c : c = 2 * (c / 2) + c mod 2 /\ (c mod 2 = 0 \/ c mod 2 = 1).
Proof. pose proof (Z.div_mod c 2 ltac:(lia)). pose proof (Z.mod_pos_bound c 2 ltac:(lia)). lia. Qed.

Lemma corr_logd c : 0 <= c / 2 < np -> logd (fun t => RtoC (correlation (Vt c t) o)) (if c mod 2 =? 0 then RtoC (IZR (eleProjCnt w (c / 2))) else RtoC 0).
Proof.
  intros H. replace (if c mod 2 =? 0 then RtoC (IZR (eleProjCnt w (c / 2))) else RtoC 0) with (RtoC (if c mod 2 =? 0 then IZR (eleProjCnt w (c / 2)) else 0)%R) by now destruct (c mod 2 =? 0).
  unfold correlation, Vt. cbn [with_para vProj vT].
  apply (logd_rexp (fun t => rsum (zrange 0 np) (fun k => (fst (section (shifted P c t) 0 np k) * IZR (counter (vT V0) o k))%R))).
  rewrite cnt_is by exact H.
  replace (if c mod 2 =? 0 then IZR (counter (vT V0) o (c / 2)) else 0)%R with
    (rsum (zrange 0 np) (fun k => if k =? c / 2 then (if c mod 2 =? 0 then IZR (counter (vT V0) o k) else 0) else 0)%R).
  2:{ rewrite rsum_delta; [reflexivity|apply zrange_NoDup|now apply zrange_in]. }
  apply rsum_derive. intros k Hk. apply zrange_in in Hk.
  apply (is_derive_ext (fun t => ((fst (P k) + (if k =? c / 2 then (if c mod 2 =? 0 then t else 0) else 0)) * IZR (counter (vT V0) o k))%R)).
  { intros t. unfold section. rewrite inb_true by lia. rewrite Z.add_0_l. f_equal. unfold shifted. destruct (c mod 2 =? 0); unfold shift_re, shift_im; rewrite upd_get; destruct (Z.eqb_spec k (c / 2)) as [->|]; cbn; lra. }
  destruct (k =? c / 2); [destruct (c mod 2 =? 0)|]; auto_derive; trivial; lra.
Qed.
Lemma boltz_logd c O' : np <= c / 2 < np + nr ->
  (forall p, 0 <= p < NRBM (vM V0) -> log_derivative (fun t => machine_weight (vM V0) (shift_re (vRBM V) p t) e) (O' (2 * p)) /\
    log_derivative (fun t => machine_weight (vM V0) (shift_im (vRBM V) p t) e) (O' (2 * p + 1))) ->
  logd (fun t => boltzmann (Vt c t) o) (O' (c - 2 * np)).
Proof.
  intros H HO. assert (Hf : vFlagRBM V0 = true) by (unfold n_rbm in H; destruct (vFlagRBM V0); [reflexivity|lia]).
  assert (Hr : 0 <= c / 2 - np < NRBM (vM V0)) by (unfold n_rbm in H; rewrite Hf in H; lia).
  pose proof (proj2 (wv_sites V HV)) as HM. cbn in HM.
  assert (E : forall W, machine_weight (vM V0) W o = machine_weight (vM V0) W e) by (intros W; apply machine_ext; rewrite HM; apply occ_e).
  destruct (HO _ Hr) as [A B]. destruct (parity c) as (Ep & [E0|E1]).
  - apply logd_of in A. replace (c - 2 * np) with (2 * (c / 2 - np)) by lia.
    revert A. apply logd_ext. intros t. unfold boltzmann, Vt. cbn [with_para vFlagRBM vM vRBM]. rewrite Hf, E, section_in, E0 by lia. reflexivity.
  - apply logd_of in B. replace (c - 2 * np) with (2 * (c / 2 - np) + 1) by lia.
    revert B. apply logd_ext. intros t. unfold boltzmann, Vt. cbn [with_para vFlagRBM vM vRBM]. rewrite Hf, E, section_in, E1 by lia. reflexivity.
Qed.
Lemma pairs_logd c sr : np + nr <= c / 2 < np + nr + NSlater (vS V0) ->
  logd (fun t => pairs (Vt c t) x) (slater_elm_diff (vS V0) (vQ V0) (angles_of V (sopt0 K)) (sInvM K) (sPfM K) ip x sr (c - 2 * np - 2 * nr)).
Proof.
  intros H. pose proof (sa_ip _ _ _ _ _ Hsa) as Hip. pose proof (sa_nz _ _ _ _ _ Hsa) as Hnz.
  pose proof (Green.Proofs.lat V HV w K rcnt ip Hsa) as HL.
  assert (Ham : amplitude (vS V) (vQ V) (vstot V) (vbeta V) (vweight V) (vpara V) (opt_weight (vflag V) (vopt V)) (vsl V) x <> RtoC 0).
  { rewrite <- (Slater.ProofsDer.ip_is (vS V) (vQ V) (vstot V) (vbeta V) (vweight V) (vpara V) (sopt0 K) (vopt V) (vflag V) (wv_valid V HV) (vsl V) (sE0 K) (sInvM K) (sPfM K) x HL (sa_mat _ _ _ _ _ Hsa)).
    intros Z0. apply Hnz. rewrite Hip. exact Z0. }
  destruct (slater_derivative (vS V) (vQ V) (vstot V) (vbeta V) (vweight V) (vpara V) (sopt0 K) (vopt V) (vflag V) (vsl V) (sE0 K) (sInvM K) (sPfM K) x sr (c / 2 - (np + nr))
    (wv_valid V HV) HL (sa_mat _ _ _ _ _ Hsa) Ham ltac:(cbn; lia)) as [A B].
  rewrite Hip. destruct (parity c) as (Ep & [E0|E1]).
  - apply logd_of in A. replace (c - 2 * np - 2 * nr) with (2 * (c / 2 - (np + nr))) by lia.
    revert A. apply logd_ext. intros t. unfold pairs, Vt. cbn [with_para vS vQ vstot vbeta vweight vpara vflag vopt vsl]. rewrite section_in, E0 by lia. reflexivity.
  - apply logd_of in B. replace (c - 2 * np - 2 * nr) with (2 * (c / 2 - (np + nr)) + 1) by lia.
    revert B. apply logd_ext. intros t. unfold pairs, Vt. cbn [with_para vS vQ vstot vbeta vweight vpara vflag vopt vsl]. rewrite section_in, E1 by lia. reflexivity.
Qed.

Lemma assembled junk : (vFlagRBM V0 = true -> complete (vM V0)) -> exists O', sr_opt_o (vS V0) (vQ V0) np (vFlagRBM V0) (vM V0) (angles_of V (sopt0 K)) (sInvM K) (sPfM K) ip x e (eleProjCnt w) rcnt junk = Some O' /\
  O' 0 = RtoC 1 /\ O' 1 = RtoC 0 /\
  (forall c, 0 <= c < 2 * n_para V0 -> log_derivative (fun t => psi (Vt c t) x) (O' (c + 2))) /\
  (forall i, ~ 0 <= i < 2 * n_para V0 + 2 -> O' i = junk i).
Proof.
  intros Hcomp. destruct sizes_ok as (S1 & S2 & S3).
  destruct (opt_proj_cells np (eleProjCnt w) junk S1) as (P0 & P1 & P2 & P3). set (O1 := opt_proj np (eleProjCnt w) junk) in *. cbv zeta in P0, P1, P2, P3.
  assert (HR : exists O2, (if vFlagRBM V0 then at_offsetM (2 * np + 2) (fun O => rbm_diff (vM V0) O rcnt e) O1 else Some O1) = Some O2 /\
    (forall i, ~ 2 * np + 2 <= i < 2 * np + 2 + 2 * nr -> O2 i = O1 i) /\
    (forall c, np <= c / 2 < np + nr -> logd (fun t => boltzmann (Vt c t) o) (O2 (c + 2)))).
  { destruct (vFlagRBM V0) eqn:Hf.
    - destruct (diff_ok (vM V0) (wv_M V HV) (vRBM V) e (Hcomp eq_refl) (fun i => O1 (2 * np + 2 + i)) rcnt) as (O2 & E2 & D2).
      { apply (sa_rcnt _ _ _ _ _ Hsa). exact Hf. }
      { apply (wv_rbm V HV Hf). exact e_01. }
      exists (fun i => O2 (i - (2 * np + 2))). unfold at_offsetM. rewrite E2. cbn [bind]. split; [reflexivity|]. split.
      + intros i Hi. rewrite (keeps_diff (vM V0) (i - (2 * np + 2)) ltac:(unfold n_rbm in Hi; lia) rcnt e _ _ E2). f_equal. lia.
      + intros c Hcc. replace (c + 2 - (2 * np + 2)) with (c - 2 * np) by lia. apply boltz_logd; [rewrite Hf; exact Hcc|exact D2].
    - exists O1. split; [reflexivity|]. split; [reflexivity|]. intros c Hcc. unfold n_rbm in Hcc. lia. }
  destruct HR as (O2 & E2 & K2 & D2).
  eexists. split; [unfold sr_opt_o; fold O1; cbv zeta; rewrite E2; cbn [bind]; reflexivity|].
  set (F := slater_elm_diff _ _ _ _ _ _ _). 
  assert (KF : forall i, ~ 2 * np + 2 * nr + 2 <= i < 2 * np + 2 * nr + 2 + 2 * NSlater (vS V0) -> at_offset (2 * np + 2 * nr + 2) F O2 i = O2 i).
  { intros i Hi. unfold at_offset, F. rewrite diff_other by lia. f_equal. lia. }
  split; [rewrite KF, K2 by lia; exact P0|]. split; [rewrite KF, K2 by lia; exact P1|]. split.
  2:{ intros i Hi. unfold n_para in Hi. rewrite KF, K2, P3 by lia. reflexivity. }
  intros c Hcr. unfold n_para in Hcr. apply logd_unshift. destruct (parity c) as (Ep & Hpar).
  assert (C3 : 0 <= c / 2 < np \/ np <= c / 2 < np + nr \/ np + nr <= c / 2 < np + nr + NSlater (vS V0)) by lia.
  apply (logd_ext (fun t => Cmult (Cmult (RtoC (correlation (Vt c t) o)) (boltzmann (Vt c t) o)) (pairs (Vt c t) x))); [intros t; symmetry; apply psi_t|].
  destruct C3 as [H|[H|H]].
  - rewrite KF, K2 by lia. apply (logd_eq _ (Cplus (Cplus (if c mod 2 =? 0 then RtoC (IZR (eleProjCnt w (c / 2))) else RtoC 0) (RtoC 0)) (RtoC 0))).
    { destruct (P2 _ H) as [A B]. destruct Hpar as [E0|E1]; [rewrite E0|rewrite E1]; cbn [Z.eqb]; [replace (c + 2) with (2 * (c / 2) + 2) by lia; rewrite A|replace (c + 2) with (2 * (c / 2) + 3) by lia; rewrite B]; ring. }
    apply logd_mult; [apply logd_mult|].
    + now apply corr_logd.
    + apply (logd_ext (fun _ => boltzmann V o)); [intros t; symmetry; apply boltz_out; lia|apply logd_const].
    + apply (logd_ext (fun _ => pairs V x)); [intros t; symmetry; apply pairs_out; lia|apply logd_const].
  - rewrite KF by lia. apply (logd_eq _ (Cplus (Cplus (RtoC 0) (O2 (c + 2))) (RtoC 0))); [ring|].
    apply logd_mult; [apply logd_mult|].
    + apply (logd_ext (fun _ => RtoC (correlation V o))); [intros t; rewrite corr_out by lia; reflexivity|apply logd_const].
    + now apply D2.
    + apply (logd_ext (fun _ => pairs V x)); [intros t; symmetry; apply pairs_out; lia|apply logd_const].
  - apply (logd_eq _ (Cplus (Cplus (RtoC 0) (RtoC 0)) (at_offset (2 * np + 2 * nr + 2) F O2 (c + 2)))); [ring|].
    apply logd_mult; [apply logd_mult|].
    + apply (logd_ext (fun _ => RtoC (correlation V o))); [intros t; rewrite corr_out by lia; reflexivity|apply logd_const].
    + apply (logd_ext (fun _ => boltzmann V o)); [intros t; symmetry; apply boltz_out; lia|apply logd_const].
    + unfold at_offset. replace (c + 2 - (2 * np + 2 * nr + 2)) with (c - 2 * np - 2 * nr) by lia. now apply pairs_logd.
Qed.
End Der.
