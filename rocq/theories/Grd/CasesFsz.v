(** General orbitals beside a machine: the derivatives of the pair parameters are stored one machine too early. *)
From Coq Require Import ZArith List Bool Lia Reals Lra.
From Coquelicot Require Import Coquelicot.
From Verif Require Import Base.ZLoop Base.RSum Pf.Pfaffian Pf.Spec Pf.Proofs Pf.ProofsSeq Fsz.Model Slater.Model Slater.Spec Slater.Derive Slater.ProofsProp Slater.Proofs Slater.ProofsElm Slater.ProofsDiff Slater.ProofsDer
  Fsz.Spec Fsz.ProofsPf Fsz.ProofsElm Fsz.ProofsDiff Fsz.ProofsDer Fsz.Cases Rbm.Model Rbm.Spec Grd.Model.
From Verif Require SR.Proofs.
Import ListNotations.
Local Open Scope Z_scope.

(** one charge weight, the same on both sites *)
Definition M_one : machine := Machine 2 1 0 0 0 0 0 0 0 0 0 0 0 0 (fun _ => 0) (fun _ => 0) (fun _ => 0) (fun _ => 0) (fun _ => 0) (fun _ => 0) (fun _ _ => 0) (fun _ _ => 0) (fun _ _ => 0).
Lemma M_one_wf : wf_machine M_one. Proof. constructor; cbn; unfold below; intros; lia. Qed.
Notation diff_f := (slater_elm_diff_fsz S_f T_f A_f Inv_f Pf_f (calculate_ip A_f 0 (NQPFull S_f) Pf_f) idx_f spn_f).
Notation amp_of := (fun sl => amplitude_fsz S_f T_f one_f (opt_weight false one_f) sl (spin_orbital (Slater.Model.Nsite S_f) idx_f spn_f)).
Lemma derivative_0 sr : diff_f sr (2 * 0) = RtoC 0.
Proof.
  unfold A_f. rewrite (ip_fsz S_f T_f 0 (fun _ => 0%R) (fun _ => 0%R) one_f one_f one_f false valid_f sl_f (fun _ => RtoC 0) Inv_f Pf_f idx_f spn_f placed_f current_f), amp_f.
  rewrite (proj1 (diff_fsz S_f T_f 0 (fun _ => 0%R) (fun _ => 0%R) one_f one_f one_f false valid_f Inv_f Pf_f (RtoC (-30)) idx_f spn_f sr placed_f 0 ltac:(cbn; lia))).
  change (zrange 0 (NQPOptTrans S_f)) with [0]. change (zrange 0 (NMPTrans S_f)) with [0; 1]. cbn [csum].
  unfold contribution_fsz. change (zrange 0 (2 * Ne S_f)) with [0; 1]. cbn [csum]. change (projection S_f 0 0 0) with 0. change (projection S_f 0 1 0) with 1.
  change (2 * Ne S_f) with 2. change (Slater.Model.Nsite S_f) with 2. rewrite !stored_f by lia.
  unfold opt_weight, one_f, Pf_f, iz, pair_fsz, image_fsz, image, sign, T_f. cbn -[Rinv]. apply SR.Proofs.Ceq; cbn -[Rinv]; field.
Qed.
Lemma derivative_1 sr : diff_f sr (2 * 1) = RtoC (- / 15).
Proof.
  unfold A_f. rewrite (ip_fsz S_f T_f 0 (fun _ => 0%R) (fun _ => 0%R) one_f one_f one_f false valid_f sl_f (fun _ => RtoC 0) Inv_f Pf_f idx_f spn_f placed_f current_f), amp_f.
  rewrite (proj1 (diff_fsz S_f T_f 0 (fun _ => 0%R) (fun _ => 0%R) one_f one_f one_f false valid_f Inv_f Pf_f (RtoC (-30)) idx_f spn_f sr placed_f 1 ltac:(cbn; lia))).
  change (zrange 0 (NQPOptTrans S_f)) with [0]. change (zrange 0 (NMPTrans S_f)) with [0; 1]. cbn [csum].
  unfold contribution_fsz. change (zrange 0 (2 * Ne S_f)) with [0; 1]. cbn [csum]. change (projection S_f 0 0 0) with 0. change (projection S_f 0 1 0) with 1.
  change (2 * Ne S_f) with 2. change (Slater.Model.Nsite S_f) with 2. rewrite !stored_f by lia.
  unfold opt_weight, one_f, Pf_f, iz, pair_fsz, image_fsz, image, sign, T_f. cbn -[Rinv]. apply SR.Proofs.Ceq; cbn -[Rinv]; field.
Qed.
Lemma fsz_offset_refuted : exists S T para opt sl E0 A InvM PfM eleIdx eleSpn M nProj k,
  valid_fsz S T false /\ placed (Slater.Model.Nsite S) (2 * Ne S) eleIdx eleSpn /\
  A = update_weights S false opt (init_qp_weight S 0 (fun _ => 0%R) (fun _ => 0%R) para false opt) /\
  current_fsz (Slater.Model.Nsite S) (2 * Ne S) (update_slater_elm_fsz S T sl E0) 0 (NQPFull S) eleIdx eleSpn InvM PfM /\ wf_machine M /\ 0 <= k < NSlater S /\
  let amp := fun sl => amplitude_fsz S T para (opt_weight false opt) sl (spin_orbital (Slater.Model.Nsite S) eleIdx eleSpn) in
  amp sl <> RtoC 0 /\
  forall cnt junk, let O := sr_opt_o_fsz nProj (slater_elm_diff_fsz S T A InvM PfM (calculate_ip A 0 (NQPFull S) PfM) eleIdx eleSpn) cnt junk in
  ~ log_derivative (fun t => amp (shift_re sl k t)) (O (2 * (nProj + n_rbm true M + k) + 2)).
Proof.
  exists S_f, T_f, one_f, one_f, sl_f, (fun _ => RtoC 0), A_f, Inv_f, Pf_f, idx_f, spn_f, M_one, 0, 0.
  split; [exact valid_f|]. split; [exact placed_f|]. split; [reflexivity|]. split; [exact current_f|]. split; [exact M_one_wf|]. split; [cbn; lia|]. cbv zeta. split; [exact amp_f_ne|].
  intros cnt junk L. change (2 * (0 + n_rbm true M_one + 0) + 2) with 4 in L.
  destruct (derivative_fsz S_f T_f 0 (fun _ => 0%R) (fun _ => 0%R) one_f one_f one_f false sl_f (fun _ => RtoC 0) Inv_f Pf_f idx_f spn_f (fun _ => RtoC 0) 0 valid_f placed_f current_f ltac:(cbn; lia) amp_f_ne) as [L0 _].
  fold A_f in L0. rewrite derivative_0 in L0.
  unfold sr_opt_o_fsz, at_offset in L. change (4 - (2 * 0 + 2)) with (2 * 1) in L. rewrite derivative_1 in L.
  unfold log_derivative in L, L0. apply cderive_spec' in L, L0. pose proof (cderive_unique _ _ _ L L0) as E. revert E.
  replace (shift_re sl_f 0 0) with sl_f.
  - rewrite amp_f. intros E. apply (f_equal fst) in E. cbn in E. lra.
  - apply FunctionalExtensionality.functional_extensionality. intros k. unfold shift_re. rewrite upd_get. destruct (Z.eqb_spec k 0) as [->|]; [|reflexivity]. unfold sl_f. apply SR.Proofs.Ceq; cbn; lra.
Qed.
