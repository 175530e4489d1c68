(** C11-C17, C43, C44: the Monte Carlo sampler. *)
From Coq Require Import ZArith List Bool Lia.
From Verif Require Import Base.ZLoop Proj.Model Proj.Spec Proj.Properties Samp.Prog Samp.Model Samp.Spec Samp.Exec.
From Verif Require Samp.Exch Samp.Init Samp.Main Samp.Proofs Samp.ProofsF Samp.ProofsI Samp.Trace Samp.LockS Samp.LockT.
Import ListNotations.
Local Open Scope Z_scope.

(** ** C11: configuration tables *)
(** Every walker shown by any run (at every step, stored, or handed on), after any history of runs, has
    tables that describe the same electrons, with Ne electrons of each spin. *)
Theorem C11_tables_consistent : forall I, wf_input I -> forall Orc rank size burn w qs p tr o w', history I burn ->
  runs (vmc_make_sample I Orc rank size burn w qs p) tr o -> shown tr o w' ->
  consistent (Nsite (T I)) (Ne I) w' /\ (forall s, 0 <= s <= 1 -> spin_count (Nsite (T I)) w' s = Ne I).
Proof.
  exact (fun I wf Orc rank size burn w qs p tr o w' Hh R Hs =>
    let H := Main.main_csz I wf Orc rank size burn w qs p tr o w' Hh R Hs in conj (proj1 H) (proj1 (proj2 H))).
Qed.
Print Assumptions C11_tables_consistent.
Theorem C11_tables_consistent_fsz : forall I, wf_input I ->
  let ups := Ne I + (if TwoSz I =? -1 then 0 else Z.quot (TwoSz I) 2) in 0 <= ups <= 2 * Ne I ->
  forall Orc rank size burn w qs p tr o w', history_fsz I burn ->
  runs (vmc_make_sample_fsz I Orc rank size burn w qs p) tr o -> shown tr o w' ->
  consistent_fsz (Nsite (T I)) (Ne I) w' /\
  spin_count (Nsite (T I)) w' 0 + spin_count (Nsite (T I)) w' 1 = 2 * Ne I /\
  (TwoSz I <> -1 -> NExUpdatePath I <> 3 -> spin_count (Nsite (T I)) w' 0 = ups).
Proof.
  exact (fun I wf Hu Orc rank size burn w qs p tr o w' Hh R Hs =>
    let H := Main.main_fsz I wf Orc rank size burn w qs p tr o w' Hu Hh R Hs in
    conj (proj1 H) (conj (proj1 (proj2 (proj2 H))) (proj1 (proj2 H)))).
Qed.
Print Assumptions C11_tables_consistent_fsz.
(** no array is accessed out of bounds, no modulus is zero *)
Theorem C11_no_undefined : forall I, wf_input I -> forall Orc rank size burn w qs p tr o, history I burn ->
  runs (vmc_make_sample I Orc rank size burn w qs p) tr o -> o <> Stopped Undefined.
Proof. exact Main.safe_csz. Qed.
Print Assumptions C11_no_undefined.
Theorem C11_no_undefined_fsz : forall I, wf_input I ->
  0 <= Ne I + (if TwoSz I =? -1 then 0 else Z.quot (TwoSz I) 2) <= 2 * Ne I ->
  forall Orc rank size burn w qs p tr o, history_fsz I burn ->
  runs (vmc_make_sample_fsz I Orc rank size burn w qs p) tr o -> o <> Stopped Undefined.
Proof. exact (fun I wf Hu Orc rank size burn w qs p tr o => Main.safe_fsz I wf Orc rank size burn w qs p tr o Hu). Qed.
Print Assumptions C11_no_undefined_fsz.
(** With 2Sz given (conserved) and NExUpdatePath = 3 the local spin flip is proposed nevertheless and changes
    the numbers of up and down electrons. *)
Theorem C11_sz_conserved_path3_refuted : exists I Orc qs tr o w1 w2, wf_input I /\ TwoSz I = 0 /\ NExUpdatePath I = 3 /\
  runs (vmc_make_sample_fsz I Orc 0 1 None ex_walker qs 0) tr o /\ shown tr o w1 /\ shown tr o w2 /\
  spin_count (Nsite (T I)) w1 0 = 2 /\ spin_count (Nsite (T I)) w2 0 = 3.
Proof.
  exists (ex_input 3 0), (ex_orc 1), (fun _ => 0).
  exists (fst (ex_run_fsz 1 3 0)), (snd (ex_run_fsz 1 3 0)), (nth_shown 0 (fst (ex_run_fsz 1 3 0))), (nth_shown 9 (fst (ex_run_fsz 1 3 0))).
  split; [apply ex_input_wf|]. split; [reflexivity|]. split; [reflexivity|]. split; [exact (ex_run_fsz_runs 1 3 0)|].
  split; [apply nth_shown_ok; vm_compute; reflexivity|]. split; [apply nth_shown_ok; vm_compute; reflexivity|].
  split; vm_compute; reflexivity.
Qed.
Print Assumptions C11_sz_conserved_path3_refuted.
(** a run with hops and exchanges, accepted and rejected, on 3 sites with a local spin *)
Example C11_case : exists tr o, runs (vmc_make_sample (ex_input 1 0) (ex_orc 1) 0 1 None ex_walker (fun _ => 0) 0) tr o /\
  is_done o = true /\ map (fun e => occupation 3 (walker_of e)) (firstn 7 tr) =
  [[1;0;1;1;1;0]; [1;0;1;1;1;0]; [1;0;1;1;1;0]; [1;1;0;1;0;1]; [1;1;0;1;0;1]; [1;1;0;1;0;1]; [1;0;1;1;1;0]].
Proof.
  exists (fst (ex_run 1 1 None)), (snd (ex_run 1 1 None)). split; [exact (ex_run_runs 1 1 None)|]. split; vm_compute; reflexivity.
Qed.
Example C11_case_fsz : wf_input (ex_input 2 (-1)) /\ is_done (snd (ex_run_fsz 1 2 (-1))) = true /\ is_done (snd (ex_run_fsz 3 1 2)) = true.
Proof. split; [apply ex_input_wf|]. split; vm_compute; reflexivity. Qed.

(** ** C12: rejected moves *)
(** When every proposal is rejected an inner step leaves every table as it was. *)
Theorem C12_rejected_step : forall I Orc rank size s tr s', wf_input I -> consistent (Nsite (T I)) (Ne I) (wk _ s) ->
  locals_single I (wk _ s) -> counters_current I (wk _ s) -> (forall w0 w1 l l' r, accept Orc w0 w1 l l' r = false) ->
  runs (inner_step I Orc rank size s) tr (Done s') -> same_tables (wk _ s) (wk _ s').
Proof. exact Exch.reject_same. Qed.
Print Assumptions C12_rejected_step.
Theorem C12_rejected_step_fsz : forall I Orc rank size s tr s', wf_input I -> consistent_fsz (Nsite (T I)) (Ne I) (wk _ s) ->
  locals_single I (wk _ s) -> counters_current I (wk _ s) -> (forall w0 w1 l l' r, accept Orc w0 w1 l l' r = false) ->
  runs (inner_step_fsz I Orc rank size s) tr (Done s') -> same_tables (wk _ s) (wk _ s').
Proof. exact Exch.reject_same_fsz. Qed.
Print Assumptions C12_rejected_step_fsz.
(** the same for one proposal: moving and moving back *)
Theorem C12_revert_hop : forall I Orc, wf_input I -> forall w mi ri rj s, consistent (Nsite (T I)) (Ne I) w -> 0 <= mi < Ne I -> 0 <= s <= 1 ->
  eleIdx w (mi + s * Ne I) = ri -> 0 <= rj < Nsite (T I) -> eleNum w (rj + s * Nsite (T I)) = 0 ->
  exists w', (w1 <~ update_ele_config I Orc mi ri rj s w;; revert_ele_config I Orc mi ri rj s w1) = Ret w' /\ same_tables w w'.
Proof. exact Exch.revert_hop. Qed.
Print Assumptions C12_revert_hop.
Theorem C12_revert_exchange : forall I Orc, wf_input I -> forall w mi mj ri rj s, consistent (Nsite (T I)) (Ne I) w ->
  0 <= mi < Ne I -> 0 <= mj < Ne I -> 0 <= s <= 1 ->
  eleIdx w (mi + s * Ne I) = ri -> eleIdx w (mj + (1 - s) * Ne I) = rj ->
  eleNum w (rj + s * Nsite (T I)) = 0 -> eleNum w (ri + (1 - s) * Nsite (T I)) = 0 ->
  exists w', (w1 <~ update_ele_config I Orc mi ri rj s w;; w2 <~ update_ele_config I Orc mj rj ri (1 - s) w1;;
              w3 <~ revert_ele_config I Orc mj rj ri (1 - s) w2;; revert_ele_config I Orc mi ri rj s w3) = Ret w' /\ same_tables w w'.
Proof. exact Exch.revert_exchange. Qed.
Print Assumptions C12_revert_exchange.
Theorem C12_revert_hop_fsz : forall I Orc w mi ri rj s t, consistent_fsz (Nsite (T I)) (Ne I) w -> 0 <= mi < 2 * Ne I ->
  eleSpn w mi = s -> eleIdx w mi = ri -> 0 <= rj < Nsite (T I) -> 0 <= t <= 1 -> eleNum w (rj + t * Nsite (T I)) = 0 ->
  exists w', (w1 <~ update_ele_config_fsz I Orc mi ri rj s t w;; revert_ele_config_fsz I Orc mi ri rj s t w1) = Ret w' /\ same_tables w w'.
Proof. exact Exch.revert_hop_fsz. Qed.
Print Assumptions C12_revert_hop_fsz.

Ltac small z H := let E := fresh in assert (E : z = 0 \/ z = 1 \/ z = 2) by lia; destruct E as [->|[->| ->]]; try (exfalso; lia).
Lemma ex_w_consistent path sz : consistent 3 (Ne (ex_input path sz)) ex_w.
Proof.
  constructor.
  - intros mi s Hm Hs. cbn in Hm. small mi Hm; small s Hs; (eexists; split; [reflexivity|]; split; [vm_compute; split; congruence|reflexivity]).
  - intros r s Hr Hs. small r Hr; small s Hs; try (left; split; reflexivity); right;
      [exists 0|exists 0|exists 1|exists 1]; (split; [vm_compute; split; congruence|]; repeat split; reflexivity).
Qed.
Example C12_case : consistent 3 2 ex_w /\ eleIdx ex_w (1 + 0 * 2) = 1 /\ eleNum ex_w (2 + 0 * 3) = 0 /\
  eleIdx ex_w (1 + 1 * 2) = 2 /\ eleNum ex_w (1 + 1 * 3) = 0.
Proof. split; [apply (ex_w_consistent 1 0)|]. repeat split; reflexivity. Qed.

(** ** C13: local spins *)
Theorem C13_local_spins_single : forall I, wf_input I -> forall Orc rank size burn w qs p tr o w', history I burn ->
  runs (vmc_make_sample I Orc rank size burn w qs p) tr o -> shown tr o w' -> locals_single I w'.
Proof.
  exact (fun I wf Orc rank size burn w qs p tr o w' Hh R Hs =>
    proj1 (proj2 (proj2 (Main.main_csz I wf Orc rank size burn w qs p tr o w' Hh R Hs)))).
Qed.
Print Assumptions C13_local_spins_single.
Theorem C13_local_spins_single_fsz : forall I, wf_input I ->
  0 <= Ne I + (if TwoSz I =? -1 then 0 else Z.quot (TwoSz I) 2) <= 2 * Ne I ->
  forall Orc rank size burn w qs p tr o w', history_fsz I burn ->
  runs (vmc_make_sample_fsz I Orc rank size burn w qs p) tr o -> shown tr o w' -> locals_single I w'.
Proof.
  exact (fun I wf Hu Orc rank size burn w qs p tr o w' Hh R Hs =>
    proj1 (proj2 (proj2 (proj2 (Main.main_fsz I wf Orc rank size burn w qs p tr o w' Hu Hh R Hs))))).
Qed.
Print Assumptions C13_local_spins_single_fsz.
Theorem C13_initial_sample : forall I Orc w p tr p' w', wf_input I ->
  runs (initial_tables I Orc w p) tr (Done (p', w')) -> locals_single I w'.
Proof.
  exact (fun I Orc w p tr p' w' wf R =>
    proj1 (proj2 (proj2 (Trace.InvC_facts I wf w'
      (proj2 (Hoare.safe_runs _ _ _ _ _ (ProofsI.safe_initial_tables I Orc wf (fun _ => True) w p) R)))))).
Qed.
Print Assumptions C13_initial_sample.
Example C13_case : LocSpn (ex_input 1 0) 1 = 1 /\
  Forall (fun e => eleNum (walker_of e) 1 + eleNum (walker_of e) 4 = 1) (fst (ex_run 1 1 None)).
Proof. split; [reflexivity|]. vm_compute. repeat constructor. Qed.

(** ** C14: stored counters *)
Theorem C14_counters_current : forall I, wf_input I -> forall Orc rank size burn w qs p tr o w', history I burn ->
  runs (vmc_make_sample I Orc rank size burn w qs p) tr o -> shown tr o w' ->
  is_proj_cnt (T I) (eleNum w') (eleProjCnt w').
Proof.
  exact (fun I wf Orc rank size burn w qs p tr o w' Hh R Hs =>
    proj2 (proj2 (proj2 (Main.main_csz I wf Orc rank size burn w qs p tr o w' Hh R Hs)))).
Qed.
Print Assumptions C14_counters_current.
Theorem C14_counters_current_fsz : forall I, wf_input I ->
  0 <= Ne I + (if TwoSz I =? -1 then 0 else Z.quot (TwoSz I) 2) <= 2 * Ne I ->
  forall Orc rank size burn w qs p tr o w', history_fsz I burn ->
  runs (vmc_make_sample_fsz I Orc rank size burn w qs p) tr o -> shown tr o w' ->
  is_proj_cnt (T I) (eleNum w') (eleProjCnt w').
Proof.
  exact (fun I wf Hu Orc rank size burn w qs p tr o w' Hh R Hs =>
    proj2 (proj2 (proj2 (proj2 (Main.main_fsz I wf Orc rank size burn w qs p tr o w' Hu Hh R Hs))))).
Qed.
Print Assumptions C14_counters_current_fsz.
(** the doubly occupied site changes during this run, and the counters with it *)
Example C14_case : is_done (snd (ex_run_fsz 5 1 (-1))) = true /\
  nodup (list_eq_dec Z.eq_dec) (map (fun e => map (eleProjCnt (walker_of e)) (zrange 0 12)) (fst (ex_run_fsz 5 1 (-1)))) =
  [[0;1;0;0;0;1;0;0;0;0;0;1]; [1;0;0;0;0;1;0;0;0;0;0;1]].
Proof. split; vm_compute; reflexivity. Qed.

(** ** C15: exchange proposals *)
(** Either the routine reports rejection, and then no site is singly occupied; or singly occupied sites of
    both spins exist and some random stream (of 32-bit words) ends the search with a proposal. *)
Theorem C15_exchange_exists : forall I, wf_input I -> forall w, consistent (Nsite (T I)) (Ne I) w ->
  ((forall r s, ~ single (Nsite (T I)) w r s) /\ forall Orc p, make_candidate_exchange I Orc w p = Ret (p, None)) \/
  ((exists r, single (Nsite (T I)) w r 0) /\ (exists r, single (Nsite (T I)) w r 1) /\
   (forall Orc p, exists rnd, (2 * Ne I <= 2 ^ 32 -> forall q, 0 <= rnd q < 2 ^ 32) /\
      forall n, exists p' c, make_candidate_exchange I (with_stream Orc rnd (S n)) w p = Ret (p', Some c))).
Proof. exact Exch.exchange_cases. Qed.
Print Assumptions C15_exchange_exists.
Theorem C15_exchange_legal : forall I, wf_input I -> forall w, consistent (Nsite (T I)) (Ne I) w -> forall Orc p tr o,
  runs (make_candidate_exchange I Orc w p) tr o ->
  o <> Stopped Undefined /\ forall p' mi ri rj s, o = Done (p', Some (mi, ri, rj, s)) -> legal_exchange I w mi ri rj s.
Proof. exact Exch.exchange_legal. Qed.
Print Assumptions C15_exchange_legal.
Theorem C15_exchange_exists_fsz : forall I, wf_input I -> forall w, consistent_fsz (Nsite (T I)) (Ne I) w ->
  (~ ((exists r, single (Nsite (T I)) w r 0) /\ (exists r, single (Nsite (T I)) w r 1)) /\
   forall Orc p, make_candidate_exchange_fsz I Orc w p = Ret (p, None)) \/
  ((exists r, single (Nsite (T I)) w r 0) /\ (exists r, single (Nsite (T I)) w r 1) /\
   (forall Orc p, exists rnd, (2 * Ne I <= 2 ^ 32 -> forall q, 0 <= rnd q < 2 ^ 32) /\
      forall n, exists p' c, make_candidate_exchange_fsz I (with_stream Orc rnd (S n)) w p = Ret (p', Some c))).
Proof. exact Exch.exchange_cases_fsz. Qed.
Print Assumptions C15_exchange_exists_fsz.
Theorem C15_exchange_legal_fsz : forall I, wf_input I -> forall w, consistent_fsz (Nsite (T I)) (Ne I) w -> forall Orc p tr o,
  runs (make_candidate_exchange_fsz I Orc w p) tr o ->
  o <> Stopped Undefined /\ forall p' mi ri rj s, o = Done (p', Some (mi, ri, rj, s)) -> legal_exchange_fsz I w mi ri rj s.
Proof. exact Exch.exchange_legal_fsz. Qed.
Print Assumptions C15_exchange_legal_fsz.
Example C15_case : consistent 3 2 ex_w /\ single 3 ex_w 1 0 /\ single 3 ex_w 2 1 /\
  exists p, make_candidate_exchange (ex_input 1 0) (with_stream (ex_orc 1) (fun q => q / 2) 9) ex_w 0 = Ret (p, Some (1, 1, 2, 0)).
Proof.
  split; [apply (ex_w_consistent 1 0)|]. split; [repeat split; cbn; lia|]. split; [repeat split; cbn; lia|].
  eexists. vm_compute. reflexivity.
Qed.

(** ** C16: sample slots *)
(** A finished run stores slots 0..NVMCSample-1 in this order, each once; NVMCInterval*Nsite inner steps
    precede each of them, after NVMCWarmUp outer steps (one, if the run continues an earlier one); every
    stored walker is the walker of that moment and the last one is handed on. *)
Theorem C16_slots : forall I Orc rank size burn w qs p tr pf wf qf, 0 <= NVMCSample I -> 0 <= NVMCWarmUp I ->
  runs (vmc_make_sample I Orc rank size burn w qs p) tr (Done (pf, wf, qf)) ->
  exists nWarm, (nWarm = NVMCWarmUp I \/ (nWarm = 1 /\ burn <> None)) /\
    marks tr = expected_marks nWarm (NVMCInterval I * Nsite (T I)) (NVMCSample I) /\
    map fst (saved tr) = zrange 0 (NVMCSample I) /\ saves_current None tr /\ current None tr = Some wf.
Proof. exact Main.slots_csz. Qed.
Print Assumptions C16_slots.
Theorem C16_slots_fsz : forall I Orc rank size burn w qs p tr pf wf qf, 0 <= NVMCSample I -> 0 <= NVMCWarmUp I ->
  runs (vmc_make_sample_fsz I Orc rank size burn w qs p) tr (Done (pf, wf, qf)) ->
  exists nWarm, (nWarm = NVMCWarmUp I \/ (nWarm = 1 /\ burn <> None)) /\
    marks tr = expected_marks nWarm (NVMCInterval I * Nsite (T I)) (NVMCSample I) /\
    map fst (saved tr) = zrange 0 (NVMCSample I) /\ saves_current None tr /\ current None tr = Some wf.
Proof. exact Main.slots_fsz. Qed.
Print Assumptions C16_slots_fsz.
Example C16_case : is_done (snd (ex_run 1 1 None)) = true /\ map fst (saved (fst (ex_run 1 1 None))) = [0;1;2] /\
  marks (fst (ex_run 1 1 None)) = expected_marks 2 3 3 /\
  is_done (snd (ex_run 2 1 (Some ex_w))) = true /\ marks (fst (ex_run 2 1 (Some ex_w))) = expected_marks 1 3 3.
Proof. repeat split; vm_compute; reflexivity. Qed.

(** ** C17: lockstep *)
(** All processes of a group show the same walkers and stored samples in the same order, end in the same
    way and hand on the same walker; the group does not get stuck in a collective operation. *)
Theorem C17_lockstep : forall I Orc size, 1 < size -> forall burn w q p,
  (exists trs os, gruns (kzero Orc) (kadd Orc) (map (fun r => vmc_make_sample I Orc r size burn w (q r) p) (zrange 0 size)) trs os) /\
  forall trs os,
    gruns (kzero Orc) (kadd Orc) (map (fun r => vmc_make_sample I Orc r size burn w (q r) p) (zrange 0 size)) trs os ->
    exists tr, trs = map (fun _ => tr) (zrange 0 size) /\
      ((exists p' w' q', os = map (fun r => Done (p', w', q' r)) (zrange 0 size)) \/
       (exists why, os = map (fun _ => Stopped why) (zrange 0 size))).
Proof.
  exact (fun I Orc size Hs burn w q p => conj
    (Main.group_exists I Orc size Hs _ (inner_step I Orc) (LockS.local_initial I Orc) (LockS.LS_inner I Orc size Hs) burn w q p)
    (Main.group_agrees I Orc size Hs _ (inner_step I Orc) (LockS.local_initial I Orc) (LockS.LS_inner I Orc size Hs) burn w q p)).
Qed.
Print Assumptions C17_lockstep.
Theorem C17_lockstep_fsz : forall I Orc size, 1 < size -> forall burn w q p,
  (exists trs os, gruns (kzero Orc) (kadd Orc) (map (fun r => vmc_make_sample_fsz I Orc r size burn w (q r) p) (zrange 0 size)) trs os) /\
  forall trs os,
    gruns (kzero Orc) (kadd Orc) (map (fun r => vmc_make_sample_fsz I Orc r size burn w (q r) p) (zrange 0 size)) trs os ->
    exists tr, trs = map (fun _ => tr) (zrange 0 size) /\
      ((exists p' w' q', os = map (fun r => Done (p', w', q' r)) (zrange 0 size)) \/
       (exists why, os = map (fun _ => Stopped why) (zrange 0 size))).
Proof.
  exact (fun I Orc size Hs burn w q p => conj
    (Main.group_exists I Orc size Hs _ (inner_step_fsz I Orc) (LockS.local_initial_fsz I Orc) (LockS.LS_inner_fsz I Orc size Hs) burn w q p)
    (Main.group_agrees I Orc size Hs _ (inner_step_fsz I Orc) (LockS.local_initial_fsz I Orc) (LockS.LS_inner_fsz I Orc size Hs) burn w q p)).
Qed.
Print Assumptions C17_lockstep_fsz.
(** In exact arithmetic (associative sums) the group shows what one process alone shows, as long as no
    projected matrix is singular where the matrices are computed again. *)
Theorem C17_as_single : forall I Orc size, 1 < size -> 0 <= NQPFull I -> regular Orc ->
  forall burn w q q1 p tr o trs os,
  alone (vmc_make_sample I Orc 0 1 burn w q1 p) tr o -> Forall (fun e => ~ singular_at I Orc e) tr ->
  gruns (kzero Orc) (kadd Orc) (map (fun r => vmc_make_sample I Orc r size burn w (q r) p) (zrange 0 size)) trs os ->
  trs = map (fun _ => tr) (zrange 0 size) /\
  ((exists p' w' q' q1', o = Done (p', w', q1') /\ os = map (fun r => Done (p', w', q' r)) (zrange 0 size)) \/
   (exists why, o = Stopped why /\ os = map (fun _ => Stopped why) (zrange 0 size))).
Proof.
  exact (fun I Orc size Hs Hq reg => Main.group_single I Orc size Hs _ (inner_step I Orc) (LockS.local_initial I Orc)
    (LockS.LS_inner I Orc size Hs) Hq reg (LockT.LS2_inner I Orc size Hs Hq reg)).
Qed.
Print Assumptions C17_as_single.
Theorem C17_as_single_fsz : forall I Orc size, 1 < size -> 0 <= NQPFull I -> regular Orc ->
  forall burn w q q1 p tr o trs os,
  alone (vmc_make_sample_fsz I Orc 0 1 burn w q1 p) tr o -> Forall (fun e => ~ singular_at I Orc e) tr ->
  gruns (kzero Orc) (kadd Orc) (map (fun r => vmc_make_sample_fsz I Orc r size burn w (q r) p) (zrange 0 size)) trs os ->
  trs = map (fun _ => tr) (zrange 0 size) /\
  ((exists p' w' q' q1', o = Done (p', w', q1') /\ os = map (fun r => Done (p', w', q' r)) (zrange 0 size)) \/
   (exists why, o = Stopped why /\ os = map (fun _ => Stopped why) (zrange 0 size))).
Proof.
  exact (fun I Orc size Hs Hq reg => Main.group_single I Orc size Hs _ (inner_step_fsz I Orc) (LockS.local_initial_fsz I Orc)
    (LockS.LS_inner_fsz I Orc size Hs) Hq reg (LockT.LS2_inner_fsz I Orc size Hs Hq reg)).
Qed.
Print Assumptions C17_as_single_fsz.
(** CalculateMAll stops at the first singular projection, leaving the later ones of this process as they
    were, and the sampler ignores this: a continued run at a walker where one projection is singular shows
    other walkers on two processes than on one, although the arithmetic is exact. *)
Theorem C17_singular_refuted : exists I Orc b w q p tr o trs os, wf_input I /\ regular Orc /\
  alone (vmc_make_sample I Orc 0 1 (Some b) w q p) tr o /\
  gruns (kzero Orc) (kadd Orc) (map (fun r => vmc_make_sample I Orc r 2 (Some b) w q p) (zrange 0 2)) trs os /\
  is_done o = true /\ forallb is_done os = true /\
  exists k tr', nth_error trs 0 = Some tr' /\ eleNum (nth_shown k tr) 1 = 0 /\ eleNum (nth_shown k tr') 1 = 1.
Proof.
  exists (ex_input 1 0), (ex_orc_sing 2), ex_w, ex_walker, (fun _ => 7), 0, (fst ex_alone_sing), (snd ex_alone_sing), (trs_of ex_group_sing), (os_of ex_group_sing).
  split; [apply ex_input_wf|].
  split; [constructor; cbn; intros; try lia; [destruct (_ && _)..]; cbn in *; lia || reflexivity|].
  split; [exact ex_alone_sing_ok|]. split; [exact ex_group_sing_ok|].
  split; [vm_compute; reflexivity|]. split; [vm_compute; reflexivity|].
  exists 1%nat, (nth 0 (trs_of ex_group_sing) []). split; [|split; vm_compute; reflexivity].
  apply nth_error_nth'. vm_compute. lia.
Qed.
Print Assumptions C17_singular_refuted.
Example C17_case : regular (ex_orc 1) /\ alone_ok (vmc_make_sample (ex_input 1 0) (ex_orc 1) 0 1 None ex_walker (fun _ => 0) 0) = true /\
  (forall e, ~ singular_at (ex_input 1 0) (ex_orc 1) e).
Proof.
  split; [constructor; cbn; intros; lia || reflexivity|]. split; [vm_compute; reflexivity|].
  intros e (w & q & _ & _ & a & H). now apply H.
Qed.

(** ** C43: ranges of the random choices *)
Theorem C43_hopping_in_range : forall I Orc w p tr o, wf_input I -> consistent (Nsite (T I)) (Ne I) w -> locals_single I w ->
  runs (make_candidate_hopping I Orc w p) tr o ->
  o <> Stopped Undefined /\ forall p' mi ri rj s flag, o = Done (p', (mi, ri, rj, s), flag) ->
    0 <= mi < Ne I /\ 0 <= s <= 1 /\ 0 <= ri < Nsite (T I) /\ 0 <= rj < Nsite (T I) /\ 0 <= flag <= 1 /\
    eleIdx w (mi + s * Ne I) = ri /\ LocSpn I ri <> 1 /\
    (flag = 0 -> eleNum w (rj + s * Nsite (T I)) = 0 /\ LocSpn I rj <> 1).
Proof. exact Exch.hopping_range. Qed.
Print Assumptions C43_hopping_in_range.
Theorem C43_proposals_in_range_fsz : forall I Orc w p gen tr o, wf_input I -> consistent_fsz (Nsite (T I)) (Ne I) w ->
  locals_single I w ->
  (gen = make_candidate_hopping_fsz I Orc w p \/ gen = make_candidate_hopping_csz I Orc w p \/
   gen = make_candidate_flip_localspin I Orc w p \/ gen = make_candidate_flip_conduction I Orc w p) ->
  runs gen tr o ->
  o <> Stopped Undefined /\ forall p' mi ri rj s t flag, o = Done (p', (mi, ri, rj, s, t), flag) ->
    0 <= mi < 2 * Ne I /\ 0 <= s <= 1 /\ 0 <= ri < Nsite (T I) /\ eleIdx w mi = ri /\ eleSpn w mi = s /\
    (flag <> 1 -> 0 <= rj < Nsite (T I) /\ 0 <= t <= 1 /\ eleNum w (rj + t * Nsite (T I)) = 0 /\
       ((LocSpn I ri <> 1 /\ LocSpn I rj <> 1) \/ rj = ri)).
Proof. exact Exch.proposals_range_fsz. Qed.
Print Assumptions C43_proposals_in_range_fsz.
(** single draws: every word gives an index below n, and a spin *)
Theorem C43_draws_in_range : forall K E w n, 0 < n -> exists i, (umod w n : prog K E Z) = Ret i /\ 0 <= i < n.
Proof. exact Exch.draw_range. Qed.
Print Assumptions C43_draws_in_range.
Theorem C43_spin_in_range : forall w, 0 <= coin w <= 1.
Proof. exact Proofs.coin_range. Qed.
Print Assumptions C43_spin_in_range.
Lemma ex_w_local path sz : locals_single (ex_input path sz) ex_w.
Proof. intros r Hr Hl. cbn in Hr, Hl. destruct (Z.eqb_spec r 1) as [->|]; [reflexivity|lia]. Qed.
Example C43_case : locals_single (ex_input 1 0) ex_w /\
  snd (exec (make_candidate_hopping (ex_input 1 0) (with_stream (ex_orc 1) (fun q => q) 9) ex_w 0)) = Done (3, (0, 0, 2, 0), 0).
Proof. split; [apply ex_w_local|]. vm_compute. reflexivity. Qed.

(** ** C44: the initial configuration *)
(** The construction can be completed (by some stream of 32-bit words, whatever the bound on the searches)
    exactly when a configuration exists: every local spin gets an electron and the others fit. *)
Theorem C44_completes_iff_feasible : forall I, wf_input I -> Nsite (T I) <= 2 ^ 32 -> 2 * Ne I <= 2 ^ 32 ->
  (feasible I -> forall Orc w p n, exists rnd r, (forall q, 0 <= rnd q < 2 ^ 32) /\
     initial_tables I (with_stream Orc rnd (S n)) w p = Ret r) /\
  (forall Orc w p tr r, runs (initial_tables I Orc w p) tr (Done r) -> feasible I).
Proof.
  exact (fun I wf B1 B2 => conj (fun F Orc w p n => Init.feasible_completes I Orc w p n wf B1 B2 F)
                                 (fun Orc w p tr r => Init.completes_feasible I Orc w p tr r wf)).
Qed.
Print Assumptions C44_completes_iff_feasible.
Theorem C44_completes_iff_feasible_fsz : forall I, wf_input I -> Nsite (T I) <= 2 ^ 32 -> 2 * Ne I <= 2 ^ 32 ->
  0 <= Ne I + (if TwoSz I =? -1 then 0 else Z.quot (TwoSz I) 2) <= 2 * Ne I ->
  (feasible_fsz I -> forall Orc w p n, exists rnd r, (forall q, 0 <= rnd q < 2 ^ 32) /\
     initial_tables_fsz I (with_stream Orc rnd (S n)) w p = Ret r) /\
  (forall Orc w p tr r, runs (initial_tables_fsz I Orc w p) tr (Done r) -> feasible_fsz I).
Proof.
  exact (fun I wf B1 B2 Hu => conj (fun F Orc w p n => Init.feasible_completes_fsz I Orc w p n wf B1 B2 F)
                                 (fun Orc w p tr r => Init.completes_feasible_fsz I Orc w p tr r wf Hu)).
Qed.
Print Assumptions C44_completes_iff_feasible_fsz.
(** The reader does not check this: it accepts more electrons of one spin than sites, and then the
    construction never ends, whatever the random numbers. *)
Theorem C44_accepted_but_endless_refuted : exists I, wf_input I /\ reader_accepts I /\
  forall Orc w p tr o r, runs (initial_tables I Orc w p) tr o -> o <> Done r.
Proof.
  exists (Input (Tables 3 0 0 0 0 (fun _ => 0) (fun _ _ => 0) (fun _ _ => 0) (fun _ _ => 0)) 4 (fun _ => 0) 0 0 0 1 1 1 1).
  match goal with |- ?G /\ _ => assert (wf : G) by (constructor; cbn; auto; try lia; constructor; cbn; lia) end.
  split; [exact wf|]. split; [vm_compute; discriminate|].
  intros Orc w p tr o r R ->. apply (Init.completes_feasible _ _ _ _ _ _ wf) in R. vm_compute in R. intuition congruence.
Qed.
Print Assumptions C44_accepted_but_endless_refuted.
Example C44_case : feasible (ex_input 1 0) /\ feasible_fsz (ex_input 1 2) /\ reader_accepts (ex_input 1 0).
Proof. repeat split; try (vm_compute; congruence). Qed.
