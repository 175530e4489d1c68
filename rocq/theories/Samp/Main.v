(** The properties, put together from the invariants. *)
From Coq Require Import ZArith List Bool Lia.
From Verif Require Import Base.ZLoop Base.Checked Proj.Model Proj.Spec Samp.Prog Samp.Model Samp.Spec Samp.Hoare
  Samp.Config Samp.Proofs Samp.ProofsF Samp.ProofsI Samp.Trace Samp.Lock Samp.LockS Samp.LockT Samp.Exch.
Import ListNotations.
Local Open Scope Z_scope.

Section Main.
Variable I : input.
Hypothesis wf : wf_input I.
Notation N := (Nsite (T I)).

Lemma main_csz Orc rank size burn w qs p tr o w' : history I burn ->
  runs (vmc_make_sample I Orc rank size burn w qs p) tr o -> shown tr o w' ->
  consistent N (Ne I) w' /\ (forall s, 0 <= s <= 1 -> spin_count N w' s = Ne I) /\ locals_single I w' /\ counters_current I w'.
Proof. intros Hh R Hs. apply InvC_facts; [exact wf|]. exact (proj2 (all_shown I wf _ _ _ _ _ _ _ _ _ Hh R) w' Hs). Qed.
Lemma safe_csz Orc rank size burn w qs p tr o : history I burn ->
  runs (vmc_make_sample I Orc rank size burn w qs p) tr o -> o <> Stopped Undefined.
Proof. intros Hh R. exact (proj1 (all_shown I wf _ _ _ _ _ _ _ _ _ Hh R)). Qed.
Definition ups0 : Z := Ne I + (if TwoSz I =? -1 then 0 else Z.quot (TwoSz I) 2).
Lemma main_fsz Orc rank size burn w qs p tr o w' : 0 <= ups0 <= 2 * Ne I -> history_fsz I burn ->
  runs (vmc_make_sample_fsz I Orc rank size burn w qs p) tr o -> shown tr o w' ->
  consistent_fsz N (Ne I) w' /\ (TwoSz I <> -1 -> NExUpdatePath I <> 3 -> spin_count N w' 0 = ups0) /\
  spin_count N w' 0 + spin_count N w' 1 = 2 * Ne I /\ locals_single I w' /\ counters_current I w'.
Proof. intros Hu Hh R Hs. apply InvF_facts; [exact wf|]. exact (proj2 (all_shown_fsz I wf _ _ _ _ _ _ _ _ _ Hu Hh R) w' Hs). Qed.
Lemma safe_fsz Orc rank size burn w qs p tr o : 0 <= ups0 <= 2 * Ne I -> history_fsz I burn ->
  runs (vmc_make_sample_fsz I Orc rank size burn w qs p) tr o -> o <> Stopped Undefined.
Proof. intros Hu Hh R. exact (proj1 (all_shown_fsz I wf _ _ _ _ _ _ _ _ _ Hu Hh R)). Qed.
End Main.

(** ** slots *)
Lemma slots_csz I Orc rank size burn w qs p tr pf wf qf : 0 <= NVMCSample I -> 0 <= NVMCWarmUp I ->
  runs (vmc_make_sample I Orc rank size burn w qs p) tr (Done (pf, wf, qf)) ->
  exists nWarm, (nWarm = NVMCWarmUp I \/ (nWarm = 1 /\ burn <> None)) /\
    marks tr = expected_marks nWarm (NVMCInterval I * Nsite (T I)) (NVMCSample I) /\
    map fst (saved tr) = zrange 0 (NVMCSample I) /\ saves_current None tr /\ current None tr = Some wf.
Proof.
  intros Hs Hw R. unfold vmc_make_sample in R.
  destruct (slots_ok I Orc rank size _ _ (quiet_initial I Orc) (inner_shape I Orc rank size) _ _ _ _ _ _ _ _ Hs Hw R) as (n & A & B & C & D).
  exists n. rewrite saved_marks, B, expected_slots. auto.
Qed.
Lemma slots_fsz I Orc rank size burn w qs p tr pf wf qf : 0 <= NVMCSample I -> 0 <= NVMCWarmUp I ->
  runs (vmc_make_sample_fsz I Orc rank size burn w qs p) tr (Done (pf, wf, qf)) ->
  exists nWarm, (nWarm = NVMCWarmUp I \/ (nWarm = 1 /\ burn <> None)) /\
    marks tr = expected_marks nWarm (NVMCInterval I * Nsite (T I)) (NVMCSample I) /\
    map fst (saved tr) = zrange 0 (NVMCSample I) /\ saves_current None tr /\ current None tr = Some wf.
Proof.
  intros Hs Hw R. unfold vmc_make_sample_fsz in R.
  destruct (slots_ok I Orc rank size _ _ (quiet_initial_fsz I Orc) (inner_shape_fsz I Orc rank size) _ _ _ _ _ _ _ _ Hs Hw R) as (n & A & B & C & D).
  exists n. rewrite saved_marks, B, expected_slots. auto.
Qed.

(** ** lockstep *)
Section Group.
Variables (I : input) (Orc : oracles) (size : Z).
Hypothesis Hsize : 1 < size.
Variable initial : walker -> Z -> prog (K Orc) (event (L Orc)) (Z * walker).
Variable step : Z -> Z -> st Orc -> prog (K Orc) (event (L Orc)) (st Orc).
Hypothesis Hinit : forall w p, local (initial w p).
Hypothesis Hstep : forall s, Agree Orc size s ->
  @Lock.LS (K Orc) (event (L Orc)) (kzero Orc) (kadd Orc) (zrange 0 size) _ (Agree Orc size) (fun r => step r size (s r)).
Let one r burn w (q : Z -> Z -> Q Orc) p := make_sample I Orc r size initial (step r size) burn w (q r) p.
Definition in_step (trs : list (list (event (L Orc)))) (os : list (outcome (Z * walker * (Z -> Q Orc)))) : Prop :=
  exists tr, trs = map (fun _ => tr) (zrange 0 size) /\
    ((exists p' w' q', os = map (fun r => Done (p', w', q' r)) (zrange 0 size)) \/
     (exists why, os = map (fun _ => Stopped why) (zrange 0 size))).
Lemma group_agrees burn w q p trs os :
  gruns (kzero Orc) (kadd Orc) (map (fun r => one r burn w q p) (zrange 0 size)) trs os -> in_step trs os.
Proof.
  intros G. pose proof (LS_make_sample I Orc size Hsize initial (fun r => step r size) Hinit Hstep burn w q p) as H.
  destruct (LS_all _ _ _ (rs_ne size Hsize) _ _ H _ _ G) as (tr & -> & [(a & -> & (p' & w' & Ha))|(why & ->)]).
  - exists tr. split; [reflexivity|]. left. exists p', w', (fun r => snd (a r)). apply map_ext_in. intros r Hr.
    specialize (Ha r Hr). destruct (a r) as (pw, q0). cbn in *. now rewrite <- Ha.
  - exists tr. split; [reflexivity|]. right. eauto.
Qed.
Lemma group_exists burn w q p : exists trs os,
  gruns (kzero Orc) (kadd Orc) (map (fun r => one r burn w q p) (zrange 0 size)) trs os.
Proof.
  eapply LS_some; [exact (rs_ne size Hsize)|].
  exact (LS_make_sample I Orc size Hsize initial (fun r => step r size) Hinit Hstep burn w q p).
Qed.
Hypothesis Hq : 0 <= NQPFull I.
Hypothesis reg : regular Orc.
Hypothesis Hstep2 : forall s s1, Rel I Orc size s s1 ->
  @Lock.LS2 (K Orc) (event (L Orc)) (kzero Orc) (kadd Orc) (zrange 0 size) _ (singular_at I Orc) (Rel I Orc size) (fun r => step r size (s r)) (step 0 1 s1).
Lemma group_single burn w q q1 p tr o trs os :
  alone (make_sample I Orc 0 1 initial (step 0 1) burn w q1 p) tr o -> Forall (fun e => ~ singular_at I Orc e) tr ->
  gruns (kzero Orc) (kadd Orc) (map (fun r => one r burn w q p) (zrange 0 size)) trs os ->
  trs = map (fun _ => tr) (zrange 0 size) /\
  ((exists p' w' q' q1', o = Done (p', w', q1') /\ os = map (fun r => Done (p', w', q' r)) (zrange 0 size)) \/
   (exists why, o = Stopped why /\ os = map (fun _ => Stopped why) (zrange 0 size))).
Proof.
  intros R F G.
  pose proof (LS2_make_sample I Orc size Hsize Hq reg initial (fun r => step r size) (step 0 1) Hinit Hstep2 burn w q q1 p) as H2.
  pose proof (LS_make_sample I Orc size Hsize initial (fun r => step r size) Hinit Hstep burn w q p) as H.
  destruct (LS2_run _ _ _ (rs_ne size Hsize) _ _ _ _ H2 _ _ R F) as [(G2 & (why & ->))|(a & b & -> & HR & G2)];
    destruct (LS_unique _ _ _ (rs_ne size Hsize) _ _ H _ _ _ _ G G2) as (-> & ->).
  - split; [reflexivity|]. right. eauto.
  - split; [reflexivity|]. left. destruct b as ((p', w'), q1'). exists p', w', (fun r => snd (a r)), q1'. split; [reflexivity|].
    apply map_ext_in. intros r Hr. specialize (HR r Hr). destruct (a r) as (pw, q0). cbn in *. now rewrite HR.
Qed.
End Group.
