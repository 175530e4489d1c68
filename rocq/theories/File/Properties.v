(** C37 (parameter files can be read back) and C55 (files of initial values that do not fit). *)
From Coq Require Import ZArith List Bool String Lia Reals Lra.
From Coquelicot Require Import Coquelicot.
From Verif Require Import Base.ZLoop Mem.Model Mem.Spec File.Model File.Spec File.ProofsOut File.Proofs File.ProofsRej File.Cases.
Import ListNotations.
Local Open Scope Z_scope.

(** ** C37 *)
(** with at least two averaged steps (and not more than steps taken) the files are written; the file of all parameters, given to another run, restores the means *)
Theorem C37_single_file S : valid S -> forall T smp E E2 P, 2 <= smp <= T ->
  exists all files, output_opt_data S smp (opt_steps S T smp E E2 P) = Some (all, files) /\
  forall garbage p, exists p', read_init_parameter S all garbage p = Some p' /\
    forall j, p' j = if (0 <=? j) && (j <? NPara S) then mean T smp (fun t => P t j) else p j.
Proof.
  intros V T smp E E2 P [H1 H2]. do 2 eexists. assert (O := output_ok S V T smp E E2 P ltac:(lia) H2 ltac:(lia)). split; [exact O|]. intros garbage p. exact (trip_single S V T smp E E2 P H1 H2 _ _ garbage p O).
Qed.
Print Assumptions C37_single_file.
(** likewise the files of the families, each named under its keyword *)
Theorem C37_family_files S : valid S -> forall T smp E E2 P, 2 <= smp <= T ->
  exists all files, output_opt_data S smp (opt_steps S T smp E E2 P) = Some (all, files) /\
  forall names re0 im0 p, uses files names -> exists p', read_input_parameters S names re0 im0 p = Done p' /\
    forall j, 0 <= j < NPara S -> p' j = mean T smp (fun t => P t j).
Proof.
  intros V T smp E E2 P [H1 H2]. do 2 eexists. assert (O := output_ok S V T smp E E2 P ltac:(lia) H2 ltac:(lia)). split; [exact O|]. intros names re0 im0 p. exact (trip_families S V T smp E E2 P H1 H2 _ _ names re0 im0 p O).
Qed.
Print Assumptions C37_family_files.
Example C37_case : valid (small 1 2 0 0) /\ 2 <= 2 <= 3 /\ mean 3 2 (fun t => P2 t 1) = RtoC (5 / 2) /\
  exists all files, output_opt_data (small 1 2 0 0) 2 (opt_steps (small 1 2 0 0) 3 2 (fun _ => RtoC 3) (fun _ => RtoC 4) P2) = Some (all, files) /\
    map fst files = ["gutzwiller"; "jastrow"]%string /\ map (fun f => fst (snd f)) files = [1; 2] /\ List.length all = 15%nat.
Proof. split; [apply small_valid; lia|]. split; [lia|]. split; [exact mean_two|exact two_steps_written]. Qed.
(** Finding.  With one averaged step the file holds two numbers per parameter, the reader takes three: the first parameter gets the value of another *)
Theorem C37_one_step_refuted : exists S T E E2 P all files, valid S /\ 1 <= T /\ output_opt_data S 1 (opt_steps S T 1 E E2 P) = Some (all, files) /\
  forall garbage p, exists p', read_init_parameter S all garbage p = Some p' /\ p' 0 = P (T - 1) 1 /\ p' 0 <> mean T 1 (fun t => P t 0).
Proof.
  exists (small 2 0 0 0), 1, (fun _ => RtoC 3), (fun _ => RtoC 4), P1, one_step, []. split; [apply small_valid; lia|]. split; [lia|]. split; [exact one_step_written|].
  intros garbage p. destruct (one_step_read garbage p) as (p' & H1 & H2). exists p'. split; [exact H1|]. split; [exact H2|]. rewrite H2, mean_one. intros X. apply (f_equal fst) in X. cbn in X. lra.
Qed.
Print Assumptions C37_one_step_refuted.
(** Finding.  More averaged steps than steps: the average is over memory never written *)
Theorem C37_few_steps_refuted : exists S T smp, valid S /\ 1 <= T /\ 2 <= smp /\ forall E E2 P, output_opt_data S smp (opt_steps S T smp E E2 P) = None.
Proof. exists (small 1 0 0 0), 1, 2. split; [apply small_valid; lia|]. split; [lia|]. split; [lia|exact few_steps]. Qed.
Print Assumptions C37_few_steps_refuted.

(** ** C55 *)
(** files that fit are applied, each line to its parameter and to nothing else *)
Theorem C55_applied S : valid S -> (iFlgOrbitalGeneral S = 1 -> iNOrbitalAntiParallel S <= NOrbitalIdx S) -> forall names re0 im0 p,
  (forall kw, match place S kw with
              | Some (head, _, num) => names kw = Absent \/ exists body, names kw = Given head body /\ fits num body
              | None => names kw = Absent \/ exists head body, names kw = Given head body
              end) -> orbital_once names ->
  exists p', read_input_parameters S names re0 im0 p = Done p' /\
    (forall kw head off num head' body i a b, place S kw = Some (head, off, num) -> names kw = Given head' body -> In (i, a, b) body -> p' (off + i) = (a, b)) /\
    (forall j, (forall kw head off num, place S kw = Some (head, off, num) -> is_given (names kw) = true -> ~ off <= j < off + num) -> p' j = p j).
Proof. exact (accepted S). Qed.
Print Assumptions C55_applied.
Example C55_applied_case : valid (small 1 2 0 0) /\ fitting (small 1 2 0 0) two_families /\ orbital_once two_families /\
  forall re0 im0 p, read_input_parameters (small 1 2 0 0) two_families re0 im0 p = Done (upd (upd (upd p 0 (3%R, 0%R)) 2 (5%R, 0%R)) 1 (4%R, 1%R)).
Proof. split; [apply small_valid; lia|]. split; [apply two_families_fit|]. split; [apply two_families_fit|exact two_families_read]. Qed.
(** a file with another number in its header stops the run; missing here: input files named after it, the right number over wrong lines, odd numbers of parallel orbitals (refuted below) *)
Theorem C55_rejected_partial S : valid S -> (iFlgOrbitalGeneral S = 1 -> iNOrbitalAntiParallel S <= NOrbitalIdx S) -> forall names re0 im0 p kw head off num head' body,
  (forall kw, match place S kw with
              | Some (head, _, num) => names kw = Absent \/ exists head' body, names kw = Given head' body /\ (head' = head \/ kw = "InOrbitalParallel"%string -> fits num body)
              | None => names kw = Absent
              end) ->
  place S kw = Some (head, off, num) -> names kw = Given head' body -> (if String.eqb kw "InOrbitalParallel" then 1 < Z.abs (head' - head) else head' <> head) ->
  read_input_parameters S names re0 im0 p = Aborted.
Proof. exact (rejected S). Qed.
Print Assumptions C55_rejected_partial.
Example C55_rejected_case : valid (small 1 2 0 0) /\ place (small 1 2 0 0) "InGutzwiller" = Some (1, 0, 1) /\ forall re0 im0 p, read_input_parameters (small 1 2 0 0) wrong_number re0 im0 p = Aborted.
Proof.
  split; [apply small_valid; lia|]. split; [reflexivity|]. intros re0 im0 p. refine (C55_rejected_partial (small 1 2 0 0) _ _ wrong_number re0 im0 p "InGutzwiller" 1 0 1 2 _ wrong_number_rest eq_refl eq_refl _); [apply small_valid; lia|cbn; lia|cbn; lia].
Qed.
(** Finding.  A Green function file named as well makes the reader forget the mismatch: the run goes on, the file ignored *)
Theorem C55_ignored_refuted : exists S names head off num head' body, valid S /\ place S "InGutzwiller" = Some (head, off, num) /\ names "InGutzwiller"%string = Given head' body /\ head' <> head /\
  is_given (names "OneBodyG"%string) = true /\ forall re0 im0 p, read_input_parameters S names re0 im0 p = Done p.
Proof. exists (small 1 0 0 0), ignored. do 5 eexists. split; [apply small_valid; lia|]. split; [reflexivity|]. split; [reflexivity|]. split; [cbn; lia|]. split; [reflexivity|exact ignored_read]. Qed.
Print Assumptions C55_ignored_refuted.
(** Finding.  The number in the header is right but the lines are missing: a parameter of another family gets uninitialised values *)
Theorem C55_missing_lines_refuted : exists S names head off num, valid S /\ place S "InGutzwiller" = Some (head, off, num) /\ names "InGutzwiller"%string = Given head [] /\ 0 < num /\
  forall re0 im0 p, exists p', read_input_parameters S names re0 im0 p = Done p' /\ p' (off + num) = (re0, im0).
Proof. exists (small 1 1 0 0), no_lines. do 3 eexists. split; [apply small_valid; lia|]. split; [reflexivity|]. split; [reflexivity|]. split; [cbn; lia|]. intros re0 im0 p. eexists. split; [exact (no_lines_read re0 im0 p)|reflexivity]. Qed.
Print Assumptions C55_missing_lines_refuted.
(** Finding.  One too many parallel orbitals in the header are accepted; a file of fewer than five lines is left out and the run goes on *)
Theorem C55_other_refuted : (exists S names head off num body, valid S /\ place S "InOrbitalParallel" = Some (head, off, num) /\ names "InOrbitalParallel"%string = Given (head + 1) body /\
    forall re0 im0 p, exists p', read_input_parameters S names re0 im0 p = Done p') /\
  (exists S names, valid S /\ names "InGutzwiller"%string = Short /\ forall re0 im0 p, read_input_parameters S names re0 im0 p = Unread p).
Proof.
  split.
  - exists (small 0 0 1 1), odd_header. do 4 eexists. split; [apply small_valid; lia|]. split; [reflexivity|]. split; [reflexivity|]. intros re0 im0 p. eexists. exact (odd_header_read re0 im0 p).
  - exists (small 1 0 0 0), cut_short. split; [apply small_valid; lia|]. split; [reflexivity|exact cut_short_read].
Qed.
Print Assumptions C55_other_refuted.
