(** C74: both programs work with the Hamiltonian that the definition files state. *)
From Coq Require Import ZArith List Bool Reals Lia Lra.
From Coquelicot Require Import Complex.
From Verif Require Import Base.ZLoop Base.Checked Pf.Spec Slater.Model Green.Spec Ham.Model Ham.Spec Green.Cases Trm.Model Trm.Spec Trm.Proofs Trm.Files Trm.Final Trm.Cases.
Import ListNotations.
Local Open Scope Z_scope.

(** Files with complete lines: the main program goes on exactly when every file has as many rows as announced and all sites exist; then the
    Hamiltonian it works with is the one stated, one term per row, in order. *)
Theorem C74_hamiltonian V TwoSz F X B : all_complete F X -> counts_ok F -> let Y := in_effect F X in
  (counted F Y /\ good TwoSz (sites V) Y <-> exists h, main_hamiltonian (sites V) TwoSz F B = Done h) /\
  forall h, main_hamiltonian (sites V) TwoSz F B = Done h ->
    hamiltonian V h = stated (sites V) Y /\ (spins_good Y -> sites_ok V h) /\
    (TwoSz <> -1 -> forall k, 0 <= k < NInterAll h -> InterAll h k 1 = InterAll h k 3 /\ InterAll h k 5 = InterAll h k 7).
Proof.
  intros HX HN Y. split; [split|].
  - intros (HC & HG). exact (final_main_accepts V TwoSz F X B HX HN HC HG).
  - intros (h & E). destruct (final_main V TwoSz F X B HX HN h E) as (HC & HG & _). exact (conj HC HG).
  - intros h E. destruct (final_main V TwoSz F X B HX HN h E) as (_ & _ & H). exact H.
Qed.
Print Assumptions C74_hamiltonian.
Example C74_hamiltonian_case : all_complete F2 X2 /\ counts_ok F2 /\ counted F2 (in_effect F2 X2) /\ good 0 (sites V2) (in_effect F2 X2) /\ spins_good (in_effect F2 X2) /\ length (stated (sites V2) (in_effect F2 X2)) = 17%nat.
Proof. rewrite X2_effect. repeat split; try exact X2_complete; try exact F2_counts; try exact X2_counted; try exact X2_good; try exact X2_spins; try apply X2_complete; try apply F2_counts; try apply X2_good; try apply X2_spins. Qed.

(** The Hartree-Fock program, from the same files: the same Hamiltonian. *)
Theorem C74_same V F X B : all_complete F X -> counts_ok F -> let Y := in_effect F X in
  (counted F Y <-> exists h, uhf_hamiltonian F B = Done h) /\
  (forall h, uhf_hamiltonian F B = Done h -> hamiltonian V h = stated (sites V) Y) /\
  forall TwoSz B' h, main_hamiltonian (sites V) TwoSz F B' = Done h -> exists h', uhf_hamiltonian F B = Done h' /\ hamiltonian V h' = hamiltonian V h.
Proof.
  intros HX HN Y. destruct (final_uhf V F X B HX HN) as (H1 & H2). split; [exact H1|]. split; [exact H2|]. intros TwoSz B' h E.
  destruct (final_main V TwoSz F X B' HX HN h E) as (HC & _ & ES & _). destruct (proj1 H1 HC) as (h' & E'). exists h'. split; [exact E'|]. now rewrite (H2 h' E'), ES.
Qed.
Print Assumptions C74_same.
Example C74_same_case : exists h, main_hamiltonian (sites V2) 0 F2 B2 = Done h.
Proof. apply (final_main_accepts V2 0 F2 X2 B2 X2_complete F2_counts X2_counted X2_good). Qed.

(** What becomes of each file, whatever it contains: a row that is not admissible or too few rows end the run; more rows are written outside. *)
Theorem C74_judged Nsite TwoSz K rows : 0 < K ->
  (forall lines t, complete 4 2 lines rows -> agrees (judged K (good_trans Nsite) rows) (get_transfer_info Nsite K lines t)) /\
  (forall lines t, complete 1 1 lines rows -> agrees (judged K (good_one Nsite) rows) (get_info_coulomb_intra Nsite K lines t)) /\
  (forall lines t, complete 2 1 lines rows -> agrees (judged K (good_two Nsite) rows) (read_pair_d_value Nsite K lines t)) /\
  (forall lines t, complete 2 1 lines rows -> agrees (judged K (good_two Nsite) rows) (read_pair_hop_value Nsite (2 * K) lines t)) /\
  (forall lines t, complete 8 2 lines rows -> agrees (judged K (good_all TwoSz Nsite) rows) (get_info_inter_all TwoSz Nsite K lines t)) /\
  (forall lines t, complete 8 0 lines rows -> agrees (judged K (ok_sites Nsite [0; 2; 4; 6]%nat) rows) (get_info_two_body_g Nsite K lines t)).
Proof. exact (final_judged Nsite TwoSz K rows). Qed.
Print Assumptions C74_judged.
Example C74_judged_case : judged 4 (good_trans 2) rows_trans = Accept /\ judged 5 (good_trans 2) rows_trans = Reject /\ judged 3 (good_trans 2) rows_trans = Overrun /\ judged 4 (good_trans 1) rows_trans = Reject.
Proof. repeat split. Qed.

(** The requests for two-body Green's functions are kept as they are written, all eight numbers. *)
Theorem C74_requests Nsite K rows lines t t' : 0 < K -> complete 8 0 lines rows -> get_info_two_body_g Nsite K lines t = Done t' ->
  Z.of_nat (length rows) = K /\ forall k r, nth_error rows k = Some r -> forall c, 0 <= c < 8 -> fst t' (Z.of_nat k) c = z r (Z.to_nat c).
Proof. exact (final_requests Nsite K rows lines t t'). Qed.
Print Assumptions C74_requests.
Example C74_requests_case : get_info_two_body_g 2 1 [[Int 0; Int 0; Int 1; Int 0; Int 1; Int 1; Int 0; Int 1]] (fun _ _ => 7, fun _ => tt) <> Refused.
Proof. cbn. discriminate. Qed.

(** A row more than announced is written outside the array, in whatever file: the count is checked only at the end. *)
Theorem C74_extra_row_refuted Nsite K lines rows t : 0 < K -> complete 4 2 lines rows -> K < Z.of_nat (length rows) -> (forall r, In r rows -> good_trans Nsite r = true) ->
  get_transfer_info Nsite K lines t = Outside.
Proof. exact (extra_row Nsite K lines rows t). Qed.
Print Assumptions C74_extra_row_refuted.
Example C74_extra_row_case : complete 4 2 (l_trans F2) rows_trans /\ 3 < Z.of_nat (length rows_trans) /\ forall r, In r rows_trans -> good_trans 2 r = true.
Proof. split; [exact (proj1 X2_complete)|]. split; [reflexivity|exact (proj1 X2_good)]. Qed.

(** Spins are not looked at: a hopping to spin 5 is accepted, and its spin-orbital does not exist. *)
Theorem C74_spin_refuted : exists F X, all_complete F X /\ counts_ok F /\ forall B, exists h, main_hamiltonian (sites V2) 0 F B = Done h /\
  hamiltonian V2 h = stated (sites V2) X /\ In ((- (1), - 0)%R, [(0, 11)]) (hamiltonian V2 h) /\ ~ 11 < 2 * sites V2.
Proof.
  exists F_spin, X_spin. split; [exact X_spin_complete|]. assert (HN : counts_ok F_spin) by (repeat split; cbn; lia). split; [exact HN|]. intros B.
  destruct (final_main_accepts V2 0 F_spin X_spin B X_spin_complete HN) as (h & E); [repeat split| |].
  { change (sites V2) with 2. split; [in_rows|]. split; [in_rows|]. split; in_rows. }
  exists h. split; [exact E|]. destruct (final_main V2 0 F_spin X_spin B X_spin_complete HN h E) as (_ & _ & ES & _). split; [exact ES|]. rewrite ES. split; [|change (sites V2) with 2; lia]. left. reflexivity.
Qed.
Print Assumptions C74_spin_refuted.

(** A hopping without imaginary part has none for the Hartree-Fock program, for the main program it has that of the line before. *)
Theorem C74_short_line_refuted : exists lines, forall re t, exists m u,
  get_transfer_info 2 2 lines t = Done m /\ uhf_transfer 2 lines re t = Done u /\ fst m = fst u /\ snd m 1 = (1%R, (/ 2)%R) /\ snd u 1 = (1%R, 0%R).
Proof. exists short. intros re t. do 2 eexists. split; [reflexivity|]. split; [reflexivity|]. repeat split. Qed.
Print Assumptions C74_short_line_refuted.

(** A file whose header announces no rows is not read at all. *)
Theorem C74_zero_count_refuted : exists F X, all_complete F X /\ r_trans X <> [] /\ forall V TwoSz B, exists h, main_hamiltonian (sites V) TwoSz F B = Done h /\ hamiltonian V h = [].
Proof. exists F_zero, X_zero. split; [exact X_zero_complete|]. split; [discriminate|]. intros V TwoSz B. eexists. split; reflexivity. Qed.
Print Assumptions C74_zero_count_refuted.

(** The Hartree-Fock program computes the address of one row more than there are, at the end of every file that it accepts. *)
Theorem C74_pointer_refuted N s t t' ptr : 0 < N ->
  (uhf_pairs N s t = Done (t', ptr) -> In N ptr) /\ (uhf_pair_hop (2 * N) s t = Done (t', ptr) -> In (2 * N) ptr).
Proof. exact (pointer_behind N s t t' ptr). Qed.
Print Assumptions C74_pointer_refuted.
Example C74_pointer_case : exists t' ptr, uhf_pairs 1 (concat (l_hund F2)) (b_r B2) = Done (t', ptr).
Proof. do 2 eexists. reflexivity. Qed.

(** The allocation of a table without rows writes a pointer that does not exist. *)
Theorem C74_allocation_refuted N : 0 <= N -> ((forall p, In p (i_2d_allocate_writes N) -> 0 <= p < N) <-> 0 < N).
Proof.
  intros H. unfold i_2d_allocate_writes. split.
  - intros Q. specialize (Q 0 (or_introl eq_refl)). lia.
  - intros L p [<-|I]; [lia|]. now apply zrange_in in I.
Qed.
Print Assumptions C74_allocation_refuted.

(** The kinds of the sites: a file that names one site twice and another not at all is accepted. *)
Theorem C74_locspin_refuted t : exists t', get_loc_spin_info 2 [[Int 0; Int 1]; [Int 0; Int 0]] t = Done t' /\ snd t' 0 = 0 /\ snd t' 1 = snd t 1.
Proof. eexists. split; [reflexivity|]. split; reflexivity. Qed.
Print Assumptions C74_locspin_refuted.
