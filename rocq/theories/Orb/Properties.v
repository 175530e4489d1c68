(** C73: the starting pair orbitals written by the Hartree-Fock program and read by the main program. *)
From Coq Require Import ZArith List Bool Reals Lia Lra.
From Coquelicot Require Import Complex.
From Verif Require Import Green.Spec Base.ZLoop Base.RSum Pf.Pfaffian Pf.Spec Slater.Model Slater.Spec Fsz.Spec Ham.Model Ham.Spec Uhf.Model Uhf.Spec Uhf.Cases Orb.Model Orb.Spec Orb.Wedge Orb.Params Orb.Readers Orb.Final Orb.Modes Orb.Cases.
Import ListNotations.
Local Open Scope Z_scope.

(** The pair amplitudes made of the orbitals of a pass stand for the Slater determinant of the lowest 2 Ne eigenorbitals of the mean field: so
    says their Pfaffian on any list of 2 Ne spin-orbitals; it is 0 on longer lists. *)
Theorem C73_determinant V H Ne zheev mix G : 0 < sites V -> sites_ok V H -> two_sites H -> files_hermitian (sites V) H -> diagonalises (2 * sites V) zheev -> 0 <= Ne <= sites V -> hermitian (2 * sites V) G ->
  let p := step (sites V) H (2 * Ne) zheev mix G in let v := fun k i => Cconj (pR p i k) in
  eigenorbitals (2 * sites V) (makeham (sites V) H G) (pEigen p) v /\
  (forall i j, pGreen p i j = csum (zrange 0 (2 * Ne)) (fun k => Cmult (Cconj (v k i)) (v k j))) /\
  (forall l, Z.of_nat (length l) = 2 * Ne -> pf (pair_general Ne (pR p)) l = determinant (map v (zrange 0 (2 * Ne))) l) /\
  (forall l, 2 * Ne < Z.of_nat (length l) -> pf (pair_general Ne (pR p)) l = RtoC 0).
Proof. exact (final_pass V H Ne zheev mix G). Qed.
Print Assumptions C73_determinant.
Example C73_determinant_case : 0 < sites V1 /\ sites_ok V1 H_field /\ two_sites H_field /\ files_hermitian (sites V1) H_field /\ diagonalises (2 * sites V1) zheev2 /\ 0 <= 1 <= sites V1 /\ hermitian (2 * sites V1) G_up.
Proof.
  split; [reflexivity|]. split; [exact H_field_sites|]. split; [exact H_field_two|]. split; [exact H_field_hermitian|]. split; [exact zheev2_ok|]. split; [change (sites V1) with 1; lia|].
  intros i j _ _. unfold G_up. destruct (i =? 0), (j =? 0); cbn [andb]; apply injective_projections; cbn; ring.
Qed.

(** Every line of an orbital file is the mean over its class, with the signs of the definition file, plus the random offset; a class without
    pairs gives a line that is not a number. *)
Theorem C73_average n T rand eps lo hi cells : legal_cells n T cells -> 0 <= lo ->
  exists lines, written n T rand eps lo hi cells = Some lines /\ Z.of_nat (length lines) = Z.max 0 (hi - lo) /\
  forall k, lo <= k < hi -> nth (Z.to_nat (k - lo)) lines None =
    match class T cells k with [] => None | c => Some (Cplus (mean T c) (RtoC (offset rand eps k))) end.
Proof. exact (written_is n T rand eps lo hi cells). Qed.
Print Assumptions C73_average.
Example C73_average_case : legal_cells 4 U_sign (cells_ap2 2 f_hop) /\ class U_sign (cells_ap2 2 f_hop) 3 = [(1, 3, f_hop 1 1)] /\ class U_sign (cells_ap2 2 f_hop) 4 = [].
Proof.
  split; [|split; reflexivity]. intros c I. unfold cells_ap2 in I. change (zrange 0 2) with [0; 1] in I. cbn [flat_map map app In] in I. in_cases I; right; cbv; intuition discriminate.
Qed.

(** General orbitals: what the main program reads gives back twice the amplitudes up to the offset 10^-eps, and without offset the Pfaffian of
    every configuration is 2^Ne times the Slater determinant of the occupied orbitals. *)
Theorem C73_general S flag rows n rand eps c Rs start : 0 < Nsite S -> 0 <= Ne S -> 0 <= n ->
  general_file (Nsite S) n rows -> signs_ok flag (map (general_entry (Nsite S)) rows) ->
  let F := pair_general (Ne S) Rs in adapted F c (map (general_entry (Nsite S)) rows) ->
  exists U M lines, uhf_general (Nsite S) rows = Some U /\ main_general (Nsite S) flag rows = Some M /\
    output_general n U rand eps (Nsite S) F = Some lines /\ Z.of_nat (length lines) = n /\
    forall Q, unprojected S Q M -> let sl := fun k => value (read_lines lines 0 start k) in
      (unit_interval rand -> forall x y, 0 <= x < 2 * Nsite S -> 0 <= y < 2 * Nsite S -> (Cmod (Cminus (element_fsz (Nsite S) Q sl 0 0 x y) (Cmult (RtoC 2) (F x y))) <= 2 * powerRZ 10 (- eps))%R) /\
      ((forall k, rand k = 0%R) -> forall x, (forall i, 0 <= i < 2 * Ne S -> 0 <= x i < 2 * Nsite S) ->
        pfaffian_fsz S Q sl x 0 0 = Cmult (RtoC (2 ^ Z.to_nat (Ne S))) (determinant (map (fun n i => Cconj (Rs i n)) (zrange 0 (2 * Ne S))) (map x (zrange 0 (2 * Ne S))))).
Proof. exact (final_general S flag rows n rand eps c Rs start). Qed.
Print Assumptions C73_general.
Example C73_general_case : general_file (Nsite S2) 6 file_general /\ signs_ok true (map (general_entry (Nsite S2)) file_general) /\
  adapted (pair_general (Ne S2) R2) c_general (map (general_entry (Nsite S2)) file_general) /\ F2 0 1 = RtoC (-2) /\ F2 0 3 = (0, -1)%R.
Proof. split; [exact file_general_ok|]. split; [exact file_general_signs|]. split; [exact file_general_adapted|exact F2_values]. Qed.

(** The same with pairs of opposite and of equal spin in separate files. *)
Theorem C73_parallel S flag ap p nap np rand rand' eps c Rs start : 0 < Nsite S -> 0 <= Ne S -> 0 <= nap -> 0 <= np ->
  ap_file (Nsite S) nap ap -> p_file (Nsite S) np p -> signs_ok flag (ap_p_entries (Nsite S) nap ap p) ->
  let F := pair_general (Ne S) Rs in adapted F c (ap_p_entries (Nsite S) nap ap p) ->
  exists U M lines lines', uhf_ap_p (Nsite S) nap ap p = Some U /\ main_ap_p (Nsite S) flag nap ap p = Some M /\
    output_antiparallel (nap + 2 * np) U rand eps (Nsite S) nap F = Some lines /\ Z.of_nat (length lines) = nap /\
    output_parallel (nap + 2 * np) U rand' eps (Nsite S) nap (2 * np) F = Some lines' /\ Z.of_nat (length lines') = 2 * np /\
    forall Q, unprojected S Q M -> let sl := fun k => value (read_lines lines' nap (read_lines lines 0 start) k) in
      (unit_interval rand -> unit_interval rand' -> forall x y, 0 <= x < 2 * Nsite S -> 0 <= y < 2 * Nsite S -> (Cmod (Cminus (element_fsz (Nsite S) Q sl 0 0 x y) (Cmult (RtoC 2) (F x y))) <= 2 * powerRZ 10 (- eps))%R) /\
      ((forall k, rand k = 0%R) -> (forall k, rand' k = 0%R) -> forall x, (forall i, 0 <= i < 2 * Ne S -> 0 <= x i < 2 * Nsite S) ->
        pfaffian_fsz S Q sl x 0 0 = Cmult (RtoC (2 ^ Z.to_nat (Ne S))) (determinant (map (fun n i => Cconj (Rs i n)) (zrange 0 (2 * Ne S))) (map x (zrange 0 (2 * Ne S))))).
Proof. exact (final_ap_p S flag ap p nap np rand rand' eps c Rs start). Qed.
Print Assumptions C73_parallel.
Example C73_parallel_case : ap_file (Nsite S2) 4 file_ap /\ p_file (Nsite S2) 1 file_p /\ signs_ok true (ap_p_entries (Nsite S2) 4 file_ap file_p) /\
  adapted (pair_general (Ne S2) R2) c_ap_p (ap_p_entries (Nsite S2) 4 file_ap file_p) /\ 0 < Nsite S2 /\ 0 <= Ne S2.
Proof. split; [exact file_ap_ok|]. split; [exact file_p_ok|]. split; [exact file_ap_p_signs|]. split; [exact file_ap_p_adapted|]. cbn. lia. Qed.

(** Pairs of opposite spin only: the Pfaffian is the determinant of the lowest Ne orbitals of either diagonal block of the mean field. *)
Theorem C73_antiparallel S flag rows n rand eps c Ham zheev start beta : 0 < Nsite S -> 0 < Ne S -> 0 <= n -> NSPGaussLeg S = 1 ->
  diagonalises (Nsite S) zheev -> hermitian (2 * Nsite S) Ham ->
  ap_file (Nsite S) n rows -> signs_ok flag (map (ap_entry (Nsite S)) rows) ->
  let f := pair_antiparallel (Nsite S) (Ne S) zheev Ham in adapted (fun x y => f x (y - Nsite S)) c (map (ap_entry (Nsite S)) rows) ->
  exists u d eu ed, eigenorbitals (Nsite S) (fun i j => Ham i j) eu u /\ eigenorbitals (Nsite S) (fun i j => Ham (i + Nsite S) (j + Nsite S)) ed d /\
  exists U M lines, uhf_ap (Nsite S) rows = Some U /\ main_ap (Nsite S) flag rows = Some M /\
    output_antiparallel_2 n U rand eps (Nsite S) n f = Some lines /\ Z.of_nat (length lines) = n /\
    forall Q, unprojected S Q M -> let sl := fun k => value (read_lines lines 0 start k) in
      (unit_interval rand -> forall i j, site (Nsite S) i -> site (Nsite S) j -> (Cmod (Cminus (pair Q sl 0 0 i j) (f i j)) <= powerRZ 10 (- eps))%R) /\
      ((forall k, rand k = 0%R) -> forall eleIdx, (forall k, 0 <= k < 2 * Ne S -> site (Nsite S) (eleIdx k)) ->
        pfaffian S Q beta sl eleIdx 0 0 0 = determinant (doubly (Nsite S) (Ne S) u d) (map (Pf.Spec.orbital (Nsite S) (Ne S) eleIdx) (zrange 0 (2 * Ne S)))).
Proof. exact (final_ap_whole S flag rows n rand eps c Ham zheev start beta). Qed.
Print Assumptions C73_antiparallel.
Example C73_antiparallel_case : diagonalises (Nsite S2) zheev2 /\ hermitian (2 * Nsite S2) Ham_hop /\ ap_file (Nsite S2) 1 file_one /\ signs_ok false (map (ap_entry (Nsite S2)) file_one) /\
  adapted (fun x y => pair_antiparallel (Nsite S2) (Ne S2) zheev2 Ham_hop x (y - Nsite S2)) (fun _ => RtoC (/ 2)) (map (ap_entry (Nsite S2)) file_one).
Proof. split; [exact zheev2_ok|]. split; [exact Ham_hop_hermitian|]. split; [exact file_one_ok|]. split; [exact (file_one_signs false)|exact file_one_adapted]. Qed.

(** The gap file holds the distance from the highest occupied to the lowest empty level, never negative. *)
Theorem C73_gap V H Nsize zheev mix G : diagonalises (2 * sites V) zheev -> 1 <= Nsize < 2 * sites V ->
  let p := step (sites V) H Nsize zheev mix G in
  exists g, output_gap (sites V) Nsize (pEigen p) = Some g /\ (0 <= g)%R /\ g = (pEigen p Nsize - pEigen p (Nsize - 1))%R.
Proof. exact (final_gap V H Nsize zheev mix G). Qed.
Print Assumptions C73_gap.
Example C73_gap_case : diagonalises (2 * sites V1) zheev2 /\ 1 <= 1 < 2 * sites V1.
Proof. split; [exact zheev2_ok|]. change (sites V1) with 1. lia. Qed.

(** With all levels occupied the gap is read behind the end of the array. *)
Theorem C73_gap_refuted Ns E : 0 < Ns -> output_gap Ns (2 * Ns) E = None.
Proof.
  intros H. unfold output_gap, read_eigen. destruct (Z.leb_spec 0 (2 * Ns - 1)); [|lia]. destruct (Z.ltb_spec (2 * Ns - 1) (2 * Ns)); [|lia]. destruct (Z.leb_spec 0 (2 * Ns)); [|lia]. destruct (Z.ltb_spec (2 * Ns) (2 * Ns)); [lia|]. reflexivity.
Qed.
Print Assumptions C73_gap_refuted.

(** With periodic boundaries the main program replaces the signs of the definition file by 1, the Hartree-Fock program keeps them: two sites,
    every pair a class of its own, amplitude 1/2 for all pairs, no offset; the pair (1,1) is read with the wrong sign. *)
Theorem C73_signs_refuted : exists rows U M lines, let f := pair_antiparallel 2 1 zheev2 Ham_hop in
  ap_file 2 4 rows /\ uhf_ap 2 rows = Some U /\ main_ap 2 false rows = Some M /\ output_antiparallel_2 4 U (fun _ => 0%R) 8 2 4 f = Some lines /\
  forall Q start, unprojected S2 Q M -> let sl := fun k => value (read_lines lines 0 start k) in
    f 0 0 = RtoC (/ 2) /\ f 1 1 = RtoC (/ 2) /\ pair Q sl 0 0 0 0 = RtoC (/ 2) /\ pair Q sl 0 0 1 1 = RtoC (- / 2).
Proof.
  exists file_sign, U_sign. eexists. exists lines_sign. cbv zeta. split.
  { split; [reflexivity|]. split.
    - intros i j k s I. unfold file_sign in I. in_cases I; unfold site; lia.
    - unfold site. intros i j Hi Hj. assert (i = 0 \/ i = 1) as [-> | ->] by lia; assert (j = 0 \/ j = 1) as [-> | ->] by lia; do 2 eexists; cbn; intuition reflexivity. }
  split; [exact U_sign_ok|]. split; [reflexivity|]. split; [exact lines_sign_ok|].
  intros Q start (H1 & H2 & H3). split; [exact (f_hop_is 0 0 ltac:(lia) ltac:(lia))|]. split; [exact (f_hop_is 1 1 ltac:(lia) ltac:(lia))|].
  change (Nsite S2) with 2 in H1. destruct (H1 0 ltac:(lia)) as (E0 & E1). destruct (H1 1 ltac:(lia)) as (E2 & E3).
  assert (J0 : read_lines lines_sign 0 start 0 = Some (RtoC (/ 2))) by reflexivity. assert (J3 : read_lines lines_sign 0 start 3 = Some (RtoC (- / 2))) by reflexivity.
  unfold pair. rewrite E0, E1, E2, E3, !H2, !H3. split.
  - match goal with |- context [Idx ?m 0 0] => change (Idx m 0 0) with 0; change (Sgn m 0 0) with 1 end. rewrite J0. apply injective_projections; cbn; ring.
  - match goal with |- context [Idx ?m 1 1] => change (Idx m 1 1) with 3; change (Sgn m 1 1) with 1 end. rewrite J3. apply injective_projections; cbn; ring.
Qed.
Print Assumptions C73_signs_refuted.
