(** Properties C61, C62: wave functions with general spins *)
From Coq Require Import ZArith List Bool Lia Reals Lra.
From Coquelicot Require Import Complex.
From Verif Require Import Base.ZLoop Base.RSum Pf.Pfaffian Pf.Spec Pf.Proofs Pf.ProofsTwo Fsz.Model Slater.Model Slater.Spec Fsz.Spec Fsz.ProofsPf Fsz.ProofsElm Fsz.ProofsDer Fsz.Cases.
Import ListNotations.
Local Open Scope Z_scope.

(** C61.  The table holds the antisymmetrised projected amplitude of every two spin-orbitals, whatever it held before ... *)
Theorem C61_elements S T sl E0 o m s x y :
  0 < Nsite S -> in_range S o m s -> 0 <= x < 2 * Nsite S -> 0 <= y < 2 * Nsite S ->
  update_slater_elm_fsz S T sl E0 (projection S o m s * (2 * Nsite S) * (2 * Nsite S) + x * (2 * Nsite S) + y) = element_fsz (Nsite S) T sl o m x y.
Proof. exact (fun H => elements_fsz S T H sl E0 o m s x y). Qed.
Print Assumptions C61_elements.
(** ... and is skew-symmetric, as the theorems below ask *)
Theorem C61_skew S T sl E0 q :
  0 < Nsite S -> 0 < NSPGaussLeg S -> 0 < NMPTrans S -> 0 <= q < NQPFull S -> skew_table (Nsite S) (update_slater_elm_fsz S T sl E0) q.
Proof. exact (fun H => table_fsz_skew S T H sl E0 q). Qed.
Print Assumptions C61_skew.

(** the new Pfaffians computed before a move is accepted, the electron keeping or changing its spin *)
Theorem C61_one_electron_ratio Nsite Ne Sl eleIdx eleSpn InvM PfM pfN m r s qpStart qpEnd :
  0 < Ne -> (forall q, 0 <= q < qpEnd - qpStart -> skew_table Nsite Sl (q + qpStart)) ->
  0 <= m < 2 * Ne -> place Nsite r s -> placed Nsite (2 * Ne) eleIdx eleSpn -> current_fsz Nsite (2 * Ne) Sl qpStart qpEnd eleIdx eleSpn InvM PfM ->
  forall q, 0 <= q < qpEnd - qpStart ->
    calculate_new_pfm_fsz Nsite (2 * Ne) Sl m s (upd eleIdx m r) (upd eleSpn m s) qpStart qpEnd InvM PfM pfN q =
    pf (pair_matrix_fsz Nsite Sl (q + qpStart) (upd eleIdx m r) (upd eleSpn m s)) (zrange 0 (2 * Ne)).
Proof. exact (fun H => one_calc Nsite Ne H Sl eleIdx eleSpn InvM PfM pfN m r s qpStart qpEnd). Qed.
Print Assumptions C61_one_electron_ratio.
Theorem C61_two_electron_ratio Nsite Ne Sl eleIdx eleSpn InvM PfM pfN ma ra s mb rb t qpStart qpEnd :
  0 < Ne -> (forall q, 0 <= q < qpEnd - qpStart -> skew_table Nsite Sl (q + qpStart)) ->
  0 <= ma < 2 * Ne -> 0 <= mb < 2 * Ne -> (ma = mb -> s = t) -> place Nsite ra s -> place Nsite rb t -> placed Nsite (2 * Ne) eleIdx eleSpn ->
  current_fsz Nsite (2 * Ne) Sl qpStart qpEnd eleIdx eleSpn InvM PfM ->
  forall q, 0 <= q < qpEnd - qpStart ->
    let idx' := upd (upd eleIdx ma ra) mb rb in let spn' := upd (upd eleSpn ma s) mb t in
    calculate_new_pfm_two_fsz Nsite (2 * Ne) Sl ma s mb t idx' spn' qpStart qpEnd InvM PfM pfN q = pf (pair_matrix_fsz Nsite Sl (q + qpStart) idx' spn') (zrange 0 (2 * Ne)).
Proof. exact (fun H => two_calc Nsite Ne H Sl eleIdx eleSpn InvM PfM pfN ma ra s mb rb t qpStart qpEnd). Qed.
Print Assumptions C61_two_electron_ratio.

(** the tables after any sequence of accepted moves *)
Theorem C61_any_sequence Nsite Ne Sl qpStart qpEnd moves :
  0 < Ne -> (forall q, 0 <= q < qpEnd - qpStart -> skew_table Nsite Sl (q + qpStart)) ->
  forall eleIdx eleSpn InvM PfM, placed Nsite (2 * Ne) eleIdx eleSpn -> current_fsz Nsite (2 * Ne) Sl qpStart qpEnd eleIdx eleSpn InvM PfM ->
  Forall (legal_fsz Nsite (2 * Ne)) moves -> all_regular_fsz Nsite (2 * Ne) Sl qpStart qpEnd eleIdx eleSpn moves ->
  let '((idx', spn'), st) := fold_left (accept_fsz Nsite (2 * Ne) Sl qpStart qpEnd) moves ((eleIdx, eleSpn), (InvM, PfM)) in
  idx' = fold_left moved_idx moves eleIdx /\ spn' = fold_left moved_spn moves eleSpn /\ current_fsz Nsite (2 * Ne) Sl qpStart qpEnd idx' spn' (fst st) (snd st).
Proof. exact (any_moves Nsite Ne Sl qpStart qpEnd moves). Qed.
Print Assumptions C61_any_sequence.

(** the tables computed from scratch, by any correct Pfaffian/inversion routine *)
Theorem C61_from_scratch Nsite Ne Sl skpf eleIdx eleSpn qpStart q InvM PfM I P :
  0 < Ne -> oracle_correct skpf -> skew_table Nsite Sl (q + qpStart) -> placed Nsite (2 * Ne) eleIdx eleSpn ->
  calculate_mall_child_fsz Nsite (2 * Ne) Sl skpf eleIdx eleSpn qpStart q InvM PfM = Some (I, P) ->
  P q = pf (pair_matrix_fsz Nsite Sl (q + qpStart) eleIdx eleSpn) (zrange 0 (2 * Ne)) /\
  is_inverse (2 * Ne) (stored (2 * Ne) I q) (pair_matrix_fsz Nsite Sl (q + qpStart) eleIdx eleSpn) /\
  forall q', q' <> q -> P q' = PfM q' /\ forall i j, 0 <= i < 2 * Ne -> 0 <= j < 2 * Ne -> stored (2 * Ne) I q' i j = stored (2 * Ne) InvM q' i j.
Proof. exact (fun H => from_scratch Nsite Ne H Sl skpf eleIdx eleSpn qpStart q InvM PfM I P). Qed.
Print Assumptions C61_from_scratch.

Example C61_case : valid_fsz S_f T_f false /\ placed 2 2 idx_f spn_f /\ current_fsz 2 2 table_f 0 (NQPFull S_f) idx_f spn_f Inv_f Pf_f /\
  (forall q, 0 <= q < NQPFull S_f - 0 -> skew_table 2 table_f (q + 0)) /\
  Forall (legal_fsz 2 2) [move_f] /\ all_regular_fsz 2 2 table_f 0 (NQPFull S_f) idx_f spn_f [move_f] /\
  snd (snd (fold_left (accept_fsz 2 2 table_f 0 (NQPFull S_f)) [move_f] ((idx_f, spn_f), (Inv_f, Pf_f)))) 1 = RtoC (-120).
Proof. exact (conj valid_f (conj placed_f (conj current_f (conj skew_f case_moves)))). Qed.

(** C62.  The overlap is the projected amplitude, and the two slots of every pair parameter hold its logarithmic derivatives
    with respect to the real and the imaginary part; no other slot is touched. *)
Theorem C62_overlap S T stot beta weight para opt0 opt flag sl E0 InvM PfM eleIdx eleSpn :
  valid_fsz S T flag -> placed (Nsite S) (2 * Ne S) eleIdx eleSpn ->
  current_fsz (Nsite S) (2 * Ne S) (update_slater_elm_fsz S T sl E0) 0 (NQPFull S) eleIdx eleSpn InvM PfM ->
  calculate_ip (update_weights S flag opt (init_qp_weight S stot beta weight para flag opt0)) 0 (NQPFull S) PfM =
  amplitude_fsz S T para (opt_weight flag opt) sl (spin_orbital (Nsite S) eleIdx eleSpn).
Proof. exact (fun H => ip_fsz S T stot beta weight para opt0 opt flag H sl E0 InvM PfM eleIdx eleSpn). Qed.
Print Assumptions C62_overlap.
Theorem C62_derivatives S T stot beta weight para opt0 opt flag sl E0 InvM PfM eleIdx eleSpn sr0 k :
  let A := update_weights S flag opt (init_qp_weight S stot beta weight para flag opt0) in
  let X := spin_orbital (Nsite S) eleIdx eleSpn in
  let ip := calculate_ip A 0 (NQPFull S) PfM in
  let amp := fun sl => amplitude_fsz S T para (opt_weight flag opt) sl X in
  let O := slater_elm_diff_fsz S T A InvM PfM ip eleIdx eleSpn sr0 in
  valid_fsz S T flag -> placed (Nsite S) (2 * Ne S) eleIdx eleSpn ->
  current_fsz (Nsite S) (2 * Ne S) (update_slater_elm_fsz S T sl E0) 0 (NQPFull S) eleIdx eleSpn InvM PfM -> 0 <= k < NSlater S -> amp sl <> RtoC 0 ->
  log_derivative (fun t => amp (shift_re sl k t)) (O (2 * k)) /\ log_derivative (fun t => amp (shift_im sl k t)) (O (2 * k + 1)).
Proof. exact (derivative_fsz S T stot beta weight para opt0 opt flag sl E0 InvM PfM eleIdx eleSpn sr0 k). Qed.
Print Assumptions C62_derivatives.
Theorem C62_other_slots S T A InvM PfM ip eleIdx eleSpn sr0 p :
  ~ 0 <= p < 2 * NSlater S -> slater_elm_diff_fsz S T A InvM PfM ip eleIdx eleSpn sr0 p = sr0 p.
Proof. exact (diff_other_fsz S T A InvM PfM ip eleIdx eleSpn sr0 p). Qed.
Print Assumptions C62_other_slots.
Example C62_case : valid_fsz S_f T_f false /\ placed (Nsite S_f) (2 * Ne S_f) idx_f spn_f /\
  current_fsz (Nsite S_f) (2 * Ne S_f) (update_slater_elm_fsz S_f T_f sl_f (fun _ => RtoC 0)) 0 (NQPFull S_f) idx_f spn_f Inv_f Pf_f /\
  amplitude_fsz S_f T_f one_f (opt_weight false one_f) sl_f (spin_orbital (Nsite S_f) idx_f spn_f) <> RtoC 0 /\
  slater_elm_diff_fsz S_f T_f A_f Inv_f Pf_f (calculate_ip A_f 0 (NQPFull S_f) Pf_f) idx_f spn_f (fun _ => RtoC 0) 2 = RtoC (- / 15).
Proof. exact (conj valid_f (conj placed_f (conj current_f (conj amp_f_ne derivative_f)))). Qed.
