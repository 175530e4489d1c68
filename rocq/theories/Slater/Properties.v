(** Properties C25-C27, C51: pair amplitudes, projection numbering and derivatives *)
From Coq Require Import ZArith List Bool Lia Reals Lra.
From Coquelicot Require Import Complex.
From Verif Require Import Base.ZLoop Base.RSum Pf.Pfaffian Pf.Spec Pf.Proofs Slater.Model Slater.Spec Slater.Proofs Slater.ProofsElm Slater.ProofsDiff Slater.ProofsDer Slater.ProofsProp Slater.Cases.
Import ListNotations.
Local Open Scope Z_scope.

(** C25.  Every table entry is the antisymmetrised amplitude of its projection, whatever the table held before. *)
Theorem C25_elements S T stot beta weight para opt0 opt flag sl E0 o m s x y :
  valid S T flag -> in_range S o m s -> 0 <= x < 2 * Nsite S -> 0 <= y < 2 * Nsite S ->
  let A := update_weights S flag opt (init_qp_weight S stot beta weight para flag opt0) in
  update_slater_elm S T A sl E0 (projection S o m s * (2 * Nsite S) * (2 * Nsite S) + x * (2 * Nsite S) + y) = element (Nsite S) T sl o m (half S beta s) x y.
Proof. exact (fun H => elements S T stot beta weight para opt0 opt flag H sl E0 o m s x y). Qed.
Print Assumptions C25_elements.

(** each table is skew-symmetric *)
Theorem C25_skew S T stot beta weight para opt0 opt flag sl E0 q :
  valid S T flag -> 0 <= q < NQPFull S ->
  skew_table (Nsite S) (update_slater_elm S T (update_weights S flag opt (init_qp_weight S stot beta weight para flag opt0)) sl E0) q.
Proof. exact (fun H => table_skew S T stot beta weight para opt0 opt flag H sl E0 q). Qed.
Print Assumptions C25_skew.

Example C25_case : valid S_ex T_ex true /\
  update_slater_elm S_ex T_ex A_ex sl_ex (fun _ => czero) (1 * 4 * 4 + 0 * 4 + 3) = RtoC 5 /\ update_slater_elm S_ex T_ex A_ex sl_ex (fun _ => czero) (1 * 4 * 4 + 3 * 4 + 0) = RtoC (-5).
Proof.
  split; [exact valid_ex|]. split.
  - exact (pm_ex 1 0 1 ltac:(lia) ltac:(lia) ltac:(lia)).
  - replace (RtoC (-5)) with (RtoC (- p_ex 1)) by (apply ProofsElm.Ceq; cbn; lra). exact (pm_ex 1 1 0 ltac:(lia) ltac:(lia) ltac:(lia)).
Qed.

(** C26.  For every pair parameter k the two slots hold the logarithmic derivatives of the amplitude with respect to the real
    and the imaginary part of parameter k; no other slot is touched. *)
Theorem C26_slater_derivative S T stot beta weight para opt0 opt flag sl E0 InvM PfM eleIdx sr0 k :
  valid S T flag -> on_lattice (Nsite S) (2 * Ne S) eleIdx ->
  let A := update_weights S flag opt (init_qp_weight S stot beta weight para flag opt0) in
  current (Nsite S) (Ne S) (update_slater_elm S T A sl E0) 0 (NQPFull S) eleIdx InvM PfM ->
  let amp := fun sl => amplitude S T stot beta weight para (opt_weight flag opt) sl eleIdx in
  amp sl <> RtoC 0 -> 0 <= k < NSlater S ->
  let O := slater_elm_diff S T A InvM PfM (calculate_ip A 0 (NQPFull S) PfM) eleIdx sr0 in
  log_derivative (fun t => amp (shift_re sl k t)) (O (2 * k)) /\ log_derivative (fun t => amp (shift_im sl k t)) (O (2 * k + 1)).
Proof. exact (slater_derivative S T stot beta weight para opt0 opt flag sl E0 InvM PfM eleIdx sr0 k). Qed.
Print Assumptions C26_slater_derivative.

Theorem C26_other_slots S T A InvM PfM ip eleIdx sr0 p :
  ~ 0 <= p < 2 * NSlater S -> slater_elm_diff S T A InvM PfM ip eleIdx sr0 p = sr0 p.
Proof. exact (diff_other S T A InvM PfM ip eleIdx sr0 p). Qed.
Print Assumptions C26_other_slots.

Example C26_case : valid S_ex T_ex true /\ on_lattice (Nsite S_ex) (2 * Ne S_ex) ele_ex /\
  current (Nsite S_ex) (Ne S_ex) (update_slater_elm S_ex T_ex A_ex sl_ex (fun _ => czero)) 0 (NQPFull S_ex) ele_ex Inv_ex Pf_ex /\
  amplitude S_ex T_ex 0 (fun _ => 0%R) (fun _ => 0%R) one_ex (opt_weight true one_ex) sl_ex ele_ex <> RtoC 0 /\
  slater_elm_diff S_ex T_ex A_ex Inv_ex Pf_ex (calculate_ip A_ex 0 (NQPFull S_ex) Pf_ex) ele_ex (fun _ => RtoC 0) 2 = RtoC (/ 8).
Proof. exact (conj valid_ex (conj on_ex (conj current_ex (conj amp_ne derivative_ex)))). Qed.

(** C27.  The projections are numbered one to one by transform, translation and angle ... *)
Theorem C27_numbering S :
  0 < NSPGaussLeg S -> 0 < NMPTrans S ->
  (forall o m s, in_range S o m s -> 0 <= projection S o m s < NQPFull S) /\
  (forall o m s o' m' s', in_range S o m s -> in_range S o' m' s' -> projection S o m s = projection S o' m' s' -> o = o' /\ m = m' /\ s = s') /\
  (forall q, 0 <= q < NQPFull S -> exists o m s, in_range S o m s /\ q = projection S o m s).
Proof. exact (fun HG HM => conj (projection_range S) (conj (projection_inj S) (fun q => projection_surj S q HG HM))). Qed.
Print Assumptions C27_numbering.

(** ... the weight of a projection is the product of the weights of the three ... *)
Theorem C27_weights S T stot beta weight para opt0 opt flag o m s :
  valid S T flag -> in_range S o m s ->
  QPFullWeight (update_weights S flag opt (init_qp_weight S stot beta weight para flag opt0)) (projection S o m s)
  = Cmult (opt_weight flag opt o) (Cmult (RtoC (spin_weight S stot beta weight s)) (para m)).
Proof.
  exact (fun H => full_weight S stot beta weight para opt0 flag (proj1 (proj2 (proj2 H)))
    (QPFullWeight (init_qp_weight S stot beta weight para flag opt0)) opt o m s (proj1 (proj2 (proj2 (proj2 (proj2 (proj2 (proj2 H)))))))).
Qed.
Print Assumptions C27_weights.

(** ... and the inner product the program forms from its tables is the sum over the three *)
Theorem C27_amplitude S T stot beta weight para opt0 opt flag sl E0 InvM PfM eleIdx :
  valid S T flag -> on_lattice (Nsite S) (2 * Ne S) eleIdx ->
  let A := update_weights S flag opt (init_qp_weight S stot beta weight para flag opt0) in
  current (Nsite S) (Ne S) (update_slater_elm S T A sl E0) 0 (NQPFull S) eleIdx InvM PfM ->
  calculate_ip A 0 (NQPFull S) PfM = amplitude S T stot beta weight para (opt_weight flag opt) sl eleIdx.
Proof. exact (fun H => ip_is S T stot beta weight para opt0 opt flag H sl E0 InvM PfM eleIdx). Qed.
Print Assumptions C27_amplitude.

(** the polynomial in the weight of an angle *)
Theorem C27_legendre x n : legendre_poly x n = legendre (Z.to_nat n) x.
Proof. exact (legendre_ok x n). Qed.
Print Assumptions C27_legendre.

Example C27_case : in_range S_ex 1 0 0 /\ projection S_ex 1 0 0 = 1 /\ calculate_ip A_ex 0 (NQPFull S_ex) Pf_ex = RtoC 8.
Proof.
  split; [repeat split; cbn; lia|]. split; [reflexivity|].
  unfold A_ex. rewrite (ip_is S_ex T_ex 0 (fun _ => 0%R) (fun _ => 0%R) one_ex one_ex one_ex true valid_ex sl_ex (fun _ => czero) Inv_ex Pf_ex ele_ex on_ex current_ex).
  rewrite amp_ex. unfold opt_weight, one_ex. apply ProofsElm.Ceq; cbn; lra.
Qed.

(** C51.  The values the program computes for the transform weights are the logarithmic derivatives, but they are stored one
    per slot; the vector has two slots per parameter. *)
Theorem C51_values_partial S T stot beta weight para opt0 opt sl E0 InvM PfM eleIdx sr0 i :
  valid S T true -> on_lattice (Nsite S) (2 * Ne S) eleIdx ->
  let A := update_weights S true opt (init_qp_weight S stot beta weight para true opt0) in
  current (Nsite S) (Ne S) (update_slater_elm S T A sl E0) 0 (NQPFull S) eleIdx InvM PfM ->
  let amp := fun opt => amplitude S T stot beta weight para opt sl eleIdx in
  0 <= i < NQPOptTrans S -> amp opt <> RtoC 0 ->
  log_derivative (fun t => amp (shift_re opt i t)) (calculate_opt_trans_diff S A PfM (calculate_ip A 0 (NQPFull S) PfM) sr0 i).
Proof. exact (fun H H1 H2 => opt_log S T stot beta weight para opt0 opt H sl E0 InvM PfM eleIdx sr0 H1 H2 i). Qed.
Print Assumptions C51_values_partial.

(** the slot of the real part of the second weight does not get its derivative; the slot of the imaginary part of the first does *)
Theorem C51_slots_refuted :
  exists S T stot beta weight para opt0 opt sl E0 InvM PfM eleIdx,
  valid S T true /\ on_lattice (Nsite S) (2 * Ne S) eleIdx /\ NQPOptTrans S = 2 /\
  let A := update_weights S true opt (init_qp_weight S stot beta weight para true opt0) in
  current (Nsite S) (Ne S) (update_slater_elm S T A sl E0) 0 (NQPFull S) eleIdx InvM PfM /\
  let amp := fun opt => amplitude S T stot beta weight para opt sl eleIdx in
  amp opt <> RtoC 0 /\
  let O := calculate_opt_trans_diff S A PfM (calculate_ip A 0 (NQPFull S) PfM) (fun _ => RtoC 0) in
  ~ log_derivative (fun t => amp (shift_re opt 1 t)) (O (2 * 1)) /\ log_derivative (fun t => amp (shift_re opt 1 t)) (O (2 * 0 + 1)).
Proof.
  exact (ex_intro _ S_ex (ex_intro _ T_ex (ex_intro _ 0 (ex_intro _ (fun _ => 0%R) (ex_intro _ (fun _ => 0%R) (ex_intro _ one_ex (ex_intro _ one_ex (ex_intro _ one_ex
    (ex_intro _ sl_ex (ex_intro _ (fun _ => czero) (ex_intro _ Inv_ex (ex_intro _ Pf_ex (ex_intro _ ele_ex
    (conj valid_ex (conj on_ex (conj eq_refl (conj current_ex (conj amp_ne trans_ex)))))))))))))))))).
Qed.
Print Assumptions C51_slots_refuted.
