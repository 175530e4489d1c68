(** Properties C18, C52, C53: the restricted Boltzmann machine factor of the wave function. *)
From Coq Require Import ZArith List Bool Reals Lia Lra.
From Coquelicot Require Import Complex.
From Verif Require Import Base.ZLoop Base.Checked Base.RSum Proj.Spec Slater.Spec Rbm.Model Rbm.Spec Rbm.Proofs Rbm.ProofsRatio Rbm.ProofsDiff Rbm.Cases.
Import ListNotations.
Local Open Scope Z_scope.

(** C18.  From scratch: whatever the work array contained, it ends as the sums over sites; no access leaves its array. *)
Theorem C18_from_scratch M W c e : wf_machine M -> exists c', make_rbm_cnt M W c e = Some c' /\ is_rbm_cnt M W e c'.
Proof. exact (fun H => make_cells M H W c e). Qed.
Print Assumptions C18_from_scratch.

(** A hop without change of spin, into a separate array or in place. *)
Theorem C18_hop M W e ri rj s alias cnew cold e' : wf_machine M -> is_rbm_cnt M W e cold -> legal_hop (Nsite M) ri s rj s e ->
  exists c, update_rbm_cnt M W ri rj s alias cnew cold e' = Some c /\ is_rbm_cnt M W (hop (Nsite M) ri s rj s e) c.
Proof. exact (fun H => hop_update M H W e ri s rj alias cnew cold e'). Qed.
Print Assumptions C18_hop.

(** A general move.  Missing for the full claim: a spin flip on one site when there are visible weights per site and spin. *)
Theorem C18_move_partial M W e ri rj s t alias cnew cold : wf_machine M -> is_rbm_cnt M W e cold -> legal_hop (Nsite M) ri s rj t e ->
  ri <> rj \/ s = t \/ NPhysG M = 0 ->
  exists c, update_rbm_cnt_fsz M W ri rj s t alias cnew cold = Some c /\ is_rbm_cnt M W (hop (Nsite M) ri s rj t e) c.
Proof. exact (fun H => general_update M H W e ri s rj t alias cnew cold). Qed.
Print Assumptions C18_move_partial.

(** That case is wrong: the counters of the flipped site keep the old spin. *)
Theorem C18_flip_refuted : exists M W e r s t cold c, wf_machine M /\ is_rbm_cnt M W e cold /\ legal_hop (Nsite M) r s r t e /\
  update_rbm_cnt_fsz M W r r s t false cold cold = Some c /\ ~ is_rbm_cnt M W (hop (Nsite M) r s r t e) c.
Proof. exact flip_refuted. Qed.
Print Assumptions C18_flip_refuted.

(** C18 in the form "updated = recomputed": cell by cell the same numbers. *)
Theorem C18_hop_is_recomputation M W e ri rj s alias cnew cold e' c0 c1 : wf_machine M -> is_rbm_cnt M W e cold -> legal_hop (Nsite M) ri s rj s e ->
  update_rbm_cnt M W ri rj s alias cnew cold e' = Some c0 -> make_rbm_cnt M W cnew (hop (Nsite M) ri s rj s e) = Some c1 ->
  forall k, 0 <= k < nRBM M -> c0 k = c1 k.
Proof. exact (fun H => hop_is_make M H W e ri rj s alias cnew cold e' c0 c1). Qed.
Print Assumptions C18_hop_is_recomputation.

Example C18_case : wf_machine ma /\ legal_hop (Nsite ma) 0 0 1 0 ea /\ nRBM ma = 9 /\
  visC ma ea 0 = 0 /\ visS ma ea 0 = 0 /\ visG ma ea 0 = 0 /\ visS ma (hop 2 0 0 1 0 ea) 0 = 0 /\ visG ma (hop 2 0 0 1 0 ea) 0 = 0 /\
  thetaC ma wa (hop 2 0 0 1 0 ea) 0 = RtoC 1.
Proof.
  split; [exact ma_wf|]. split; [exact ea_hop|]. repeat (split; [reflexivity|]).
  unfold thetaC. change (zrange 0 (Nsite ma)) with [0; 1]. cbn -[IZR]. unfold wa, zc, charge. cbn -[IZR].
  rewrite <- !RtoC_mult, <- !RtoC_plus. f_equal. cbn. lra.
Qed.

(** C52.  The ratio of the machine between two configurations, for every number of threads, block size and content of the
    temporary arrays. *)
Theorem C52_ratio M W clog NB T junk e e' c c' : wf_machine M -> is_log clog -> 0 < NB -> 0 < T ->
  is_rbm_cnt M W e c -> is_rbm_cnt M W e' c' -> machine_weight M W e <> RtoC 0 -> machine_weight M W e' <> RtoC 0 ->
  rbm_ratio M clog W NB T junk c' c = Cdiv (machine_weight M W e') (machine_weight M W e).
Proof. exact (fun H => ratio_ok M H W clog NB T junk e e' c c'). Qed.
Print Assumptions C52_ratio.

(** the logarithm used by the Metropolis step *)
Theorem C52_log_ratio M W clog NB T junk e e' c c' : wf_machine M -> is_log clog -> 0 < NB -> 0 < T ->
  is_rbm_cnt M W e c -> is_rbm_cnt M W e' c' -> machine_weight M W e <> RtoC 0 -> machine_weight M W e' <> RtoC 0 ->
  exp (fst (log_rbm_ratio M clog W NB T junk c' c)) = Cmod (Cdiv (machine_weight M W e') (machine_weight M W e)).
Proof. exact (fun H => log_ratio_ok M H W clog NB T junk e e' c c'). Qed.
Print Assumptions C52_log_ratio.

(** the weight itself *)
Theorem C52_weight M W clog e c : wf_machine M -> is_log clog -> is_rbm_cnt M W e c -> machine_weight M W e <> RtoC 0 ->
  weight_rbm M clog W c = machine_weight M W e.
Proof. exact (fun H => weight_ok M H W clog e c). Qed.
Print Assumptions C52_weight.

(** The result above rests on the static schedule giving each thread of the second loop as many iterations as it had in the
    first.  OpenMP requires all threads of a team to meet the same worksharing loops; with 17 neurons and 2 threads one
    thread has a multiple of eight and takes the unrolled loop, the other one does not. *)
Theorem C52_same_branch_refuted : ~ (forall n T a b, 0 <= n -> 0 <= a < T -> 0 <= b < T ->
  (chunk_size n T a mod 8 =? 0) = (chunk_size n T b mod 8 =? 0)).
Proof. exact (fun H => Bool.diff_false_true (H 17 2 0 1 ltac:(lia) ltac:(lia) ltac:(lia))). Qed.
Print Assumptions C52_same_branch_refuted.

Example C52_case : exists c c', is_log principal /\ is_rbm_cnt ma wa ea c /\ is_rbm_cnt ma wa (hop 2 0 0 1 0 ea) c' /\
  machine_weight ma wa ea <> RtoC 0 /\ machine_weight ma wa (hop 2 0 0 1 0 ea) <> RtoC 0 /\
  rbm_ratio ma principal wa 8 3 (fun _ _ => RtoC 7) c' c = Cdiv (machine_weight ma wa (hop 2 0 0 1 0 ea)) (machine_weight ma wa ea).
Proof.
  destruct (C18_from_scratch ma wa (fun _ => RtoC 0) ea ma_wf) as (c & _ & Hc).
  destruct (C18_from_scratch ma wa (fun _ => RtoC 0) (hop 2 0 0 1 0 ea) ma_wf) as (c' & _ & Hc').
  exists c, c'. split; [exact principal_log|]. split; [exact Hc|]. split; [exact Hc'|].
  split; [apply wa_neq0|]. split; [apply wa_neq0|]. apply C52_ratio; auto using ma_wf, principal_log, wa_neq0; lia.
Qed.

(** C53.  Each weight of a complete machine gets its two logarithmic derivatives, whatever the slots contained. *)
Theorem C53_derivatives_partial M W e O c : wf_machine M -> complete M -> is_rbm_cnt M W e c -> machine_weight M W e <> RtoC 0 ->
  exists O', rbm_diff M O c e = Some O' /\ forall p, 0 <= p < NRBM M ->
    log_derivative (fun t => machine_weight M (shift_re W p t) e) (O' (2 * p)) /\
    log_derivative (fun t => machine_weight M (shift_im W p t) e) (O' (2 * p + 1)).
Proof. exact (fun H H1 => diff_ok M H W e H1 O c). Qed.
Print Assumptions C53_derivatives_partial.

(** Missing: neurons with couplings but without biases.  The bias derivative is then added to the slot of a coupling. *)
Theorem C53_no_bias_refuted : exists M W e c O O' p, wf_machine M /\ is_rbm_cnt M W e c /\ machine_weight M W e <> RtoC 0 /\
  rbm_diff M O c e = Some O' /\ 0 <= p < NRBM M /\ ~ log_derivative (fun t => machine_weight M (shift_re W p t) e) (O' (2 * p)).
Proof. exact incomplete_refuted. Qed.
Print Assumptions C53_no_bias_refuted.

Example C53_case : wf_machine ma /\ complete ma /\ NRBM ma = 12 /\ (exists c, is_rbm_cnt ma wa ea c) /\ machine_weight ma wa ea <> RtoC 0.
Proof.
  split; [exact ma_wf|]. split; [exact ma_complete|]. split; [reflexivity|]. split; [|apply wa_neq0].
  destruct (C18_from_scratch ma wa (fun _ => RtoC 0) ea ma_wf) as (c & _ & Hc). now exists c.
Qed.
