(** C75: the optimisation follows the gradient of the energy *)
From Coq Require Import ZArith List Bool Lia Reals Lra.
From Coquelicot Require Import Complex.
From Verif Require Import Base.ZLoop Base.RSum Proj.Model Slater.Model Slater.Spec Rbm.Model Rbm.Spec Rbm.Cases Samp.Model Samp.Spec Green.Model Green.Spec Ham.Model Ham.Spec SR.Model SR.Spec
  Fsz.Model Fsz.Spec Grd.Model Grd.Spec Grd.ProofsDer Grd.ProofsSum Grd.ProofsHerm Grd.ProofsGrad Grd.ProofsEnd Grd.ProofsNode Grd.Cases Grd.CasesStep Grd.CasesNode Grd.CasesFsz.
From Verif Require Uhf.Spec.
Import ListNotations.
Local Open Scope Z_scope.

(** the vector assembled for a sampled configuration: 1 and 0, then the logarithmic derivatives with respect to the real and the
    imaginary parts of all parameters in their order; no other cell is written *)
Theorem C75_derivatives V P K w rcnt ip junk : wf_wave (with_para V P) -> (vFlagRBM V = true -> complete (vM V)) -> sampled (with_para V P) K w rcnt ip ->
  exists O, sr_opt_o (vS V) (vQ V) (NProj (vT V)) (vFlagRBM V) (vM V) (angles_of (with_para V P) (sopt0 K)) (sInvM K) (sPfM K) ip
    (Samp.Model.eleIdx w) (Samp.Model.eleNum w) (eleProjCnt w) rcnt junk = Some O /\
  O 0 = RtoC 1 /\ O 1 = RtoC 0 /\
  (forall c, 0 <= c < 2 * n_para V -> log_derivative (fun t => psi (with_para V (shifted P c t)) (Samp.Model.eleIdx w)) (O (c + 2))) /\
  (forall i, ~ 0 <= i < 2 * n_para V + 2 -> O i = junk i).
Proof. exact (fun HV Hc Hs => assembled V P HV K w rcnt ip Hs junk Hc). Qed.
Print Assumptions C75_derivatives.

(** the Hamiltonian of hermitian definition files is self-adjoint on the functions of the configurations *)
Theorem C75_self_adjoint V H : 0 < sites V -> 0 < Slater.Model.Ne (vS V) -> sites_ok V H -> spins_kept H -> Uhf.Spec.files_hermitian (sites V) H -> self_adjoint V (hamiltonian V H).
Proof. exact (files_self_adjoint V H). Qed.
Print Assumptions C75_self_adjoint.

(** with exact averages the printed energy is the energy of the wave function ... *)
Theorem C75_energy V P H l xs : wf_wave (with_para V P) -> (vFlagRBM V = true -> complete (vM V)) -> sites_ok V H -> spins_kept H ->
  unbiased (with_para V P) l xs ->
  (forall s u, In (s, u) (combine (counted l) xs) -> evaluated (with_para V P) H s (conf u)) ->
  rmean l (fun s => fst (ene s)) = energy V (hamiltonian V H) (psi (with_para V P)).
Proof. exact (energy_printed_all V P H l xs). Qed.
Print Assumptions C75_energy.

(** ... and the force is half its derivative, up to what the zeros of the wave function contribute *)
Theorem C75_gradient V P H l xs c : wf_wave (with_para V P) -> (vFlagRBM V = true -> complete (vM V)) -> sites_ok V H -> spins_kept H -> Uhf.Spec.files_hermitian (sites V) H ->
  unbiased (with_para V P) l xs -> (forall s u, In (s, u) (combine (counted l) xs) -> evaluated (with_para V P) H s (conf u)) -> 0 <= c < 2 * n_para V ->
  (exists d, node_derivatives V P c d) /\
  forall d, node_derivatives V P c d ->
  derivable_pt_lim (fun t => energy V (hamiltonian V H) (psi (with_para V (shifted P c t)))) 0 (2 * force l c + 2 * missed V (hamiltonian V H) (psi (with_para V P)) d)%R.
Proof. exact (fun HV Hc Hok Hsp Hh Hu He Hr => conj (nodes_exist V P c HV Hr) (force_gradient V P HV Hc H Hok Hsp Hh l xs Hu He c Hr)). Qed.
Print Assumptions C75_gradient.

(** so the force is half the derivative for all parameters of correlation factors and machine, which move no zeros ... *)
Theorem C75_gradient_flat V P H l xs c : wf_wave (with_para V P) -> (vFlagRBM V = true -> complete (vM V)) -> sites_ok V H -> spins_kept H -> Uhf.Spec.files_hermitian (sites V) H ->
  unbiased (with_para V P) l xs -> (forall s u, In (s, u) (combine (counted l) xs) -> evaluated (with_para V P) H s (conf u)) -> 0 <= c < 2 * n_para V -> flat_nodes V P c ->
  derivable_pt_lim (fun t => energy V (hamiltonian V H) (psi (with_para V (shifted P c t)))) 0 (2 * force l c)%R.
Proof. exact (fun HV Hc Hok Hsp Hh Hu He => flat_gradient V P HV Hc H Hok Hsp Hh l xs c Hu He). Qed.
Print Assumptions C75_gradient_flat.
Theorem C75_flat V P c : wf_wave (with_para V P) -> 0 <= c / 2 < NProj (vT V) + n_rbm (vFlagRBM V) (vM V) -> flat_nodes V P c.
Proof. exact (flat_auto V P c). Qed.
Print Assumptions C75_flat.

(** ... and a step that solves the assembled system does not raise the energy to first order; it lowers it when the matrix is
    stabilised, no selected component is constant and the gradient does not vanish *)
Theorem C75_downhill V P H groups gsize N smp st me xs nn idx del dt S0 g0 y g : wf_wave (with_para V P) -> (vFlagRBM V = true -> complete (vM V)) -> sites_ok V H -> spins_kept H ->
  Uhf.Spec.files_hermitian (sites V) H ->
  let l := all_samples groups N smp in
  let ps := procs groups gsize in
  let A := fun p => main_cal (n_para V + 1) false false N (gsize (fst p)) (snd p) (smp (fst p)) (st p) in
  let M := stcOptInit (n_para V + 1) del dt nn idx (average_vec ps (total_weight l) (fun p => OO (A p)) me) (average_vec ps (total_weight l) (fun p => HO (A p)) me) S0 g0 in
  0 <= N -> (forall k, 0 <= k < groups -> 1 <= gsize k) -> In me ps -> 0 <= nn -> (0 <= del)%R -> (0 < dt)%R ->
  unbiased (with_para V P) l xs -> (forall s u, In (s, u) (combine (counted l) xs) -> evaluated (with_para V P) H s (conf u)) -> (forall s, In s (counted l) -> 0 <= wgt s)%R ->
  (forall i, 0 <= i < nn -> 0 <= idx i < 2 * n_para V /\ flat_nodes V P (idx i)) ->
  (forall i, 0 <= i < nn -> rsum (zrange 0 nn) (fun j => fst M (i + nn * j)%Z * y j)%R = snd M i) ->
  (forall i, 0 <= i < nn -> derivable_pt_lim (fun t => energy V (hamiltonian V H) (psi (with_para V (shifted P (idx i) t)))) 0 (g i)) ->
  (rsum (zrange 0 nn) (fun i => y i * g i) <= 0)%R /\
  ((0 < del)%R -> (forall i, 0 <= i < nn -> (0 < fst M (i + nn * i)%Z)%R) -> (exists i, 0 <= i < nn /\ g i <> 0%R) -> (rsum (zrange 0 nn) (fun i => y i * g i) < 0)%R).
Proof. exact (fun HV Hc Hok Hsp Hh => downhill V P HV Hc H Hok Hsp Hh groups gsize N smp st me xs nn idx del dt S0 g0 y g). Qed.
Print Assumptions C75_downhill.

(** zeros do matter: a pair parameter at 0 whose configuration is therefore never sampled has force 0, so that it stays at 0,
    although moving it lowers the energy *)
Theorem C75_zero_parameter_refuted : exists V P H l xs c g, wf_wave (with_para V P) /\ vFlagRBM V = false /\ sites_ok V H /\ spins_kept H /\ Uhf.Spec.files_hermitian (sites V) H /\
  unbiased (with_para V P) l xs /\ (forall s u, In (s, u) (combine (counted l) xs) -> evaluated (with_para V P) H s (conf u)) /\ 0 <= c < 2 * n_para V /\
  derivable_pt_lim (fun t => energy V (hamiltonian V H) (psi (with_para V (shifted P c t)))) 0 g /\ (g < 0)%R /\ force l c = 0%R.
Proof. exact nodes_refuted. Qed.
Print Assumptions C75_zero_parameter_refuted.

(** the program for general orbitals stores the derivatives of the pair parameters behind those of the correlation factors although
    with a machine the parameters lie further back *)
Theorem C75_machine_offset_refuted : exists S T para opt sl E0 A InvM PfM eleIdx eleSpn M nProj k,
  valid_fsz S T false /\ placed (Slater.Model.Nsite S) (2 * Slater.Model.Ne S) eleIdx eleSpn /\
  A = update_weights S false opt (init_qp_weight S 0 (fun _ => 0%R) (fun _ => 0%R) para false opt) /\
  current_fsz (Slater.Model.Nsite S) (2 * Slater.Model.Ne S) (update_slater_elm_fsz S T sl E0) 0 (Slater.Model.NQPFull S) eleIdx eleSpn InvM PfM /\ wf_machine M /\ 0 <= k < NSlater S /\
  let amp := fun sl => amplitude_fsz S T para (opt_weight false opt) sl (spin_orbital (Slater.Model.Nsite S) eleIdx eleSpn) in
  amp sl <> RtoC 0 /\
  forall cnt junk, let O := sr_opt_o_fsz nProj (slater_elm_diff_fsz S T A InvM PfM (calculate_ip A 0 (Slater.Model.NQPFull S) PfM) eleIdx eleSpn) cnt junk in
  ~ log_derivative (fun t => amp (shift_re sl k t)) (O (2 * (nProj + n_rbm true M + k) + 2)).
Proof. exact fsz_offset_refuted. Qed.
Print Assumptions C75_machine_offset_refuted.

(** two sites, two electrons, correlation factors, a machine and four pair parameters; a Hamiltonian with all kinds of terms; four
    samples on two processes; the Gutzwiller parameter optimised *)
Example C75_case : wf_wave (with_para (Vg true) (Pg p_case)) /\ complete (vM (Vg true)) /\ sites_ok (Vg true) H_g /\ spins_kept H_g /\ Uhf.Spec.files_hermitian (sites (Vg true)) H_g /\
  (forall a b, 0 <= a < 2 -> 0 <= b < 2 -> exists cnt rcnt, sampled (with_para (Vg true) (Pg p_case)) (K_g true p_case a b) (w_g a b cnt) rcnt (RtoC (pv true p_case a b))) /\
  exists smp, let l := all_samples 1 4 smp in let ps := procs 1 (fun _ => 2) in let V := with_para (Vg true) (Pg p_case) in
  unbiased V l (configurations (Vg true)) /\ (forall s u, In (s, u) (combine (counted l) (configurations (Vg true))) -> evaluated V H_g s (conf u)) /\ (forall s, In s (counted l) -> 0 <= wgt s)%R /\
  In (0, 1) ps /\ (forall c, flat_nodes (Vg true) (Pg p_case) c) /\
  forall st S0 g0, let A := fun p => main_cal (n_para (Vg true) + 1) false false 4 2 (snd p) (smp (fst p)) (st p) in
  let M := stcOptInit (n_para (Vg true) + 1) (/ 100) (/ 10) 1 (fun _ => 0) (average_vec ps (total_weight l) (fun p => OO (A p)) (0, 1)) (average_vec ps (total_weight l) (fun p => HO (A p)) (0, 1)) S0 g0 in
  (0 < fst M 0%Z)%R /\ exists y, forall i, 0 <= i < 1 -> rsum (zrange 0 1) (fun j => fst M (i + 1 * j)%Z * y j)%R = snd M i.
Proof.
  split; [exact (Wg_wf true p_case)|]. split; [exact ma_complete|]. split; [exact (H_g_sites (Vg true) eq_refl)|]. split; [exact H_g_spins|]. split; [exact H_g_herm|].
  split; [intros a b Ha Hb; exact (sampled_g true p_case a b Ha Hb (p_case_nz a b Ha Hb))|exact case_step].
Qed.
