(** C77: energies, derivatives and Green functions respect the lattice symmetry *)
From Coq Require Import ZArith List Bool Lia Reals Lra.
From Coquelicot Require Import Complex.
From Verif Require Import Base.ZLoop Base.RSum Proj.Model Slater.Model Slater.Spec Rbm.Model Rbm.Spec Samp.Model Green.Model Green.Spec Green.Core Green.Cases Ham.Model Ham.Spec Grd.Model Grd.Spec
  Sym.Spec Sym.Cases Inv.Spec Inv.Proofs Inv.ProofsHam Inv.ProofsRun Inv.Cases Inv.CasesRun.
Import ListNotations.
Local Open Scope Z_scope.

(** a Green function between images, evaluated where all electrons have been moved, is the original one up to the signs of the boundary *)
Theorem C77_local V g ops x : wf_wave V -> symmetry V g -> Cmod (vpara V g) = 1%R -> on_lattice V x -> psi V x <> RtoC 0 ->
  local V (carried_string V g ops) (moved V g x) = Cmult (RtoC (string_sign V g ops)) (local V ops x).
Proof. intros HV HS Hu. exact (local_moved V g HV HS Hu ops x). Qed.
Print Assumptions C77_local.

(** definition files that list equivalent terms alike state an invariant Hamiltonian *)
Theorem C77_files V g H : wf_wave V -> symmetry V g -> sites_ok V H -> symmetric_files V g H -> invariant V g (hamiltonian V H).
Proof. exact (files_invariant V g H). Qed.
Print Assumptions C77_files.

(** the local value of any invariant operator is the same for equivalent configurations *)
Theorem C77_local_energy V g O x : wf_wave V -> symmetry V g -> Cmod (vpara V g) = 1%R -> invariant V g O -> on_lattice V x -> psi V x <> RtoC 0 ->
  local_value V O (moved V g x) = local_value V O x.
Proof. intros HV HS Hu. exact (energy_moved V g HV HS Hu O x). Qed.
Print Assumptions C77_local_energy.

(** so the program computes the same energy for two walkers that differ by the symmetry, whatever the schedule of its threads *)
Theorem C77_energies V g H K w rcnt ip S K' w' rcnt' ip' S' : wf_wave V -> symmetry V g -> Cmod (vpara V g) = 1%R -> sites_ok V H -> spins_kept H -> symmetric_files V g H ->
  sampled V K w rcnt ip -> sampled V K' w' rcnt' ip' -> (forall i, In i (labels V) -> Samp.Model.eleIdx w' i = QPTrans (vQ V) g (Samp.Model.eleIdx w i)) ->
  execution (count H) S -> execution (count H) S' ->
  exists e, calculate_hamiltonian (env_of V K) H ip (Samp.Model.eleCfg w) (Samp.Model.eleNum w) (eleProjCnt w) rcnt S (Samp.Model.eleIdx w) = Some e /\
            calculate_hamiltonian (env_of V K') H ip' (Samp.Model.eleCfg w') (Samp.Model.eleNum w') (eleProjCnt w') rcnt' S' (Samp.Model.eleIdx w') = Some e.
Proof. exact (energies_agree V g H K w rcnt ip S K' w' rcnt' ip' S'). Qed.
Print Assumptions C77_energies.

(** and the same logarithmic derivatives, hence the same share of the forces and of the overlap matrix *)
Theorem C77_derivatives V P g K w rcnt ip junk O K' w' rcnt' ip' junk' O' : wf_wave (with_para V P) -> (vFlagRBM V = true -> complete (vM V)) -> symmetry V g -> Cmod (vpara V g) = 1%R ->
  sampled (with_para V P) K w rcnt ip -> sampled (with_para V P) K' w' rcnt' ip' -> (forall i, In i (labels V) -> Samp.Model.eleIdx w' i = QPTrans (vQ V) g (Samp.Model.eleIdx w i)) ->
  sr_opt_o (vS V) (vQ V) (NProj (vT V)) (vFlagRBM V) (vM V) (angles_of (with_para V P) (sopt0 K)) (sInvM K) (sPfM K) ip (Samp.Model.eleIdx w) (Samp.Model.eleNum w) (eleProjCnt w) rcnt junk = Some O ->
  sr_opt_o (vS V) (vQ V) (NProj (vT V)) (vFlagRBM V) (vM V) (angles_of (with_para V P) (sopt0 K')) (sInvM K') (sPfM K') ip' (Samp.Model.eleIdx w') (Samp.Model.eleNum w') (eleProjCnt w') rcnt' junk' = Some O' ->
  forall i, 0 <= i < 2 * n_para V + 2 -> O' i = O i.
Proof. exact (derivatives_agree V P g K w rcnt ip junk O K' w' rcnt' ip' junk' O'). Qed.
Print Assumptions C77_derivatives.

(** expectation values over all configurations transform in the same way *)
Theorem C77_expectation V g ops : wf_wave V -> symmetry V g -> Cmod (vpara V g) = 1%R ->
  expectation V [(RtoC 1, carried_string V g ops)] = Cmult (RtoC (string_sign V g ops)) (expectation V [(RtoC 1, ops)]).
Proof. intros HV HS Hu. exact (expectation_moved V g HV HS Hu ops). Qed.
Print Assumptions C77_expectation.

(** the antiperiodic ring of four sites with momentum pi/2 and every kind of term: all translations qualify, and hopping across the
    boundary changes sign *)
Example C77_case : wf_wave Vr /\ sites_ok Vr H_r /\ spins_kept H_r /\ (forall g, 0 <= g < 4 -> symmetry Vr g /\ Cmod (vpara Vr g) = 1%R /\ symmetric_files Vr g H_r) /\
  psi Vr (fun i => i) <> RtoC 0 /\ carried_string Vr 1 [(2, 3); (6, 7)] = [(3, 0); (7, 4)] /\ string_sign Vr 1 [(2, 3)] = (-1)%R /\ string_sign Vr 1 [(2, 3); (6, 7)] = 1%R.
Proof.
  split; [exact Vr_wf|]. split; [exact H_r_sites|]. split; [exact H_r_spins|].
  split; [intros g Hg; split; [exact (Vr_symmetry g Hg)|split; [exact (ipow_mod g Hg)|exact (H_r_symmetric g Hg)]]|].
  split; [exact psi_r|]. split; [reflexivity|]. split; cbn; unfold carried_sign; cbn; ring.
Qed.
(** two sites exchanged by a translation: every configuration and its image are sampled states with assembled derivatives *)
Example C77_run_case : wf_wave Wt /\ symmetry Vt0 1 /\ symmetry Wt 1 /\ Cmod (vpara Wt 1) = 1%R /\ sites_ok Wt H_t /\ spins_kept H_t /\ symmetric_files Wt 1 H_t /\
  forall a b, 0 <= a < 2 -> 0 <= b < 2 -> exists K w rcnt ip junk O K' w' rcnt' ip' junk' O',
  sampled Wt K w rcnt ip /\ sampled Wt K' w' rcnt' ip' /\ Samp.Model.eleIdx w = conf [a; b] /\ Samp.Model.eleIdx w' = conf [flip 1 a; flip 1 b] /\
  (forall i, In i (labels Wt) -> Samp.Model.eleIdx w' i = QPTrans (vQ Wt) 1 (Samp.Model.eleIdx w i)) /\
  sr_opt_o (vS Vt0) (vQ Vt0) (NProj (vT Vt0)) (vFlagRBM Vt0) (vM Vt0) (angles_of Wt (sopt0 K)) (sInvM K) (sPfM K) ip (Samp.Model.eleIdx w) (Samp.Model.eleNum w) (eleProjCnt w) rcnt junk = Some O /\
  sr_opt_o (vS Vt0) (vQ Vt0) (NProj (vT Vt0)) (vFlagRBM Vt0) (vM Vt0) (angles_of Wt (sopt0 K')) (sInvM K') (sPfM K') ip' (Samp.Model.eleIdx w') (Samp.Model.eleNum w') (eleProjCnt w') rcnt' junk' = Some O'.
Proof.
  split; [exact Wt_wf|]. split; [exact Vt_symmetry|]. split; [exact Wt_symmetry|]. split; [change (Cmod (RtoC 1) = 1%R); rewrite Cmod_R; apply Rabs_R1|].
  split; [exact H_t_sites|]. split; [exact H_t_spins|]. split; [exact H_t_symmetric|exact run_example].
Qed.
