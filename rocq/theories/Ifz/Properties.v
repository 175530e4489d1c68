(** C78: with general spins, the wave function, Green functions, energies and derivatives respect the lattice symmetry *)
From Coq Require Import ZArith List Bool Lia Reals Lra.
From Coquelicot Require Import Complex.
From Verif Require Import Base.ZLoop Base.RSum Proj.Model Slater.Model Slater.Spec Samp.Model Green.Model Green.Spec Ham.Model Grd.Model Grd.Spec Fsz.Model Fsz.Spec Fsz.Cases Gfz.Model Gfz.Spec Gfz.Cases Hfz.Model Hfz.Spec
  Sym.Spec Inv.Spec Ifz.Spec Ifz.Proofs Ifz.ProofsHam Ifz.ProofsRun Ifz.Cases.
Import ListNotations.
Local Open Scope Z_scope.

(** a configuration moved by a transformation with its spins has the original amplitude, up to the weight and the signs collected *)
Theorem C78_wave V g x : wf_fwave V -> fsymmetry V g -> Cmult (fpara V g) (fpsi V (fmoved V g x)) = Cmult (fcollected V g x) (fpsi V x).
Proof. intros HV HS. exact (fpsi_moved V g (wf_valid V HV) HS (wf_T V HV) (wf_sites V HV) x). Qed.
Print Assumptions C78_wave.

(** so it is sampled equally often *)
Theorem C78_probability V g x : wf_fwave V -> fsymmetry V g -> Cmod (fpara V g) = 1%R -> Cmod (fpsi V (fmoved V g x)) = Cmod (fpsi V x).
Proof. intros HV HS H1. exact (fmodulus_moved V g (wf_valid V HV) HS (wf_T V HV) (wf_sites V HV) H1 x). Qed.
Print Assumptions C78_probability.

(** Green functions, including those that flip spins, go over into those between the images, up to the signs of the boundary *)
Theorem C78_local V g ops x : wf_fwave V -> fsymmetry V g -> Cmod (fpara V g) = 1%R -> fpsi V x <> RtoC 0 ->
  flocal V (carried_string (lattice V) g ops) (fmoved V g x) = Cmult (RtoC (string_sign (lattice V) g ops)) (flocal V ops x).
Proof. intros HV HS H1. exact (flocal_moved V g (wf_valid V HV) HS (wf_T V HV) (wf_sites V HV) H1 ops x). Qed.
Print Assumptions C78_local.

(** definition files that list equivalent terms alike state an invariant Hamiltonian, whatever the spins in the hopping and four-operator terms *)
Theorem C78_files V g H : wf_fwave V -> fsymmetry V g -> fsites_ok (fsites V) H -> symmetric_files (lattice V) g H -> finvariant V g (fhamiltonian (fsites V) H).
Proof. exact (ffiles_invariant V g H). Qed.
Print Assumptions C78_files.

(** the local value of any invariant operator is the same for equivalent configurations *)
Theorem C78_local_energy V g O x : wf_fwave V -> fsymmetry V g -> Cmod (fpara V g) = 1%R -> finvariant V g O -> fpsi V x <> RtoC 0 -> fvalue V O (fmoved V g x) = fvalue V O x.
Proof. intros HV HS H1. exact (fenergy_moved V g (wf_valid V HV) HS (wf_T V HV) (wf_sites V HV) H1 O x). Qed.
Print Assumptions C78_local_energy.

(** so the program computes the same energy for two walkers that differ by the symmetry, whatever the schedule of its threads *)
Theorem C78_energies V g H G w ip P G' w' ip' P' : wf_fwave V -> fsymmetry V g -> Cmod (fpara V g) = 1%R -> fsites_ok (fsites V) H -> symmetric_files (lattice V) g H ->
  sampled_fsz V G w ip -> sampled_fsz V G' w' ip' -> (forall i, In i (flabels V) -> config V w' i = carried (lattice V) g (config V w i)) ->
  fexecution (fcount H) P -> fexecution (fcount H) P' ->
  exists e, calculate_hamiltonian_fsz G H ip (Samp.Model.eleCfg w) (Samp.Model.eleNum w) (eleProjCnt w) P (Samp.Model.eleIdx w) (Samp.Model.eleSpn w) = Some e /\
            calculate_hamiltonian_fsz G' H ip' (Samp.Model.eleCfg w') (Samp.Model.eleNum w') (eleProjCnt w') P' (Samp.Model.eleIdx w') (Samp.Model.eleSpn w') = Some e.
Proof. exact (fenergies_agree V g H G w ip P G' w' ip' P'). Qed.
Print Assumptions C78_energies.

(** and the same logarithmic derivatives, hence the same share of the forces and of the overlap matrix *)
Theorem C78_derivatives V g G w ip O G' w' ip' O' : wf_fwave V -> fsymmetry V g -> Cmod (fpara V g) = 1%R ->
  sampled_fsz V G w ip -> sampled_fsz V G' w' ip' -> (forall i, In i (flabels V) -> config V w' i = carried (lattice V) g (config V w i)) ->
  forall i, 0 <= i < 2 * (NProj (fT V) + NSlater (fS V)) + 2 ->
  sr_opt_o_fsz (NProj (fT V)) (slater_elm_diff_fsz (fS V) (fQ V) (gA G') (gInvM G') (gPfM G') ip' (Samp.Model.eleIdx w') (Samp.Model.eleSpn w')) (eleProjCnt w') O' i =
  sr_opt_o_fsz (NProj (fT V)) (slater_elm_diff_fsz (fS V) (fQ V) (gA G) (gInvM G) (gPfM G) ip (Samp.Model.eleIdx w) (Samp.Model.eleSpn w)) (eleProjCnt w) O i.
Proof. exact (fderivatives_agree V g G w ip O G' w' ip' O'). Qed.
Print Assumptions C78_derivatives.

(** expectation values over all configurations transform in the same way *)
Theorem C78_expectation V g ops : wf_fwave V -> fsymmetry V g -> Cmod (fpara V g) = 1%R ->
  fexpectation V [(RtoC 1, carried_string (lattice V) g ops)] = Cmult (RtoC (string_sign (lattice V) g ops)) (fexpectation V [(RtoC 1, ops)]).
Proof. intros HV HS H1. exact (fexpectation_moved V g (wf_valid V HV) HS (wf_T V HV) (wf_sites V HV) H1 ops). Qed.
Print Assumptions C78_expectation.

(** two sites with antiperiodic boundary: the translation qualifies, with a Hamiltonian that flips spins; two up electrons and the
    same electrons exchanged by the translation, amplitudes -30 and 30, one thread and two *)
Example C78_case : wf_fwave Vg /\ fsymmetry Vg 1 /\ Cmod (fpara Vg 1) = 1%R /\ fsites_ok (fsites Vg) H_s /\ symmetric_files (lattice Vg) 1 H_s /\
  (forall k, fexecution (fcount H_s) (P_s k) /\ fexecution (fcount H_s) (P_b k)) /\
  (exists cnt cnt', sampled_fsz Vg Gg (wg cnt) (RtoC (-30)) /\ sampled_fsz Vg Gt (wt cnt') (RtoC 30) /\
    forall i, In i (flabels Vg) -> config Vg (wt cnt') i = carried (lattice Vg) 1 (config Vg (wg cnt) i)) /\
  carried_string (lattice Vg) 1 [(2, 1)] = [(3, 0)] /\ string_sign (lattice Vg) 1 [(2, 1)] = (-1)%R.
Proof.
  split; [exact Vg_wf|]. split; [exact Vg_symmetry|]. split; [exact Vg_unit|]. split; [exact H_s_sites|]. split; [exact H_s_symmetric|]. split; [intros k; split; [apply P_s_ok|apply P_b_ok]|].
  split; [destruct Vg_sampled as (cnt & A); destruct Vg_sampled_t as (cnt' & B); exists cnt, cnt'; split; [exact A|]; split; [exact B|exact (displaced_t cnt cnt')]|].
  split; [reflexivity|]. cbn; unfold carried_sign; cbn; ring.
Qed.
