(** Property C64: local energy and S^z with general spins *)
From Coq Require Import ZArith List Bool Lia Reals.
From Coquelicot Require Import Complex.
From Verif Require Import Base.ZLoop Base.RSum Slater.Model Samp.Model Green.Model Ham.Model Gfz.Model Gfz.Spec Gfz.Cases Hfz.Model Hfz.Spec Hfz.Proofs Hfz.Cases.
Import ListNotations.
Local Open Scope Z_scope.

(** C64.  For every wave function with general spins, every Hamiltonian on the lattice (spins in any combination), sampled configuration
    and every division of the loops among any number of threads with any previous contents of their work spaces: the manual's sum *)
Theorem C64_energy V : wf_fwave V -> forall G w ip, sampled_fsz V G w ip -> forall H, fsites_ok (fsites V) H -> forall P, fexecution (fcount H) P ->
  calculate_hamiltonian_fsz G H ip (Samp.Model.eleCfg w) (Samp.Model.eleNum w) (eleProjCnt w) P (Samp.Model.eleIdx w) (Samp.Model.eleSpn w) =
    Some (fvalue V (fhamiltonian (fsites V) H) (config V w)).
Proof. exact (fun HV G w ip HS H HH P => fenergy V HV G w ip HS H HH P). Qed.
Print Assumptions C64_energy.
(** the terms made of number operators alone *)
Theorem C64_diagonal V : wf_fwave V -> forall G w ip, sampled_fsz V G w ip -> forall H, fsites_ok (fsites V) H -> forall P, fexecution (fcount H) P ->
  calculate_hamiltonian0_fsz G H (Samp.Model.eleNum w) P = Some (fvalue V (fdiagonal (fsites V) H) (config V w)).
Proof. exact (fun HV G w ip HS H HH P => fdiagonal_ok V HV G w ip HS H HH P). Qed.
Print Assumptions C64_diagonal.
(** the value averaged into the output is twice S^z ... *)
Theorem C64_twice_sz V : wf_fwave V -> forall G w ip, sampled_fsz V G w ip ->
  exists z, calculate_sz_fsz G (Samp.Model.eleNum w) = Some z /\ RtoC z = Cmult (RtoC 2) (fvalue V (spin_z (fsites V)) (config V w)).
Proof. exact (fun HV G w ip HS => fsz_ok V HV G w ip HS). Qed.
Print Assumptions C64_twice_sz.
(** ... where the manual announces S^z (output.rst:133) *)
Theorem C64_sz_refuted : exists V G w ip z, wf_fwave V /\ sampled_fsz V G w ip /\ calculate_sz_fsz G (Samp.Model.eleNum w) = Some z /\ RtoC z <> fvalue V (spin_z (fsites V)) (config V w).
Proof. exact sz_refuted. Qed.
Print Assumptions C64_sz_refuted.
(** two terms of each of the seven kinds, some flipping spins, two threads *)
Example C64_case : wf_fwave Vg /\ (exists cnt, sampled_fsz Vg Gg (wg cnt) (RtoC (-30)) /\ fvalue Vg (fdiagonal (fsites Vg) H_f) (config Vg (wg cnt)) = RtoC (-4)) /\
  fsites_ok (fsites Vg) H_f /\ (forall w0 w1, fexecution (fcount H_f) (P_f w0 w1)).
Proof.
  split; [exact Vg_wf|]. split; [destruct Vg_sampled as (cnt & HS); exists cnt; split; [exact HS|exact (diagonal_f cnt HS)]|]. split; [exact H_f_sites|exact P_f_ok].
Qed.
(** one hop with a spin flip *)
Example C64_case_flip : fsites_ok (fsites Vg) H_hop /\ forall cnt, fvalue Vg (fhamiltonian (fsites Vg) H_hop) (config Vg (wg cnt)) = RtoC (- (12 * exp (-1))).
Proof. exact (conj H_hop_sites value_hop). Qed.
