(** C59: local energy *)
From Coq Require Import ZArith List Bool Lia Reals.
From Coquelicot Require Import Complex.
From Verif Require Import Base.ZLoop Base.RSum Slater.Model Slater.Spec Samp.Model Samp.Spec Green.Model Green.Spec Green.Cases Ham.Model Ham.Spec Ham.Proofs Ham.ProofsFlip Ham.Cases.
Import ListNotations.
Local Open Scope Z_scope.

(** for every wave function, Hamiltonian that keeps spins, sampled configuration and every division of the loops among any
    number of threads with any previous contents of their work spaces: the sum the manual gives *)
Theorem C59_energy V : wf_wave V -> forall K w rcnt ip, sampled V K w rcnt ip -> forall H, sites_ok V H -> spins_kept H ->
  forall P, execution (count H) P ->
  calculate_hamiltonian (env_of V K) H ip (Samp.Model.eleCfg w) (Samp.Model.eleNum w) (eleProjCnt w) rcnt P (Samp.Model.eleIdx w) =
    Some (local_value V (hamiltonian V H) (Samp.Model.eleIdx w)).
Proof. exact (energy V). Qed.
Print Assumptions C59_energy.

(** the terms made of number operators alone *)
Theorem C59_diagonal V : wf_wave V -> forall K w rcnt ip, sampled V K w rcnt ip -> forall H, sites_ok V H -> forall P, execution (count H) P ->
  calculate_hamiltonian0 (env_of V K) H (Samp.Model.eleNum w) P = Some (local_value V (diagonal V H) (Samp.Model.eleIdx w)).
Proof. exact (diagonal_ok V). Qed.
Print Assumptions C59_diagonal.

(** the number of doubly occupied sites *)
Theorem C59_double_occupation V : wf_wave V -> forall K w rcnt ip, sampled V K w rcnt ip -> forall P, execution (fun _ => sites V) P ->
  exists d, double_occupation (env_of V K) (Samp.Model.eleNum w) P = Some d /\ RtoC d = local_value V (doublons V) (Samp.Model.eleIdx w).
Proof. exact (double_ok V). Qed.
Print Assumptions C59_double_occupation.

(** the rule by which [local_two] expresses products that change spins, for those that do not *)
Theorem C59_anticommutation V : wf_wave V -> forall a b c d x, operator V (a, b) -> operator V (c, d) -> operator V (a, d) ->
  (forall m, In m (labels V) -> 0 <= x m < sites V) ->
  string V [(a, b); (c, d)] (psi V) x =
    Cminus (Cplus (if b =? c then string V [(a, d)] (psi V) x else RtoC 0) (if c =? d then string V [(a, b)] (psi V) x else RtoC 0))
      (string V [(a, d); (c, b)] (psi V) x).
Proof. exact (anticommutator V). Qed.
Print Assumptions C59_anticommutation.

(** any spins in the definition files: the program uses the annihilators' spins for the creators *)
Theorem C59_spins_ignored V : wf_wave V -> forall K w rcnt ip, sampled V K w rcnt ip -> forall H, sites_ok V H -> forall P, execution (count H) P ->
  calculate_hamiltonian (env_of V K) H ip (Samp.Model.eleCfg w) (Samp.Model.eleNum w) (eleProjCnt w) rcnt P (Samp.Model.eleIdx w) =
  Some (local_value V (hamiltonian V (annihilator_spins H)) (Samp.Model.eleIdx w)).
Proof. exact (spins_ignored V). Qed.
Print Assumptions C59_spins_ignored.

(** so a line of the manual's own InterAll example (0 0 0 1 1 1 1 0 0.5) gets a wrong value *)
Theorem C59_spin_flip_refuted : exists V K w rcnt ip H P v, wf_wave V /\ sampled V K w rcnt ip /\ sites_ok V H /\ execution (count H) P /\
  NInterAll H = 1 /\ map (InterAll H 0) (zrange 0 8) = [0; 0; 0; 1; 1; 1; 1; 0] /\ ParaInterAll H 0 = RtoC (/ 2) /\
  calculate_hamiltonian (env_of V K) H ip (Samp.Model.eleCfg w) (Samp.Model.eleNum w) (eleProjCnt w) rcnt P (Samp.Model.eleIdx w) = Some v /\
  v <> any_value V (hamiltonian V H) (Samp.Model.eleIdx w).
Proof. exact flip_refuted. Qed.
Print Assumptions C59_spin_flip_refuted.

(** two terms of each of the seven kinds, two threads *)
Example C59_case : wf_wave V3 /\ (forall rcnt, exists cnt, sampled V3 K3 (w3 cnt) rcnt (RtoC (-1))) /\ sites_ok V3 H_all /\ spins_kept H_all /\
  (forall w0 w1, execution (count H_all) (P_two w0 w1)) /\ (forall cnt rcnt, sampled V3 K3 (w3 cnt) rcnt (RtoC (-1)) -> local_value V3 (diagonal V3 H_all) x3 = RtoC 8).
Proof.
  split; [exact V3_wf|]. split; [exact V3_sampled|]. split; [exact H_all_sites|]. split; [exact H_all_spins|]. split; [exact P_two_ok|exact diagonal_energy].
Qed.
(** with correlation factors and a machine *)
Example C59_case_machine : wf_wave V2 /\ (exists cnt rcnt, sampled V2 K2 (w2 cnt) rcnt (RtoC 8)) /\ sites_ok V2 H_two /\ spins_kept H_two.
Proof. split; [exact V2_wf|]. split; [exact V2_sampled|]. split; [exact H_two_sites|exact H_two_spins]. Qed.
