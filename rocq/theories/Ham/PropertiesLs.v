(** C60: local values of H*H and of H c+_i c_j, for the power-Lanczos step *)
From Coq Require Import ZArith List Bool Lia Reals.
From Coquelicot Require Import Complex.
From Verif Require Import Base.ZLoop Base.RSum Slater.Model Slater.Spec Samp.Model Samp.Spec Green.Model Green.Spec Green.Cases Ham.Model Ham.Spec Ham.Proofs Ham.ProofsFlip Ham.ProofsLs Ham.Cases Ham.CasesLs.
Import ListNotations.
Local Open Scope Z_scope.

(** number operators and hopping only, with or without a machine: starting from the program's own local energy, the value is
    the one of the Hamiltonian times the Hamiltonian and the walker and its matrices are left as they were, for every division
    of every loop among threads *)
Theorem C60_hopping V : wf_wave V -> no_partial_zero V -> forall K w rcnt ip, sampled V K w rcnt ip -> forall H, sites_ok V H -> spins_kept H -> ~ two_body H ->
  forall kernel own sh P0 P1 P, holds K w sh -> execution (count H) P0 -> execution (count H) P1 -> (forall l k, execution (count H) (P l k)) ->
  exists h1, calculate_hamiltonian (env_of V K) H ip (Samp.Model.eleCfg w) (Samp.Model.eleNum w) (eleProjCnt w) rcnt P1 (Samp.Model.eleIdx w) = Some h1 /\
    ls_local_q (env_of V K) H kernel own (eleProjCnt w) rcnt P0 P h1 ip sh = Some (local_value V (times (hamiltonian V H) (hamiltonian V H)) (Samp.Model.eleIdx w), sh).
Proof.
  intros HV Hz K w rcnt ip HS H HH Hsp H2 kernel own sh P0 P1 P Hsh HP0 HP1 HP. eexists. split; [exact (energy V HV K w rcnt ip HS H HH Hsp P1 HP1)|].
  rewrite (holds_eq K w sh Hsh). exact (square_ok V HV Hz K w rcnt ip HS H HH Hsp kernel (fun T => False_ind _ (H2 T)) own (fun T => False_ind _ (H2 T)) P HP P0 HP0).
Qed.
Print Assumptions C60_hopping.

(** any Hamiltonian that keeps spins. Partial: with pair hopping, exchange or InterAll terms there must be no machine, and the
    low-rank Pfaffian routine must be right (see C21) *)
Theorem C60_square_partial V : wf_wave V -> no_partial_zero V -> forall K w rcnt ip, sampled V K w rcnt ip -> forall H, sites_ok V H -> spins_kept H ->
  forall kernel, (two_body H -> vFlagRBM V = false /\ pfaffian_routine V K w kernel) ->
  forall own sh P0 P1 P, holds K w sh -> execution (count H) P0 -> execution (count H) P1 -> (forall l k, execution (count H) (P l k)) ->
  exists h1, calculate_hamiltonian (env_of V K) H ip (Samp.Model.eleCfg w) (Samp.Model.eleNum w) (eleProjCnt w) rcnt P1 (Samp.Model.eleIdx w) = Some h1 /\
    ls_local_q (env_of V K) H kernel own (eleProjCnt w) rcnt P0 P h1 ip sh = Some (local_value V (times (hamiltonian V H) (hamiltonian V H)) (Samp.Model.eleIdx w), sh).
Proof.
  intros HV Hz K w rcnt ip HS H HH Hsp kernel H2 own sh P0 P1 P Hsh HP0 HP1 HP. eexists. split; [exact (energy V HV K w rcnt ip HS H HH Hsp P1 HP1)|].
  rewrite (holds_eq K w sh Hsh). exact (square_ok V HV Hz K w rcnt ip HS H HH Hsp kernel (fun T => proj2 (H2 T)) own (fun T => proj1 (H2 T)) P HP P0 HP0).
Qed.
Print Assumptions C60_square_partial.

(** the n one-body Green functions times the Hamiltonian go to cells n .. 2n-1; nothing else is written *)
Theorem C60_cisajs_partial V : wf_wave V -> no_partial_zero V -> forall K w rcnt ip, sampled V K w rcnt ip -> forall H, sites_ok V H -> spins_kept H ->
  forall kernel, (two_body H -> pfaffian_routine V K w kernel) ->
  forall own sh P1 (Q : Z -> sched) n I out, holds K w sh -> execution (count H) P1 -> (forall k, execution (count H) (Q k)) ->
  (forall k, 0 <= k < n -> site V (I k 0) /\ site V (I k 2) /\ spin (I k 3)) ->
  exists h1 out', calculate_hamiltonian (env_of V K) H ip (Samp.Model.eleCfg w) (Samp.Model.eleNum w) (eleProjCnt w) rcnt P1 (Samp.Model.eleIdx w) = Some h1 /\
    ls_local_cisajs (env_of V K) H kernel own (eleProjCnt w) rcnt Q n I h1 ip out sh = Some (out', sh) /\
    (forall k, 0 <= k < n -> out' (k + n) =
       local_value V (times (hamiltonian V H) [(RtoC 1, [(I k 0 + I k 3 * sites V, I k 2 + I k 3 * sites V)])]) (Samp.Model.eleIdx w)) /\
    forall i, i < n \/ 2 * n <= i -> out' i = out i.
Proof.
  intros HV Hz K w rcnt ip HS H HH Hsp kernel H2 own sh P1 Q n I out Hsh HP1 HQ HI. destruct (cisajs_ok V HV Hz K w rcnt ip HS H HH Hsp kernel H2 own Q n I out HQ HI) as (out' & E).
  eexists. exists out'. split; [exact (energy V HV K w rcnt ip HS H HH Hsp P1 HP1)|]. rewrite (holds_eq K w sh Hsh). exact E.
Qed.
Print Assumptions C60_cisajs_partial.

(** with a machine and two-body terms the routine can read counters it never computed *)
Theorem C60_machine_refuted : exists V K w rcnt ip H kernel, wf_wave V /\ no_partial_zero V /\ sampled V K w rcnt ip /\ sites_ok V H /\ spins_kept H /\ pfaffian_routine V K w kernel /\
  forall own sh P0 P h1, holds K w sh -> execution (count H) P0 -> ls_local_q (env_of V K) H kernel own (eleProjCnt w) rcnt P0 P h1 ip sh = None.
Proof. exact rbm_refuted. Qed.
Print Assumptions C60_machine_refuted.

(** two sites, two projections, a machine, hopping with complex amplitude *)
Example C60_case_hopping : wf_wave V2 /\ no_partial_zero V2 /\ (exists cnt rcnt, sampled V2 K2 (w2 cnt) rcnt (RtoC 8)) /\ sites_ok V2 H_hop /\ spins_kept H_hop /\ ~ two_body H_hop /\
  (forall w0, execution (count H_hop) (P_all (count H_hop) w0)) /\ NTransfer H_hop = 2 /\ vFlagRBM V2 = true.
Proof.
  split; [exact V2_wf|]. split; [exact V2_regular|]. split; [exact V2_sampled|]. split; [exact H_hop_sites|]. split; [exact H_hop_spins|]. split; [exact H_hop_one|].
  split; [intros; apply P_all_ok|]. split; reflexivity.
Qed.
(** four sites, two terms of each kind, two threads, no machine *)
Example C60_case : wf_wave V3 /\ no_partial_zero V3 /\ (forall rcnt, exists cnt, sampled V3 K3 (w3 cnt) rcnt (RtoC (-1))) /\ sites_ok V3 H_all /\ spins_kept H_all /\ two_body H_all /\ vFlagRBM V3 = false /\
  (exists kernel, forall cnt, pfaffian_routine V3 K3 (w3 cnt) kernel) /\ (forall w0 w1, execution (count H_all) (P_two w0 w1)) /\ (forall K w, holds K w (sh0 K w)).
Proof.
  split; [exact V3_wf|]. split; [exact V3_regular|]. split; [exact V3_sampled|]. split; [exact H_all_sites|]. split; [exact H_all_spins|]. split; [exact H_all_two|]. split; [reflexivity|].
  split; [exact ideal_kernel|]. split; [exact P_two_ok|]. intros K w. repeat split.
Qed.
