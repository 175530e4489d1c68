(** Property C69: runs with real parameters *)
From Coq Require Import ZArith List Bool Reals Lia Lra.
From Coquelicot Require Import Complex.
From Verif Require Import Base.ZLoop Base.Checked Base.RSum Proj.Model Pf.Spec Slater.Model Ham.Model Ham.Spec Green.Model Green.Spec Samp.Prog Samp.Model Samp.Spec Mark.Model Mark.Spec Samp.Exec Mark.Balance Mark.Cases
  Rel.Model Rel.Spec Rel.Proofs Rel.Cases.
Import ListNotations.
Local Open Scope Z_scope.

(** the real routines are used exactly when no family of correlation or pair parameters is declared complex *)
Theorem C69_selected g j d2 d4 o : 0 <= g -> 0 <= j -> 0 <= d2 -> 0 <= d4 -> 0 <= o -> (all_complex_flag g j d2 d4 o = 0 <-> g = 0 /\ j = 0 /\ d2 = 0 /\ d4 = 0 /\ o = 0).
Proof. unfold all_complex_flag. lia. Qed.
Print Assumptions C69_selected.

(** C69.  For a wave function with real parameters and no machine the real routines return the matrix elements of the operators: one-body ... *)
Theorem C69_green1 : forall V, wf_wave V -> real_wave V -> forall K w ip, sampled V (embed K) w (fun _ => RtoC 0) (RtoC ip) ->
  forall ri rj s r, 0 <= ri < sites V -> 0 <= rj < sites V -> 0 <= s <= 1 -> starts_real w r ->
  exists v r', green1_real (renv_of V K) ri rj s ip (Samp.Model.eleCfg w) (eleProjCnt w) r = Some (v, r') /\ starts_real w r' /\
    RtoC v = local V [(ri + s * sites V, rj + s * sites V)] (Samp.Model.eleIdx w).
Proof. exact green1_wave. Qed.
Print Assumptions C69_green1.
(** ... and two-body ... *)
Theorem C69_green2 : forall V, wf_wave V -> real_wave V -> forall K w ip, sampled V (embed K) w (fun _ => RtoC 0) (RtoC ip) ->
  forall ri rj rk rl s t r, 0 <= ri < sites V -> 0 <= rj < sites V -> 0 <= rk < sites V -> 0 <= rl < sites V -> 0 <= s <= 1 -> 0 <= t <= 1 -> starts_real w r ->
  exists v r', green2_real (renv_of V K) ri rj rk rl s t ip (Samp.Model.eleCfg w) (eleProjCnt w) r = Some (v, r') /\ starts_real w r' /\
    RtoC v = local V [(ri + s * sites V, rj + s * sites V); (rk + t * sites V, rl + t * sites V)] (Samp.Model.eleIdx w).
Proof. exact green2_wave. Qed.
Print Assumptions C69_green2.
(** ... the local energy is the real part of the local value of the Hamiltonian, whatever the threads do ... *)
Theorem C69_energy : forall V, wf_wave V -> real_wave V -> forall K w ip, sampled V (embed K) w (fun _ => RtoC 0) (RtoC ip) ->
  forall H, sites_ok V H -> spins_kept H -> forall P, execution_real (count H) P ->
  calculate_hamiltonian_real (renv_of V K) H ip (Samp.Model.eleCfg w) (Samp.Model.eleNum w) (eleProjCnt w) P (Samp.Model.eleIdx w) =
  Some (fst (local_value V (hamiltonian V H) (Samp.Model.eleIdx w))).
Proof. exact energy_wave. Qed.
Print Assumptions C69_energy.
(** ... the weight of a proposal is the ratio of squared amplitudes ... *)
Theorem C69_weight : forall I V, wf_input I -> wf_wave V -> real_wave V -> fits I V -> forall Orc K w ip b q p c w1,
  sampled V (embed K) w (fun _ => RtoC 0) (RtoC ip) -> propose I Orc w q = Some (p, c) -> proposed c = Some w1 ->
  weight_real (renv_of V K) b w (log_ip_real (kclog K) ip) c = Some ((Cmod (psi V (Samp.Model.eleIdx w1)) / Cmod (psi V (Samp.Model.eleIdx w))) ^ 2)%R.
Proof. exact weight_wave. Qed.
Print Assumptions C69_weight.
(** ... and the updates keep inverse matrices and Pfaffians of the current configuration, for any skew real table *)
Theorem C69_update Nsite Ne sl eleIdx InvM PfM m s r q0 q1 : 0 < Ne -> (forall q, 0 <= q < q1 - q0 -> skew_table Nsite (as_complex sl) (q + q0)) ->
  electron Ne m s -> 0 <= r < Nsite -> on_lattice Nsite (2 * Ne) eleIdx ->
  Pf.Spec.current Nsite Ne (as_complex sl) q0 q1 eleIdx (as_complex InvM) (as_complex PfM) ->
  Pf.Spec.regular Nsite Ne (as_complex sl) q0 q1 (upd eleIdx (m + s * Ne) r) ->
  let st := update_mall_real Nsite Ne (2 * Ne) sl m s (upd eleIdx (m + s * Ne) r) q0 q1 (InvM, PfM) in
  Pf.Spec.current Nsite Ne (as_complex sl) q0 q1 (upd eleIdx (m + s * Ne) r) (as_complex (fst st)) (as_complex (snd st)).
Proof. exact (update_one_real Nsite Ne sl eleIdx InvM PfM m s r q0 q1). Qed.
Print Assumptions C69_update.
Theorem C69_update_two Nsite Ne sl eleIdx InvM PfM ma s ra mb t rb raOld rbOld q0 q1 : 0 < Ne -> (forall q, 0 <= q < q1 - q0 -> skew_table Nsite (as_complex sl) (q + q0)) ->
  electron Ne ma s -> electron Ne mb t -> ma + s * Ne <> mb + t * Ne -> 0 <= ra < Nsite -> 0 <= rb < Nsite -> on_lattice Nsite (2 * Ne) eleIdx ->
  Pf.Spec.current Nsite Ne (as_complex sl) q0 q1 eleIdx (as_complex InvM) (as_complex PfM) ->
  let ele' := upd (upd eleIdx (ma + s * Ne) ra) (mb + t * Ne) rb in
  Pf.Spec.regular Nsite Ne (as_complex sl) q0 q1 ele' ->
  let st := update_mall_two_real Nsite Ne (2 * Ne) sl ma s mb t raOld rbOld ele' q0 q1 (InvM, PfM) in
  Pf.Spec.current Nsite Ne (as_complex sl) q0 q1 ele' (as_complex (fst st)) (as_complex (snd st)).
Proof. exact (update_two_real Nsite Ne sl eleIdx InvM PfM ma s ra mb t rb raOld rbOld q0 q1). Qed.
Print Assumptions C69_update_two.
(** the table they are given is skew *)
Theorem C69_table_skew : forall V, wf_wave V -> forall K q, 0 <= q < Slater.Model.NQPFull (vS V) -> skew_table (sites V) (as_complex (rSl (renv_of V K))) q.
Proof. exact real_skew. Qed.
Print Assumptions C69_table_skew.

(** Any other wave function is replaced by one without machine and with the real parts of its momentum weights and pair amplitudes. *)
Theorem C69_shadow : forall V, wf_wave V -> real_transforms V -> forall K w ip, sampled_real V K w ip ->
  (forall ri rj s r, 0 <= ri < sites V -> 0 <= rj < sites V -> 0 <= s <= 1 -> starts_real w r ->
   exists v r', green1_real (renv_of V K) ri rj s ip (Samp.Model.eleCfg w) (eleProjCnt w) r = Some (v, r') /\
     RtoC v = local (shadow V) [(ri + s * sites V, rj + s * sites V)] (Samp.Model.eleIdx w)) /\
  (forall H, sites_ok V H -> spins_kept H -> forall P, execution_real (count H) P ->
   calculate_hamiltonian_real (renv_of V K) H ip (Samp.Model.eleCfg w) (Samp.Model.eleNum w) (eleProjCnt w) P (Samp.Model.eleIdx w) =
   Some (fst (local_value (shadow V) (hamiltonian (shadow V) H) (Samp.Model.eleIdx w)))) /\
  (forall I Orc b q p c w1, wf_input I -> fits I V -> propose I Orc w q = Some (p, c) -> proposed c = Some w1 ->
   weight_real (renv_of V K) b w (log_ip_real (kclog K) ip) c = Some ((Cmod (psi (shadow V) (Samp.Model.eleIdx w1)) / Cmod (psi (shadow V) (Samp.Model.eleIdx w))) ^ 2)%R).
Proof. exact shadow_all. Qed.
Print Assumptions C69_shadow.
(** So a machine, whose parameters do not count for the selection, has no effect on the weight: 1/e^2 instead of 1/e^4 ... *)
Theorem C69_machine_refuted : exists I V K w ip Orc p c w1, wf_input I /\ wf_wave V /\ fits I V /\ vFlagRBM V = true /\ real_transforms V /\ (forall i, snd (vpara V i) = 0%R) /\ sampled_real V K w ip /\
  propose I Orc w 0 = Some (p, c) /\ proposed c = Some w1 /\
  forall b, weight_real (renv_of V K) b w (log_ip_real (kclog K) ip) c <> Some ((Cmod (psi V (Samp.Model.eleIdx w1)) / Cmod (psi V (Samp.Model.eleIdx w))) ^ 2)%R.
Proof. exact machine_lost. Qed.
Print Assumptions C69_machine_refuted.
(** ... complex momentum weights, which do not count either, lose their imaginary parts ... *)
Theorem C69_momentum_refuted : exists I V K w ip Orc p c w1, wf_input I /\ wf_wave V /\ fits I V /\ vFlagRBM V = false /\ real_transforms V /\ (forall i, snd (vsl V i) = 0%R) /\ sampled_real V K w ip /\
  psi V (Samp.Model.eleIdx w) <> RtoC 0 /\ propose I Orc w 0 = Some (p, c) /\ proposed c = Some w1 /\
  forall b, weight_real (renv_of V K) b w (log_ip_real (kclog K) ip) c <> Some ((Cmod (psi V (Samp.Model.eleIdx w1)) / Cmod (psi V (Samp.Model.eleIdx w))) ^ 2)%R.
Proof. exact momentum_lost. Qed.
Print Assumptions C69_momentum_refuted.
(** ... and with complex hopping amplitudes, even of a Hermitian Hamiltonian, the local energy is not the local value *)
Theorem C69_hopping_refuted : exists V K w ip H P, wf_wave V /\ real_wave V /\ sampled V (embed K) w (fun _ => RtoC 0) (RtoC ip) /\ sites_ok V H /\ spins_kept H /\ execution_real (count H) P /\
  NTransfer H = 2 /\ (forall c, In c [0; 1] -> Transfer H 1 c = Transfer H 0 (c + 2) /\ Transfer H 1 (c + 2) = Transfer H 0 c) /\ ParaTransfer H 1 = Cconj (ParaTransfer H 0) /\
  exists v, calculate_hamiltonian_real (renv_of V K) H ip (Samp.Model.eleCfg w) (Samp.Model.eleNum w) (eleProjCnt w) P (Samp.Model.eleIdx w) = Some v /\
    RtoC v <> local_value V (hamiltonian V H) (Samp.Model.eleIdx w).
Proof. exact hopping_lost. Qed.
Print Assumptions C69_hopping_refuted.

(** one electron of each spin on two or three sites, a Gutzwiller factor *)
Example C69_case : wf_wave (Vm 2) /\ real_wave (Vm 2) /\ (forall a b, 0 <= a < 2 -> 0 <= b < 2 -> sampled (Vm 2) (embed Kr) (wm 2 a b) (fun _ => RtoC 0) (RtoC 1)) /\
  sites_ok (Vm 2) Hi /\ spins_kept Hi /\ (forall w0, execution_real (count Hi) (Pr w0)) /\ local_value (Vm 2) (hamiltonian (Vm 2) Hi) (xm 0 1) = Copp (Cmult Ci (RtoC (exp (-1)))).
Proof.
  split; [exact (Vm_wf 2 eq_refl)|]. split; [exact (Vm_real 2)|]. split; [intros a b Ha Hb; apply sampled_r; [lia|exact Ha|exact Hb]|]. split; [exact Hi_sites|]. split; [exact Hi_spins|]. split; [exact Pr_ok|exact hop_value].
Qed.
(** two translations: both matrices are current for the pair table of the real routines *)
Example C69_case_two : wf_wave Vk /\ real_transforms Vk /\ sampled_real Vk Kk (wm 2 0 1) 1 /\ Slater.Model.NQPFull (vS Vk) = 2 /\ exists p c w1, propose (Im 2 0) hop_o (wm 2 0 1) 0 = Some (p, c) /\ proposed c = Some w1.
Proof.
  split; [exact Vk_wf|]. split; [discriminate|]. split; [exact sampled_k|]. split; [reflexivity|]. destruct hop_case as (p & c & w1 & E & Ec & _). now exists p, c, w1.
Qed.
