(** Properties C08, C09, C10, C47 (renormalisation of the variational parameters). *)
From Coq Require Import ZArith List Bool Reals Lia Lra.
From Coquelicot Require Import Complex.
From Verif Require Import Base.ZLoop Base.RSum Proj.Model Proj.Spec Proj.Properties Para.Model Para.Spec Para.Proofs.
Import ListNotations.
Local Open Scope Z_scope.

(** C08: for every electron number there is one positive constant by which the correlation factor of each configuration
    with that many electrons is multiplied. *)
Theorem C08_wave_function_scaled : forall T, wf_tables T -> forall OptFlag p n,
  exists K : R, (0 < K)%R /\ forall e c, occ01 (Nsite T) e -> is_proj_cnt T e c -> electrons (Nsite T) e = n ->
    exp (log_proj_val T (sync_proj T (set_flag_shift T OptFlag) p) c) = (K * exp (log_proj_val T p c))%R.
Proof. exact sync_scaled. Qed.
Print Assumptions C08_wave_function_scaled.

(** ... so the ratio of the correlation factors of two configurations with the same number of electrons is unchanged *)
Theorem C08_ratios_unchanged : forall T, wf_tables T -> forall OptFlag p e1 c1 e2 c2,
  occ01 (Nsite T) e1 -> is_proj_cnt T e1 c1 -> occ01 (Nsite T) e2 -> is_proj_cnt T e2 c2 ->
  electrons (Nsite T) e1 = electrons (Nsite T) e2 ->
  let q := sync_proj T (set_flag_shift T OptFlag) p in
  (log_proj_val T q c1 - log_proj_val T q c2 = log_proj_val T p c1 - log_proj_val T p c2)%R.
Proof. exact sync_ratio. Qed.
Print Assumptions C08_ratios_unchanged.

(** the shifts do centre the factors (so the statement above is not about doing nothing), and are real *)
Theorem C08_shifted_factors_centred : forall T, wf_tables T -> forall F p,
  centred T F (sync_proj T F p) /\ forall j, snd (sync_proj T F p j) = snd (p j).
Proof. exact sync_centred_im. Qed.
Print Assumptions C08_shifted_factors_centred.

(** two sites, one Gutzwiller and one Jastrow factor, both optimised: (3,1) becomes (1,-1), the factor of every
    two-electron configuration is unchanged (K = 1), that of every four-electron one is multiplied by exp(-6) *)
Definition gj2 : tables := Tables 2 1 1 0 0 (fun _ => 0) (fun _ _ => 0) (fun _ _ => 0) (fun _ _ => 0).
Definition gj2_p (j : Z) : C := RtoC (if j =? 0 then 3 else if j =? 1 then 1 else 0).
Lemma gj2_wf : wf_tables gj2.
Proof. split; cbn; intros; lia. Qed.
Example C08_case : set_flag_shift gj2 (fun _ => 1) = Flags 1 0 0 /\
  sync_proj gj2 (set_flag_shift gj2 (fun _ => 1)) gj2_p 0 = RtoC 1 /\
  sync_proj gj2 (set_flag_shift gj2 (fun _ => 1)) gj2_p 1 = RtoC (-1).
Proof.
  split; [reflexivity|]. change (set_flag_shift gj2 (fun _ => 1)) with (Flags 1 0 0).
  unfold sync_proj, shift_gj, loop. change (zrange 0 (NGutzwillerIdx gj2)) with [0].
  change (zrange 0 (NGutzwillerIdx gj2 + NJastrowIdx gj2)) with [0; 1].
  unfold gj2_p, sub_at, upd. cbn. unfold Cminus, Cplus, Copp, RtoC. cbn. split; f_equal; lra.
Qed.
Example C08_case_tables : set_flag_shift ex_tables (fun _ => 1) = Flags 1 1 1 /\ wf_tables ex_tables /\
  occ01 3 ex_ele /\ electrons 3 ex_ele = 4.
Proof. split; [reflexivity|]. split; [exact ex_tables_wf|]. split; [exact ex_occ|reflexivity]. Qed.

(** C09: a correlation factor that is held fixed never changes *)
Theorem C09_fixed_factor_unchanged : forall T, wf_tables T -> forall OptFlag p i, 0 <= i < NProj T ->
  ~ optimised OptFlag i -> sync_proj T (set_flag_shift T OptFlag) p i = p i.
Proof. exact (fun T wf f p i Hi => sync_fixed T f p wf i Hi). Qed.
Print Assumptions C09_fixed_factor_unchanged.

(** the shift of a family is applied exactly when there are Gutzwiller factors, the family is present, and all
    Gutzwiller factors and all factors of the family are optimised *)
Theorem C09_shift_flags_exact : forall T, wf_tables T -> forall OptFlag,
  let G := 0 < NGutzwillerIdx T /\ forall i, 0 <= i < NGutzwillerIdx T -> optimised OptFlag i in
  let o2 := NGutzwillerIdx T + NJastrowIdx T in let o4 := o2 + 6 * NDoublonHolon2siteIdx T in
  let F := set_flag_shift T OptFlag in
  (fGJ F = 1 <-> G /\ 0 < NJastrowIdx T /\ forall i, NGutzwillerIdx T <= i < o2 -> optimised OptFlag i) /\
  (fDH2 F = 1 <-> G /\ 0 < NDoublonHolon2siteIdx T /\ forall i, o2 <= i < o4 -> optimised OptFlag i) /\
  (fDH4 F = 1 <-> G /\ 0 < NDoublonHolon4siteIdx T /\ forall i, o4 <= i < NProj T -> optimised OptFlag i).
Proof. exact (fun T wf f => set_flag_iff T f wf). Qed.
Print Assumptions C09_shift_flags_exact.

(** ... and with one Gutzwiller factor fixed no correlation factor at all changes *)
Theorem C09_fixed_gutzwiller_stops_all : forall T, wf_tables T -> forall OptFlag p i, 0 <= i < NGutzwillerIdx T ->
  ~ optimised OptFlag i -> forall j, sync_proj T (set_flag_shift T OptFlag) p j = p j.
Proof. exact sync_gutz_fixed. Qed.
Print Assumptions C09_fixed_gutzwiller_stops_all.

Theorem C09_fixed_family_unchanged : forall T, wf_tables T -> forall OptFlag p i j,
  let o2 := NGutzwillerIdx T + NJastrowIdx T in let o4 := o2 + 6 * NDoublonHolon2siteIdx T in
  ~ optimised OptFlag i ->
  (o2 <= i < o4 -> o2 <= j < o4 -> sync_proj T (set_flag_shift T OptFlag) p j = p j) /\
  (o4 <= i < NProj T -> o4 <= j < NProj T -> sync_proj T (set_flag_shift T OptFlag) p j = p j) /\
  (NGutzwillerIdx T <= i < o2 -> NGutzwillerIdx T <= j < o2 -> sync_proj T (set_flag_shift T OptFlag) p j = p j).
Proof. exact sync_family_fixed. Qed.
Print Assumptions C09_fixed_family_unchanged.

(** one Jastrow factor of [ex_tables] fixed: only the Gutzwiller-Jastrow shift is off *)
Example C09_case : let f := fun i => if i =? 6 then 0 else 1 in
  ~ optimised f 3 /\ 0 <= 3 < NProj ex_tables /\ set_flag_shift ex_tables f = Flags 0 1 1.
Proof. cbn. split; [intros X; discriminate X|]. split; [lia|reflexivity]. Qed.

(** C10: on every process the pair amplitudes come from those of process 0 (of the process itself when alone) by one
    positive factor, the largest modulus becomes exactly 4, and ratios are unchanged *)
Theorem C10_amplitudes_rescaled : forall T F NSlater NOptTrans FlagOptTrans size P r, 1 <= NSlater -> 1 <= size -> 0 <= r < size ->
  (exists i, 0 <= i < NSlater /\ Slater (P 0) i <> RtoC 0) ->
  let a := Slater (sync T F NSlater NOptTrans FlagOptTrans size P r) in
  is_max_mod NSlater a 4%R /\ rescaled NSlater (Slater (P 0)) a /\
  forall i j, 0 <= i < NSlater -> 0 <= j < NSlater -> Slater (P 0) j <> RtoC 0 ->
    Cdiv (a i) (a j) = Cdiv (Slater (P 0) i) (Slater (P 0) j).
Proof. exact sync_slater. Qed.
Print Assumptions C10_amplitudes_rescaled.

(** the same for the weights of the orbital transformations, whose largest modulus becomes 1 *)
Theorem C10_transformation_weights_rescaled : forall T F NSlater NOptTrans FlagOptTrans size P r, 1 <= NOptTrans -> 1 <= size ->
  0 <= r < size -> 0 < FlagOptTrans -> (exists i, 0 <= i < NOptTrans /\ OptTrans (P 0) i <> RtoC 0) ->
  let a := OptTrans (sync T F NSlater NOptTrans FlagOptTrans size P r) in
  is_max_mod NOptTrans a 1%R /\ rescaled NOptTrans (OptTrans (P 0)) a.
Proof. exact sync_trans. Qed.
Print Assumptions C10_transformation_weights_rescaled.

(** three amplitudes 0, 3+4i, -1: the largest modulus 5 becomes 4 *)
Definition ex_slater (j : Z) : C := if j =? 1 then (3%R, 4%R) else if j =? 2 then RtoC (-1) else RtoC 0.
Example C10_case : (exists i, 0 <= i < 3 /\ ex_slater i <> RtoC 0) /\ max_abs 3 ex_slater = 5%R.
Proof.
  split; [exists 1; split; [lia|]; unfold ex_slater; cbn; intros X; apply (f_equal fst) in X; cbn in X; lra|].
  apply max_abs_is; [lia|]. split.
  - exists 1. split; [lia|]. unfold ex_slater, Cmod. cbn. replace (3 * (3 * 1) + 4 * (4 * 1))%R with (5 * 5)%R by ring. apply sqrt_square. lra.
  - intros i Hi. assert (C : i = 0 \/ i = 1 \/ i = 2) by lia. destruct C as [->|[->| ->]]; unfold ex_slater; cbn [Z.eqb Pos.eqb].
    + rewrite Cmod_0. lra.
    + unfold Cmod. cbn. replace (3 * (3 * 1) + 4 * (4 * 1))%R with (5 * 5)%R by ring. rewrite sqrt_square; lra.
    + rewrite Cmod_R. unfold Rabs. destruct (Rcase_abs (-1)); lra.
Qed.

(** C47: with more than one process all processes end with the same parameters ... *)
Theorem C47_processes_agree : forall T F NSlater NOptTrans FlagOptTrans size P Q r r', 1 < size -> P 0 = Q 0 ->
  sync T F NSlater NOptTrans FlagOptTrans size P r = sync T F NSlater NOptTrans FlagOptTrans size Q r'.
Proof. exact sync_agree. Qed.
Print Assumptions C47_processes_agree.

(** ... and a second synchronisation changes nothing *)
Theorem C47_idempotent : forall T, wf_tables T -> forall F NSlater NOptTrans FlagOptTrans size P r,
  1 <= NSlater -> 1 <= size -> 0 <= r < size -> (exists i, 0 <= i < NSlater /\ Slater (P 0) i <> RtoC 0) ->
  (0 < FlagOptTrans -> 1 <= NOptTrans /\ exists i, 0 <= i < NOptTrans /\ OptTrans (P 0) i <> RtoC 0) ->
  let S := sync T F NSlater NOptTrans FlagOptTrans size in
  (forall j, Proj (S (S P) r) j = Proj (S P r) j) /\
  (forall j, 0 <= j < NSlater -> Slater (S (S P) r) j = Slater (S P r) j) /\
  (forall j, 0 <= j < NOptTrans -> OptTrans (S (S P) r) j = OptTrans (S P r) j).
Proof. exact sync_sync. Qed.
Print Assumptions C47_idempotent.
