(** C72: the Hartree-Fock program that prepares starting wave functions. *)
From Coq Require Import ZArith List Bool Lia Reals Lra Permutation.
From Coquelicot Require Import Complex.
From Verif Require Import Base.ZLoop Base.RSum Pf.Spec Green.Spec Green.Cases Ham.Model Ham.Spec Uhf.Model Uhf.Spec Uhf.Rows Uhf.Proofs Uhf.State Uhf.Pass Uhf.Adjoint Uhf.Cases Uhf.Final.
Import ListNotations.
Local Open Scope Z_scope.

(** The matrix that is diagonalised is the derivative of the energy of a determinant with respect to its Green functions, for the
    Hamiltonian that the sampler measures (C59). *)
Theorem C72_hamiltonian V H G D t : let N := sites V in let O := hamiltonian V H in
  0 < N -> sites_ok V H -> two_sites H -> (forall i, 0 <= i < 2 * N -> snd (G i i) = 0%R) ->
  mean_energy O (plus G (scale t D)) = Cplus (Cplus (mean_energy O G) (Cmult t (pairing (2 * N) (makeham N H G) D))) (Cmult (Cmult t t) (second_order O D)).
Proof. intros N O HN HS HT HG. exact (makeham_derivative V H G D HN HS HG HT t). Qed.
Print Assumptions C72_hamiltonian.
Example C72_hamiltonian_case : 0 < sites V2 /\ sites_ok V2 H_full /\ two_sites H_full /\ (forall i, 0 <= i < 2 * sites V2 -> snd (G_half i i) = 0%R) /\ makeham 2 H_full G_half 0 1 = (11 / 4, 3 / 4)%R.
Proof. split; [reflexivity|]. split; [exact H_full_sites|]. split; [exact H_full_two|]. split; [|exact full_ham]. intros i _. unfold G_half. now rewrite Z.eqb_refl. Qed.

(** It is Hermitian if every term of the files comes with its adjoint. *)
Theorem C72_hermitian V H G : 0 < sites V -> sites_ok V H -> two_sites H -> files_hermitian (sites V) H -> hermitian (2 * sites V) G -> hermitian (2 * sites V) (makeham (sites V) H G).
Proof. intros HN HS HT HF. exact (final_hermitian V H HN HS HT HF G). Qed.
Print Assumptions C72_hermitian.
Example C72_hermitian_case : files_hermitian (sites V2) H_full /\ hermitian (2 * sites V2) G_half /\ makeham 2 H_full G_half 1 0 = (11 / 4, - (3 / 4))%R.
Proof.
  split; [exact H_full_hermitian|]. split; [exact G_half_hermitian|].
  pose proof (C72_hermitian V2 H_full G_half ltac:(reflexivity) H_full_sites H_full_two H_full_hermitian G_half_hermitian 0 1) as E. change (sites V2) with 2 in E. rewrite E, full_ham by lia. reflexivity.
Qed.

(** Every pass delivers a determinant of the prescribed number of electrons, whatever Green functions it starts from. *)
Theorem C72_state V H Nsize zheev mix G : 0 < sites V -> diagonalises (2 * sites V) zheev -> 0 <= Nsize <= 2 * sites V ->
  let p := step (sites V) H Nsize zheev mix G in
  projector (2 * sites V) (pGreen p) /\ trace (2 * sites V) (pGreen p) = RtoC (IZR Nsize) /\ pNum p = IZR Nsize.
Proof. intros HN HZ HM. exact (step_state V H Nsize zheev HN HZ HM mix G). Qed.
Print Assumptions C72_state.
Example C72_state_case : diagonalises (2 * sites V1) zheev2 /\ 0 <= 1 <= 2 * sites V1.
Proof. split; [exact zheev2_ok|]. change (sites V1) with 1. lia. Qed.

(** Among all such determinants it has the lowest energy of independent electrons in the mean field. *)
Theorem C72_lowest V H Nsize zheev mix G P : 0 < sites V -> sites_ok V H -> two_sites H -> files_hermitian (sites V) H -> diagonalises (2 * sites V) zheev -> 0 <= Nsize <= 2 * sites V ->
  hermitian (2 * sites V) G -> projector (2 * sites V) P -> trace (2 * sites V) P = RtoC (IZR Nsize) ->
  (fst (pairing (2 * sites V) (makeham (sites V) H G) (pGreen (step (sites V) H Nsize zheev mix G))) <= fst (pairing (2 * sites V) (makeham (sites V) H G) P))%R.
Proof. intros HN HS HT HF HZ HM. exact (final_lowest V H Nsize zheev HN HS HT HF HZ HM mix G P). Qed.
Print Assumptions C72_lowest.
Definition P_down : matrix := fun i j => if (i =? 1) && (j =? 1) then RtoC 1 else RtoC 0.
Example C72_lowest_case : 0 < sites V1 /\ sites_ok V1 H_field /\ two_sites H_field /\ files_hermitian (sites V1) H_field /\ hermitian 2 G_up /\ projector 2 P_down /\ trace 2 P_down = RtoC (IZR 1) /\
  fst (pairing 2 (makeham 1 H_field G_up) P_down) = 5%R.
Proof.
  split; [reflexivity|]. split; [exact H_field_sites|]. split; [exact H_field_two|]. split; [exact H_field_hermitian|]. split; [exact G_up_hermitian|]. split; [|split].
  - split; [intros i j _ _; unfold P_down; rewrite andb_comm; destruct (_ && _); rewrite Cconj_real; reflexivity|].
    intros i j Hi Hj. unfold times_. change (zrange 0 2) with [0; 1]. destruct (one_two i Hi) as [-> | ->], (one_two j Hj) as [-> | ->]; apply injective_projections; cbn; ring.
  - unfold trace. change (zrange 0 2) with [0; 1]. apply injective_projections; cbn; ring.
  - unfold pairing. change (zrange 0 2) with [0; 1]. cbn [csum]. rewrite !field_ham by lia. cbn. ring.
Qed.

(** At a fixed point the reported energy is the energy of the determinant, and it is stationary under every rotation of the orbitals. *)
Theorem C72_fixed_point V H Nsize zheev mix G X : let N := sites V in let O := hamiltonian V H in let D := fun i j => Cminus (times_ (2 * N) G X i j) (times_ (2 * N) X G i j) in
  0 < N -> sites_ok V H -> two_sites H -> files_hermitian N H -> diagonalises (2 * N) zheev -> 0 <= Nsize <= 2 * N ->
  hermitian (2 * N) G -> (forall i j, 0 <= i < 2 * N -> 0 <= j < 2 * N -> pGreen (step N H Nsize zheev mix G) i j = G i j) ->
  pEnergy (step N H Nsize zheev mix G) = fst (mean_energy O G) /\
  (forall t, mean_energy O (plus G (scale t D)) = Cplus (mean_energy O G) (Cmult (Cmult t t) (second_order O D))).
Proof. intros N O D HN HS HT HF HZ HM. exact (final_fixed V H Nsize zheev HN HS HT HF HZ HM mix G X). Qed.
Print Assumptions C72_fixed_point.
Example C72_fixed_point_case mix : (forall i j, 0 <= i < 2 * sites V1 -> 0 <= j < 2 * sites V1 -> pGreen (step 1 H_field 1 zheev2 mix G_up) i j = G_up i j) /\ pEnergy (step 1 H_field 1 zheev2 mix G_up) = (-1)%R.
Proof. split; [|apply field_energy]. intros i j Hi Hj. change (sites V1) with 1 in *. destruct (field_fixed mix i j) as [E|E]; [exact E|lia]. Qed.

(** Before convergence the reported energy differs from that of the determinant by at most the distance of the two Green functions. *)
Theorem C72_energy V H Nsize zheev mix G : let N := sites V in let O := hamiltonian V H in let p := step N H Nsize zheev mix G in
  0 < N -> sites_ok V H -> two_sites H -> files_hermitian N H -> diagonalises (2 * N) zheev -> 0 <= Nsize <= 2 * N -> (forall i, 0 <= i < 2 * N -> snd (G i i) = 0%R) ->
  (Rabs (pEnergy p - fst (mean_energy O (pGreen p))) <= 8 * strength O * sqrt (distance2 (2 * N) G (pGreen p)))%R.
Proof. intros N O p HN HS HT HF HZ HM HG. exact (step_bound V H Nsize zheev HN HS HT HZ HM mix G (files_real V H HN HS HF) HG). Qed.
Print Assumptions C72_energy.
Example C72_energy_case : forall i, 0 <= i < 2 * sites V1 -> snd (G_up i i) = 0%R. Proof. intros i _. apply G_up_real. Qed.

(** After convergence: the determinant, its number of electrons, its energy, and the Green functions that are printed. *)
Theorem C72_converged V H Nsize zheev eps mix k G0 p : let N := sites V in let O := hamiltonian V H in
  0 < N -> sites_ok V H -> two_sites H -> files_hermitian N H -> diagonalises (2 * N) zheev -> 0 <= Nsize <= 2 * N ->
  (forall i, 0 <= i < 2 * N -> snd (G0 i i) = 0%R) -> iterate N H Nsize zheev eps mix k G0 = Some (p, true) ->
  projector (2 * N) (pGreen p) /\ trace (2 * N) (pGreen p) = RtoC (IZR Nsize) /\ pNum p = IZR Nsize /\
  (Rabs (pEnergy p - fst (mean_energy O (pGreen p))) <= 16 * IZR N ^ 2 * eps * strength O)%R /\
  (forall i j, 0 <= i < 2 * N -> 0 <= j < 2 * N -> (Cmod (Cminus (pMixed p i j) (pGreen p i j)) <= 2 * IZR N ^ 2 * eps * Rabs (1 - mix))%R).
Proof. intros N O HN HS HT HF HZ HM. exact (final_converged V H Nsize zheev HN HS HT HF HZ HM eps mix k G0 p). Qed.
Print Assumptions C72_converged.
Example C72_converged_case : exists p, iterate 1 H_field 1 zheev2 (/ 1000) (7 / 10) 100 G_up = Some (p, true).
Proof. exact field_loop. Qed.

(** The first Green functions: small random numbers, or the rows of the file, a later one overriding an earlier one, and zero elsewhere. *)
Theorem C72_initial Ns NI Initial ParaInitial rand i j :
  ((0 <= rand i j < 1)%R -> NI = 0 -> snd (initial Ns NI Initial ParaInitial rand i j) = 0%R /\ (Rabs (fst (initial Ns NI Initial ParaInitial rand i j)) <= / 200)%R) /\
  (forall k, 0 <= k < NI -> i = Initial k 0 + Initial k 1 * Ns -> j = Initial k 2 + Initial k 3 * Ns ->
    (forall l, k < l < NI -> ~ (i = Initial l 0 + Initial l 1 * Ns /\ j = Initial l 2 + Initial l 3 * Ns)) -> initial Ns NI Initial ParaInitial rand i j = ParaInitial k) /\
  (0 < NI -> (forall l, 0 <= l < NI -> ~ (i = Initial l 0 + Initial l 1 * Ns /\ j = Initial l 2 + Initial l 3 * Ns)) -> initial Ns NI Initial ParaInitial rand i j = RtoC 0).
Proof. split; [intros Hr ->; now apply initial_random|]. split; [intros k; exact (initial_given Ns NI Initial ParaInitial rand k i j)|exact (initial_unlisted Ns NI Initial ParaInitial rand i j)]. Qed.
Print Assumptions C72_initial.
Example C72_initial_case : initial 2 2 (fun k c => if c =? 0 then 1 else if c =? 2 then 1 else 0) (fun k => RtoC (IZR k)) (fun _ _ => 0%R) 1 1 = RtoC 1.
Proof. apply (initial_given 2 2 _ (fun k => RtoC (IZR k)) _ 1); try reflexivity; lia. Qed.
(** A row of CoulombInter (or of Hund) with twice the same site, which the reader accepts, loses its one-body part. *)
Theorem C72_same_site_refuted : exists V H G D, let N := sites V in let O := hamiltonian V H in
  0 < N /\ sites_ok V H /\ (forall i, 0 <= i < 2 * N -> snd (G i i) = 0%R) /\
  mean_energy O (plus G (scale (RtoC 1) D)) <> Cplus (Cplus (mean_energy O G) (pairing (2 * N) (makeham N H G) D)) (second_order O D).
Proof.
  exists V2, H_same, (fun _ _ => RtoC 0), D_one. split; [reflexivity|]. split; [exact H_same_sites|]. split; [reflexivity|].
  destruct same_site as (E1 & E2). change (sites V2) with 2. change (2 * 2) with 4. rewrite E1, E2. intros E. injection E. lra.
Qed.
Print Assumptions C72_same_site_refuted.
