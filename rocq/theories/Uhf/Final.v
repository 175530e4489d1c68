(** The claims about the whole calculation, for files in which every term comes with its adjoint. *)
From Coq Require Import ZArith List Bool Lia Reals Lra Permutation.
From Coquelicot Require Import Complex.
From Verif Require Import Base.ZLoop Base.RSum Pf.Pfaffian Pf.Spec Green.Spec Green.Cases Ham.Model Ham.Spec Uhf.Model Uhf.Spec Uhf.Rows Uhf.Proofs Uhf.State Uhf.Pass Uhf.Adjoint.
Import ListNotations.
Local Open Scope Z_scope.
Section Final.
Variables (V : wave) (H : terms) (Nsize : Z) (zheev : Z -> (Z -> C) -> (Z -> R) * (Z -> C)).
Notation N := (sites V).
Notation n := (2 * N).
Notation O := (hamiltonian V H).
Hypothesis HN : 0 < N.
Hypothesis HS : sites_ok V H.
Hypothesis HT : two_sites H.
Hypothesis HF : files_hermitian N H.
Hypothesis HZ : diagonalises n zheev.
Hypothesis HM : 0 <= Nsize <= n.
Let HR := files_real V H HN HS HF.
Lemma final_hermitian G : hermitian n G -> hermitian n (makeham N H G).
Proof. now apply ham_hermitian. Qed.
Lemma final_lowest mix G P : hermitian n G -> projector n P -> trace n P = RtoC (IZR Nsize) ->
  (fst (pairing n (makeham N H G) (pGreen (step N H Nsize zheev mix G))) <= fst (pairing n (makeham N H G) P))%R.
Proof.
  intros HG HP HP'. rewrite !(pairing_ext n (makeham N H G) (from_upper (makeham N H G))) by (intros; symmetry; apply (from_upper_same n); [now apply final_hermitian|assumption..]).
  now apply step_lowest.
Qed.
Lemma final_fixed mix G X : hermitian n G -> (forall i j, 0 <= i < n -> 0 <= j < n -> pGreen (step N H Nsize zheev mix G) i j = G i j) ->
  pEnergy (step N H Nsize zheev mix G) = fst (mean_energy O G) /\
  (forall t, mean_energy O (plus G (scale t (fun i j => Cminus (times_ n G X i j) (times_ n X G i j)))) =
     Cplus (mean_energy O G) (Cmult (Cmult t t) (second_order O (fun i j => Cminus (times_ n G X i j) (times_ n X G i j))))).
Proof.
  intros HG HP. split.
  - assert (B := step_bound V H Nsize zheev HN HS HT HZ HM mix G HR (hermitian_diag V G HG)). cbv zeta in B.
    assert (D : distance2 n G (pGreen (step N H Nsize zheev mix G)) = 0%R).
    { apply rsum_zero. intros i Hi. apply rsum_zero. intros j Hj. apply zrange_in in Hi. apply zrange_in in Hj. rewrite HP by assumption. replace (Cminus (G i j) (G i j)) with (RtoC 0) by ring. rewrite Cmod_0. ring. }
    rewrite D, sqrt_0, Rmult_0_r in B. assert (E : mean_energy O (pGreen (step N H Nsize zheev mix G)) = mean_energy O G).
    { apply csum_ext. intros (c, ops) I. pose proof (strings_in_range V H HN HS _ I) as HI. cbn [fst snd] in *. f_equal. destruct ops as [|(a, b) [|(c', d) [|? ?]]]; cbn [wick]; try reflexivity.
      - destruct (HI a b ltac:(now left)). now apply HP.
      - destruct (HI a b ltac:(now left)). destruct (HI c' d ltac:(right; now left)). now rewrite !HP. }
    rewrite E in B. set (x := pEnergy _) in *. set (y := fst _) in *. pose proof (Rabs_pos (x - y)). destruct (Req_dec x y) as [->|D']; [reflexivity|]. pose proof (Rabs_pos_lt (x - y)). assert (x - y <> 0)%R by lra. lra.
  - intros t. rewrite (ham_derivative V H HN HS HT G _ t (hermitian_diag V G HG)), (stationary V H Nsize zheev HN HS HT HZ HM mix G X HR HG HP). ring.
Qed.
Lemma final_converged eps mix k G0 p : (forall i, 0 <= i < n -> snd (G0 i i) = 0%R) -> iterate N H Nsize zheev eps mix k G0 = Some (p, true) ->
  projector n (pGreen p) /\ trace n (pGreen p) = RtoC (IZR Nsize) /\ pNum p = IZR Nsize /\
  (Rabs (pEnergy p - fst (mean_energy O (pGreen p))) <= 16 * IZR N ^ 2 * eps * strength O)%R /\
  (forall i j, 0 <= i < n -> 0 <= j < n -> (Cmod (Cminus (pMixed p i j) (pGreen p i j)) <= 2 * IZR N ^ 2 * eps * Rabs (1 - mix))%R).
Proof.
  intros HG E. destruct (iterate_energy V H Nsize zheev HN HS HT HZ HM eps mix k G0 p HR HG E) as (A & B & C' & D). repeat (split; [assumption|]).
  destruct (iterate_last V H Nsize zheev HN HZ HM eps mix k G0 p true HG E) as (G & _ & -> & (L & _)). specialize (L eq_refl). intros i j Hi Hj. rewrite mixed_is.
  rewrite (rest_is V H Nsize zheev HN) in L. set (Gn := pGreen _) in *.
  replace (Cminus (Cplus (Cmult (RtoC (1 - mix)) (G i j)) (Cmult (RtoC mix) (Gn i j))) (Gn i j)) with (Cmult (RtoC (1 - mix)) (Cminus (G i j) (Gn i j))) by (rewrite RtoC_minus; ring).
  rewrite Cmod_mult, Cmod_R. pose proof (distance_entry n G Gn i j Hi Hj) as DE. set (s := sqrt _) in *.
  assert (0 < IZR N)%R by (now apply IZR_lt). assert (s <= 2 * IZR N ^ 2 * eps)%R.
  { apply (Rmult_lt_compat_r (2 * IZR N * IZR N)) in L; [|nra]. replace (s / (2 * IZR N * IZR N) * (2 * IZR N * IZR N))%R with s in L by (field; lra). lra. }
  pose proof (Rabs_pos (1 - mix)). nra.
Qed.
End Final.

(** ** the first Green functions *)
Lemma initial_random Ns Initial ParaInitial rand i j : (0 <= rand i j < 1)%R ->
  snd (initial Ns 0 Initial ParaInitial rand i j) = 0%R /\ (Rabs (fst (initial Ns 0 Initial ParaInitial rand i j)) <= / 200)%R.
Proof. intros Hr. unfold initial. rewrite loop_nil by lia. cbn. split; [reflexivity|]. apply Rabs_le. lra. Qed.
Lemma initial_given Ns NI Initial ParaInitial rand k i j : 0 <= k < NI -> i = Initial k 0 + Initial k 1 * Ns -> j = Initial k 2 + Initial k 3 * Ns ->
  (forall l, k < l < NI -> ~ (i = Initial l 0 + Initial l 1 * Ns /\ j = Initial l 2 + Initial l 3 * Ns)) ->
  initial Ns NI Initial ParaInitial rand i j = ParaInitial k.
Proof.
  intros Hk Ei Ej Later. unfold initial. destruct (Z.eqb_spec NI 0); [lia|].
  set (P := fun m (G : matrix) => k < m -> G i j = ParaInitial k). match goal with |- loop 0 NI ?f ?z i j = _ => assert (Q : P NI (loop 0 NI f z)); [|apply Q; lia] end.
  apply (loop_inv P); [lia|unfold P; intros; lia|]. unfold P. intros m G Hm HP Hkm. cbv beta zeta. destruct (Z.eq_dec m k) as [->|D]; [rewrite <- Ei, <- Ej, !Z.eqb_refl; reflexivity|].
  destruct (Z.eqb_spec i (Initial m 0 + Initial m 1 * Ns)) as [E1|]; [destruct (Z.eqb_spec j (Initial m 2 + Initial m 3 * Ns)) as [E2|]|]; cbn [andb]; [exfalso; apply (Later m); [lia|now split]|apply HP; lia|apply HP; lia].
Qed.
Lemma initial_unlisted Ns NI Initial ParaInitial rand i j : 0 < NI -> (forall l, 0 <= l < NI -> ~ (i = Initial l 0 + Initial l 1 * Ns /\ j = Initial l 2 + Initial l 3 * Ns)) ->
  initial Ns NI Initial ParaInitial rand i j = RtoC 0.
Proof.
  intros HNI No. unfold initial. destruct (Z.eqb_spec NI 0); [lia|]. set (P := fun (m : Z) (G : matrix) => G i j = RtoC 0). match goal with |- loop 0 NI ?f ?z i j = _ => assert (Q : P NI (loop 0 NI f z)); [|exact Q] end.
  apply (loop_inv P); [lia|reflexivity|]. intros m G Hm HP. unfold P in *. cbv zeta. destruct (Z.eqb_spec i (Initial m 0 + Initial m 1 * Ns)) as [E1|]; [destruct (Z.eqb_spec j (Initial m 2 + Initial m 3 * Ns)) as [E2|]|]; cbn [andb]; try exact HP.
  exfalso. now apply (No m).
Qed.

(** ** a site repelling itself *)
Definition H_same : terms := Terms 0 (fun _ => 0) (fun _ => 0%R) 1 (fun _ _ => 0) (fun _ => 1%R) 0 (fun _ _ => 0) (fun _ => 0%R) 0 (fun _ _ => 0) (fun _ => RtoC 0) 0 (fun _ _ => 0) (fun _ => 0%R) 0 (fun _ _ => 0) (fun _ => 0%R) 0 (fun _ _ => 0) (fun _ => RtoC 0).
Lemma H_same_sites : sites_ok V2 H_same.
Proof. constructor; cbn; intros k Hk; unfold site, spin; change (sites V2) with 2; lia. Qed.
Definition D_one : matrix := fun i j => if (i =? 0) && (j =? 0) then RtoC 1 else RtoC 0.
Lemma same_site : let O := hamiltonian V2 H_same in let G := fun _ _ => RtoC 0 in
  mean_energy O (plus G (scale (RtoC 1) D_one)) = RtoC 1 /\ Cplus (Cplus (mean_energy O G) (pairing 4 (makeham 2 H_same G) D_one)) (second_order O D_one) = RtoC 0.
Proof.
  cbv zeta. unfold hamiltonian, diagonal, hopping. cbn [H_same NIntra NInter NHund NTransfer NPair NExchange NInterAll]. change (zrange 0 0) with (@nil Z). change (zrange 0 1) with [0]. cbn [flat_map app]. rewrite !app_nil_r.
  split; [apply injective_projections; cbn; lra|]. unfold pairing, makeham. cbn [H_same NIntra NInter NHund NTransfer NPair NExchange NInterAll]. unfold loop. change (zrange 0 0) with (@nil Z). change (zrange 0 1) with [0]. change (zrange 0 4) with [0; 1; 2; 3].
  apply injective_projections; cbn; lra.
Qed.
