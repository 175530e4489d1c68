(** Determinants: projectors made of orthonormal orbitals, and their lowest band energy. *)
From Coq Require Import ZArith List Bool Lia Reals Lra.
From Coquelicot Require Import Complex.
From Verif Require Import Base.ZLoop Base.RSum Pf.Pfaffian Pf.Spec Uhf.Model Uhf.Spec Uhf.Rows Uhf.Proofs.
Import ListNotations.
Local Open Scope Z_scope.

Lemma norm_sum {A} (l : list A) (f : A -> C) : csum l (fun x => Cmult (f x) (Cconj (f x))) = RtoC (rsum l (fun x => (Cmod (f x) ^ 2)%R)).
Proof.
  induction l as [|x l IH]; cbn [csum rsum]; [reflexivity|]. rewrite IH, RtoC_plus. f_equal. unfold Cmod. replace (sqrt (fst (f x) ^ 2 + snd (f x) ^ 2) ^ 2)%R with (fst (f x) ^ 2 + snd (f x) ^ 2)%R; [complex|].
  symmetry. apply pow2_sqrt. nra.
Qed.
Lemma rsum_each (l : list Z) f : (forall x, In x l -> (0 <= f x)%R) -> forall i, In i l -> (f i <= rsum l f)%R.
Proof.
  induction l as [|x l IH]; intros P i I; [destruct I|]. cbn [rsum]. destruct I as [<-|I].
  - assert (0 <= rsum l f)%R by (apply rsum_nonneg; intros; apply P; now right). lra.
  - assert (f i <= rsum l f)%R by (apply IH; [intros; apply P; now right|exact I]). assert (0 <= f x)%R by (apply P; now left). lra.
Qed.
Lemma zrange_len n : 0 <= n -> INR (length (zrange 0 n)) = IZR n.
Proof. intros Hn. rewrite zrange_length by lia. rewrite INR_IZR_INZ, Z2Nat.id by lia. f_equal; lia. Qed.

(** a projector has entries bounded by 1 *)
Section Projector.
Variables (n : Z) (G : matrix).
Hypothesis P : projector n G.
Lemma row_norm i : 0 <= i < n -> G i i = RtoC (rsum (zrange 0 n) (fun j => (Cmod (G i j) ^ 2)%R)).
Proof.
  intros Hi. destruct P as (PH & PP). rewrite <- (PP i i Hi Hi) at 1. unfold times_. rewrite <- norm_sum. apply csum_ext. intros j Hj. apply zrange_in in Hj. now rewrite (PH i j) by assumption.
Qed.
Lemma entry_square i j : 0 <= i < n -> 0 <= j < n -> (Cmod (G i j) ^ 2 <= fst (G i i) <= 1)%R.
Proof.
  intros Hi Hj. assert (R0 : forall j, 0 <= j < n -> (Cmod (G i j) ^ 2 <= fst (G i i))%R).
  { intros k Hk. rewrite (row_norm i Hi). cbn [fst RtoC]. apply (rsum_each (zrange 0 n) (fun j => (Cmod (G i j) ^ 2)%R)); [intros; apply pow2_ge_0|now apply zrange_in]. }
  split; [now apply R0|]. pose proof (R0 i Hi) as Q. rewrite (row_norm i Hi) in Q at 1. pose proof (row_norm i Hi) as E. set (s := rsum (zrange 0 n) (fun j0 => (Cmod (G i j0) ^ 2)%R)) in *.
  rewrite E in *. rewrite Cmod_R in Q. cbn [fst RtoC] in *. rewrite pow2_abs in Q. nra.
Qed.
Lemma entry_bound i j : 0 <= i < n -> 0 <= j < n -> (Cmod (G i j) <= 1)%R.
Proof. intros Hi Hj. pose proof (entry_square i j Hi Hj). pose proof (Cmod_ge_0 (G i j)). nra. Qed.
Lemma zero_trace : trace n G = RtoC 0 -> forall i j, 0 <= i < n -> 0 <= j < n -> G i j = RtoC 0.
Proof.
  intros T i j Hi Hj. assert (E : rsum (zrange 0 n) (fun i => fst (G i i)) = 0%R) by (rewrite <- csum_re; unfold trace in T; rewrite T; reflexivity).
  assert (Hpos : forall k, In k (zrange 0 n) -> (0 <= fst (G k k))%R) by (intros k Hk; apply zrange_in in Hk; pose proof (entry_square k k Hk Hk); pose proof (pow2_ge_0 (Cmod (G k k))); lra).
  pose proof (rsum_each (zrange 0 n) (fun i => fst (G i i)) Hpos i ltac:(now apply zrange_in)) as L. cbv beta in L. rewrite E in L.
  pose proof (entry_square i j Hi Hj) as Q. apply Cmod_eq_0. pose proof (Cmod_ge_0 (G i j)). nra.
Qed.
(** occupation of an orbital *)
Lemma occupation (x : Z -> C) : csum (zrange 0 n) (fun i => csum (zrange 0 n) (fun j => Cmult (Cmult (x i) (Cconj (x j))) (G i j))) =
  RtoC (rsum (zrange 0 n) (fun m => (Cmod (csum (zrange 0 n) (fun i => Cmult (x i) (Cconj (G m i)))) ^ 2)%R)).
Proof.
  rewrite <- norm_sum. destruct P as (PH & PP).
  transitivity (csum (zrange 0 n) (fun i => csum (zrange 0 n) (fun j => csum (zrange 0 n) (fun m => Cmult (Cmult (x i) (Cconj (G m i))) (Cmult (Cconj (x j)) (G m j)))))).
  { apply csum_ext. intros i Hi. apply csum_ext. intros j Hj. apply zrange_in in Hi. apply zrange_in in Hj. rewrite <- (PP i j Hi Hj). unfold times_. rewrite <- csum_scal.
    apply csum_ext. intros m Hm. apply zrange_in in Hm. rewrite (PH m i) by assumption. ring. }
  transitivity (csum (zrange 0 n) (fun m => csum (zrange 0 n) (fun i => csum (zrange 0 n) (fun j => Cmult (Cmult (x i) (Cconj (G m i))) (Cmult (Cconj (x j)) (G m j)))))).
  { rewrite csum_swap. symmetry. rewrite csum_swap. rewrite csum_swap. transitivity (csum (zrange 0 n) (fun i => csum (zrange 0 n) (fun m => csum (zrange 0 n) (fun j => Cmult (Cmult (x i) (Cconj (G m i))) (Cmult (Cconj (x j)) (G m j)))))); [apply csum_swap|].
    symmetry. rewrite csum_swap. apply csum_ext. intros i _. apply csum_swap. }
  apply csum_ext. intros m _. rewrite csum_conj, <- csum_scal_r. apply csum_ext. intros i _. rewrite csum_scal. f_equal. apply csum_ext. intros j _. rewrite Cconj_mult, Cconj_conj. ring.
Qed.
End Projector.
Lemma complement n G : projector n G -> projector n (fun i j => Cminus (kron i j) (G i j)).
Proof.
  intros (PH & PP). split.
  - intros i j Hi Hj. rewrite (PH i j Hi Hj), Cconj_minus, kron_conj, (kron_swap j i). reflexivity.
  - intros i j Hi Hj. unfold times_.
    transitivity (Cminus (Cminus (csum (zrange 0 n) (fun k => Cmult (kron i k) (kron k j))) (csum (zrange 0 n) (fun k => Cmult (kron i k) (G k j))))
      (Cminus (csum (zrange 0 n) (fun k => Cmult (kron j k) (G i k))) (csum (zrange 0 n) (fun k => Cmult (G i k) (G k j))))).
    { rewrite <- !csum_sub. apply csum_ext. intros k _. rewrite (kron_swap j k). ring. }
    rewrite !csum_kronecker by assumption. change (csum (zrange 0 n) (fun k => Cmult (G i k) (G k j))) with (times_ n G G i j). rewrite PP by assumption. ring.
Qed.

(** orthonormal orbitals *)
Section Orbitals.
Variables (n : Z) (v : Z -> Z -> C).
Hypothesis Hn : 0 <= n.
Hypothesis HO : forall k l, 0 <= k < n -> 0 <= l < n -> csum (zrange 0 n) (fun i => Cmult (Cconj (v k i)) (v l i)) = kron k l.
Definition filled (m : Z) : matrix := fun i j => csum (zrange 0 m) (fun k => Cmult (Cconj (v k i)) (v k j)).
Lemma filled_projector m : m <= n -> projector n (filled m).
Proof.
  intros Hm. split.
  - intros i j _ _. unfold filled. rewrite csum_conj. apply csum_ext. intros k _. rewrite Cconj_mult, Cconj_conj. ring.
  - intros i j Hi Hj. unfold times_, filled.
    transitivity (csum (zrange 0 n) (fun x => csum (zrange 0 m) (fun k => csum (zrange 0 m) (fun l => Cmult (Cmult (Cconj (v k i)) (v l j)) (Cmult (Cconj (v l x)) (v k x)))))).
    { apply csum_ext. intros x _. rewrite <- csum_scal_r. apply csum_ext. intros k _. rewrite <- csum_scal. apply csum_ext. intros l _. ring. }
    rewrite csum_swap. apply csum_ext. intros k Hk. apply zrange_in in Hk. rewrite csum_swap.
    transitivity (csum (zrange 0 m) (fun l => Cmult (kron k l) (Cmult (Cconj (v k i)) (v l j)))).
    { apply csum_ext. intros l Hl. apply zrange_in in Hl. rewrite csum_scal, HO by lia. rewrite (kron_swap l k). ring. }
    rewrite csum_kronecker by lia. reflexivity.
Qed.
Lemma filled_trace m : 0 <= m <= n -> trace n (filled m) = RtoC (IZR m).
Proof.
  intros Hm. unfold trace, filled. rewrite csum_swap. transitivity (csum (zrange 0 m) (fun _ => RtoC 1)).
  - apply csum_ext. intros k Hk. apply zrange_in in Hk. rewrite HO by lia. unfold kron. now rewrite Z.eqb_refl.
  - apply injective_projections; [rewrite csum_re|rewrite csum_im]; cbn [fst snd RtoC]; [rewrite rsum_const, zrange_len by lia; lra|apply rsum_zero; reflexivity].
Qed.
Lemma complete i j : 0 <= i < n -> 0 <= j < n -> filled n i j = kron i j.
Proof.
  intros Hi Hj. assert (Z0 : Cminus (kron i j) (filled n i j) = RtoC 0).
  { apply (zero_trace n _ (complement n _ (filled_projector n (Z.le_refl n)))); try assumption. unfold trace. rewrite csum_sub. fold (trace n (filled n)). rewrite filled_trace by lia.
    transitivity (Cminus (csum (zrange 0 n) (fun _ => RtoC 1)) (RtoC (IZR n))); [f_equal; apply csum_ext; intros k _; unfold kron; now rewrite Z.eqb_refl|].
    apply injective_projections; cbn [fst snd RtoC Cminus Cplus Copp]; [rewrite csum_re|rewrite csum_im]; cbn [fst snd RtoC]; [rewrite rsum_const, zrange_len by lia; lra|rewrite rsum_zero by reflexivity; lra]. }
  apply (f_equal (fun z => Cminus (kron i j) z)) in Z0. replace (Cminus (kron i j) (RtoC 0)) with (kron i j) in Z0 by ring. rewrite <- Z0. ring.
Qed.

(** eigenvectors *)
Variables (A : matrix) (w : Z -> R).
Hypothesis HE : forall k i, 0 <= k < n -> 0 <= i < n -> csum (zrange 0 n) (fun j => Cmult (A i j) (v k j)) = Cmult (RtoC (w k)) (v k i).
Lemma band m : m <= n -> pairing n A (filled m) = RtoC (rsum (zrange 0 m) w).
Proof.
  intros Hm. unfold pairing, filled.
  transitivity (csum (zrange 0 m) (fun k => csum (zrange 0 n) (fun i => Cmult (Cconj (v k i)) (csum (zrange 0 n) (fun j => Cmult (A i j) (v k j)))))).
  { transitivity (csum (zrange 0 n) (fun i => csum (zrange 0 m) (fun k => Cmult (Cconj (v k i)) (csum (zrange 0 n) (fun j => Cmult (A i j) (v k j)))))); [|apply csum_swap].
    apply csum_ext. intros i _. transitivity (csum (zrange 0 n) (fun j => csum (zrange 0 m) (fun k => Cmult (Cconj (v k i)) (Cmult (A i j) (v k j))))).
    - apply csum_ext. intros j _. rewrite <- csum_scal. apply csum_ext. intros k _. ring.
    - rewrite csum_swap. apply csum_ext. intros k _. now rewrite csum_scal. }
  transitivity (csum (zrange 0 m) (fun k => RtoC (w k))).
  - apply csum_ext. intros k Hk. apply zrange_in in Hk. transitivity (csum (zrange 0 n) (fun i => Cmult (RtoC (w k)) (Cmult (Cconj (v k i)) (v k i)))).
    + apply csum_ext. intros i Hi. apply zrange_in in Hi. rewrite HE by lia. ring.
    + rewrite csum_scal, HO by lia. unfold kron. rewrite Z.eqb_refl. ring.
  - apply injective_projections; [rewrite csum_re|rewrite csum_im]; cbn [fst snd RtoC]; [reflexivity|apply rsum_zero; reflexivity].
Qed.
Lemma spectral i j : 0 <= i < n -> 0 <= j < n -> A i j = csum (zrange 0 n) (fun k => Cmult (RtoC (w k)) (Cmult (v k i) (Cconj (v k j)))).
Proof.
  intros Hi Hj. transitivity (csum (zrange 0 n) (fun m => Cmult (filled n j m) (A i m))).
  - rewrite <- (csum_kronecker n j (fun m => A i m) Hj). apply csum_ext. intros m Hm. apply zrange_in in Hm. now rewrite complete by assumption.
  - transitivity (csum (zrange 0 n) (fun m => csum (zrange 0 n) (fun k => Cmult (Cconj (v k j)) (Cmult (A i m) (v k m))))).
    + apply csum_ext. intros m _. unfold filled. rewrite <- csum_scal_r. apply csum_ext. intros k _. ring.
    + rewrite csum_swap. apply csum_ext. intros k Hk. apply zrange_in in Hk. rewrite csum_scal, HE by assumption. ring.
Qed.
(** the filled determinant has the lowest band energy *)
Hypothesis HW : forall k l, 0 <= k <= l -> l < n -> (w k <= w l)%R.
Lemma lowest m P : 0 <= m <= n -> projector n P -> trace n P = RtoC (IZR m) -> (fst (pairing n A (filled m)) <= fst (pairing n A P))%R.
Proof.
  intros Hm HP HT. rewrite band by lia. cbn [fst RtoC].
  set (p := fun k => rsum (zrange 0 n) (fun x => (Cmod (csum (zrange 0 n) (fun i => Cmult (v k i) (Cconj (P x i)))) ^ 2)%R)).
  assert (Ep : forall k, csum (zrange 0 n) (fun i => csum (zrange 0 n) (fun j => Cmult (Cmult (v k i) (Cconj (v k j))) (P i j))) = RtoC (p k)) by (intros k; apply occupation; exact HP).
  assert (E1 : pairing n A P = RtoC (rsum (zrange 0 n) (fun k => (w k * p k)%R))).
  { unfold pairing. transitivity (csum (zrange 0 n) (fun k => Cmult (RtoC (w k)) (RtoC (p k)))).
    - transitivity (csum (zrange 0 n) (fun i => csum (zrange 0 n) (fun j => csum (zrange 0 n) (fun k => Cmult (RtoC (w k)) (Cmult (Cmult (v k i) (Cconj (v k j))) (P i j)))))).
      + apply csum_ext. intros i Hi. apply csum_ext. intros j Hj. apply zrange_in in Hi. apply zrange_in in Hj. rewrite (spectral i j) by assumption. rewrite <- csum_scal_r. apply csum_ext. intros k _. ring.
      + transitivity (csum (zrange 0 n) (fun i => csum (zrange 0 n) (fun k => csum (zrange 0 n) (fun j => Cmult (RtoC (w k)) (Cmult (Cmult (v k i) (Cconj (v k j))) (P i j)))))); [apply csum_ext; intros i _; apply csum_swap|].
        rewrite csum_swap. apply csum_ext. intros k _. rewrite <- Ep, <- csum_scal. apply csum_ext. intros i _. now rewrite <- csum_scal.
    - apply injective_projections; [rewrite csum_re|rewrite csum_im]; cbn [fst snd RtoC Cmult]; [apply rsum_ext; intros; lra|apply rsum_zero; intros; lra]. }
  assert (E2 : rsum (zrange 0 n) p = IZR m).
  { assert (T : csum (zrange 0 n) (fun k => RtoC (p k)) = trace n P).
    { transitivity (csum (zrange 0 n) (fun i => csum (zrange 0 n) (fun j => Cmult (kron i j) (P i j)))).
      - transitivity (csum (zrange 0 n) (fun i => csum (zrange 0 n) (fun j => csum (zrange 0 n) (fun k => Cmult (Cmult (v k i) (Cconj (v k j))) (P i j))))).
        + transitivity (csum (zrange 0 n) (fun i => csum (zrange 0 n) (fun k => csum (zrange 0 n) (fun j => Cmult (Cmult (v k i) (Cconj (v k j))) (P i j))))); [|apply csum_ext; intros i _; apply csum_swap].
          rewrite csum_swap. apply csum_ext. intros k _. now rewrite <- Ep.
        + apply csum_ext. intros i Hi. apply csum_ext. intros j Hj. apply zrange_in in Hi. apply zrange_in in Hj. rewrite (kron_swap i j), <- complete by assumption. unfold filled. rewrite <- csum_scal_r. apply csum_ext. intros k _. ring.
      - apply csum_ext. intros i Hi. apply zrange_in in Hi. now rewrite csum_kronecker. }
    rewrite HT in T. apply (f_equal fst) in T. rewrite csum_re in T. cbn [fst RtoC] in T. exact T. }
  assert (P0 : forall k, (0 <= p k)%R) by (intros k; apply rsum_nonneg; intros; apply pow2_ge_0).
  assert (P1 : forall k, 0 <= k < n -> (p k <= 1)%R).
  { intros k Hk. pose proof (occupation n _ (complement n P HP) (v k)) as Q. set (q := rsum _ _) in Q. assert (0 <= q)%R by (apply rsum_nonneg; intros; apply pow2_ge_0).
    assert (E : csum (zrange 0 n) (fun i => csum (zrange 0 n) (fun j => Cmult (Cmult (v k i) (Cconj (v k j))) (Cminus (kron i j) (P i j)))) = Cminus (RtoC 1) (RtoC (p k))).
    { rewrite <- Ep. transitivity (csum (zrange 0 n) (fun i => Cminus (Cmult (Cconj (v k i)) (v k i)) (csum (zrange 0 n) (fun j => Cmult (Cmult (v k i) (Cconj (v k j))) (P i j))))).
      - apply csum_ext. intros i Hi. apply zrange_in in Hi. transitivity (Cminus (csum (zrange 0 n) (fun j => Cmult (kron i j) (Cmult (v k i) (Cconj (v k j))))) (csum (zrange 0 n) (fun j => Cmult (Cmult (v k i) (Cconj (v k j))) (P i j)))); [rewrite <- csum_sub; apply csum_ext; intros; ring|].
        rewrite csum_kronecker by assumption. f_equal. ring.
      - rewrite csum_sub, HO by assumption. unfold kron. now rewrite Z.eqb_refl. }
    pose proof (eq_trans (eq_sym E) Q) as Q'. apply (f_equal fst) in Q'. cbn in Q'. lra. }
  rewrite E1. cbn [fst RtoC]. assert (ES : forall f, rsum (zrange 0 n) f = (rsum (zrange 0 m) f + rsum (zrange m n) f)%R) by (intros f; rewrite <- rsum_app, <- zrange_app by lia; reflexivity).
  set (mu := if m =? 0 then w 0 else w (m - 1)).
  assert (L : (rsum (zrange 0 m) (fun k => (w k + mu * (p k - 1))%R) <= rsum (zrange 0 m) (fun k => (w k * p k)%R))%R).
  { apply rsum_le. intros k Hk. apply zrange_in in Hk. unfold mu. destruct (Z.eqb_spec m 0); [lia|]. pose proof (P1 k ltac:(lia)). pose proof (HW k (m - 1) ltac:(lia) ltac:(lia)). nra. }
  assert (U : (rsum (zrange m n) (fun k => (mu * p k)%R) <= rsum (zrange m n) (fun k => (w k * p k)%R))%R).
  { apply rsum_le. intros k Hk. apply zrange_in in Hk. pose proof (P0 k). unfold mu. destruct (Z.eqb_spec m 0); [pose proof (HW 0 k ltac:(lia) ltac:(lia))|pose proof (HW (m - 1) k ltac:(lia) ltac:(lia))]; nra. }
  rewrite rsum_add, rsum_scal, rsum_sub, rsum_const, zrange_len in L by lia. rewrite rsum_scal in U. rewrite ES in E2. rewrite (ES (fun k => (w k * p k)%R)). nra.
Qed.
End Orbitals.
