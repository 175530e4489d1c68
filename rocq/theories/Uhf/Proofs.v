(** One pass of the Hartree-Fock loop: the state, its energy, and the effect of the residue. *)
From Coq Require Import ZArith List Bool Lia Reals Lra Permutation.
From Coquelicot Require Import Complex.
From Verif Require Import Base.ZLoop Base.RSum Pf.Pfaffian Pf.Spec Green.Spec Ham.Model Ham.Spec Uhf.Model Uhf.Spec Uhf.Rows.
Import ListNotations.
Local Open Scope Z_scope.

Ltac complex := apply (f_equal2 (@pair R R)); cbn; ring.
Lemma Cconj_mult a b : Cconj (Cmult a b) = Cmult (Cconj a) (Cconj b). Proof. complex. Qed.
Lemma Cconj_plus a b : Cconj (Cplus a b) = Cplus (Cconj a) (Cconj b). Proof. complex. Qed.
Lemma Cconj_minus a b : Cconj (Cminus a b) = Cminus (Cconj a) (Cconj b). Proof. complex. Qed.
Lemma Cconj_conj a : Cconj (Cconj a) = a. Proof. destruct a. complex. Qed.
Lemma Cconj_real x : Cconj (RtoC x) = RtoC x. Proof. complex. Qed.
Lemma kron_conj a b : Cconj (kron a b) = kron a b. Proof. unfold kron. destruct (a =? b); apply Cconj_real. Qed.
Lemma real_conj z : Cconj z = z -> snd z = 0%R. Proof. destruct z. cbn. intros E. injection E. lra. Qed.
Lemma kron_swap a b : kron a b = kron b a. Proof. unfold kron. now rewrite Z.eqb_sym. Qed.
Lemma csum_kronecker n i (f : Z -> C) : 0 <= i < n -> csum (zrange 0 n) (fun k => Cmult (kron i k) (f k)) = f i.
Proof. intros Hi. rewrite <- (csum_one n i f Hi). apply csum_ext. intros k _. unfold kron. rewrite Z.eqb_sym. destruct (k =? i); ring. Qed.

Lemma pairing_comm n A D : pairing n A D = pairing n D A.
Proof. apply csum_ext. intros i _. apply csum_ext. intros j _. ring. Qed.
Lemma pairing_ext n A A' D : (forall i j, 0 <= i < n -> 0 <= j < n -> A i j = A' i j) -> pairing n A D = pairing n A' D.
Proof. intros E. apply csum_ext. intros i Hi. apply csum_ext. intros j Hj. apply zrange_in in Hi. apply zrange_in in Hj. now rewrite E. Qed.

Section Operators.
Variables (V : wave) (H : terms).
Notation N := (sites V).
Notation n := (2 * N).
Notation O := (hamiltonian V H).
Hypothesis HN : 0 < N.
Hypothesis HS : sites_ok V H.
Hypothesis HT : two_sites H.

Lemma hermitian_diag G : hermitian n G -> forall i, 0 <= i < n -> snd (G i i) = 0%R.
Proof. intros HG i Hi. apply real_conj. symmetry. now apply HG. Qed.
Lemma ham_derivative G D t : (forall i, 0 <= i < n -> snd (G i i) = 0%R) ->
  mean_energy O (plus G (scale t D)) = Cplus (Cplus (mean_energy O G) (Cmult t (pairing n (makeham N H G) D))) (Cmult (Cmult t t) (second_order O D)).
Proof. intros HG. exact (makeham_derivative V H G D HN HS HG HT t). Qed.

(** ** the one-particle matrix is Hermitian *)
Definition unit2 (i j : Z) (x y : C) : matrix := add (add (fun _ _ => RtoC 0) (i, j, x)) (j, i, y).
Lemma unit2_pairing A i j x y : 0 <= i < n -> 0 <= j < n -> pairing n A (unit2 i j x y) = Cplus (Cmult x (A i j)) (Cmult y (A j i)).
Proof.
  intros Hi Hj. rewrite pairing_comm. unfold unit2. rewrite !pairing_add by (split; cbn [fst snd]; assumption).
  unfold pairing at 1. rewrite csum_zero by (intros; apply csum_zero; intros; ring). unfold weigh. cbn [fst snd]. ring.
Qed.
Lemma unit2_at i j x y a b : unit2 i j x y a b = Cplus (if (a =? i) && (b =? j) then x else RtoC 0) (if (a =? j) && (b =? i) then y else RtoC 0).
Proof. unfold unit2, add. destruct ((a =? i) && (b =? j)), ((a =? j) && (b =? i)); ring. Qed.
Lemma unit2_hermitian i j x : hermitian n (unit2 i j x (Cconj x)).
Proof.
  intros a b _ _. rewrite !unit2_at. rewrite (andb_comm (b =? i)), (andb_comm (b =? j)). rewrite Cconj_plus.
  destruct ((a =? i) && (b =? j)), ((a =? j) && (b =? i)); rewrite ?Cconj_conj, ?Cconj_real; ring.
Qed.
Lemma plus_hermitian G D t : hermitian n G -> hermitian n D -> hermitian n (plus G (scale (RtoC t) D)).
Proof. intros A B i j Hi Hj. unfold plus, scale. rewrite (A i j), (B i j) by assumption. rewrite Cconj_plus, Cconj_mult, Cconj_real. reflexivity. Qed.
Lemma real_pairing G D : real_energies n O -> hermitian n G -> hermitian n D -> snd (pairing n (makeham N H G) D) = 0%R.
Proof.
  intros HR HG HD. pose proof (HR _ (plus_hermitian G D 1 HG HD)) as P. pose proof (HR _ (plus_hermitian G D (-1) HG HD)) as M.
  rewrite ham_derivative in P, M by now apply hermitian_diag. pose proof (HR G HG) as Z0.
  destruct (mean_energy O G), (pairing n (makeham N H G) D), (second_order O D). cbn in *. lra.
Qed.
Lemma ham_hermitian G : real_energies n O -> hermitian n G -> hermitian n (makeham N H G).
Proof.
  intros HR HG i j Hi Hj. set (A := makeham N H G).
  pose proof (real_pairing G _ HR HG (unit2_hermitian i j (RtoC 1))) as P1. pose proof (real_pairing G _ HR HG (unit2_hermitian i j Ci)) as P2.
  fold A in P1, P2. rewrite unit2_pairing in P1, P2 by assumption. destruct (A i j) as (x, y), (A j i) as (x', y'). cbn in P1, P2. unfold Cconj. cbn. f_equal; lra.
Qed.

(** ** second-order form: the terms that cal_energy.c takes back *)
Lemma accumulate_is l : forall e, accumulate l e = (e + fst (csum l (fun z => z)))%R.
Proof. induction l as [|z l IH]; intros e; unfold accumulate; cbn [fold_left csum]; [cbn; lra|]. change (fold_left _ l (e + fst z)%R) with (accumulate l (e + fst z)%R). rewrite IH. cbn. lra. Qed.
Lemma total_is m (row : Z -> list C) : loop 0 m (fun k => accumulate (row k)) 0%R = fst (csum (zrange 0 m) (fun k => csum (row k) (fun z => z))).
Proof.
  destruct (Z_le_gt_dec 0 m) as [Hm|Hm]; [|rewrite loop_nil, zrange_nil by lia; reflexivity].
  set (P := fun j e => e = fst (csum (zrange 0 j) (fun k => csum (row k) (fun z => z)))). assert (G : P m (loop 0 m (fun k => accumulate (row k)) 0%R)); [|exact G].
  apply (loop_inv P); [lia|unfold P; rewrite zrange_nil by lia; reflexivity|]. intros i e Hi E. unfold P in *. rewrite accumulate_is, zrange_snoc, csum_app by lia. rewrite E. cbn. lra.
Qed.
Lemma rows_second (o : Z -> observable) (row : Z -> list C) D m : (forall k, 0 <= k < m -> csum (row k) (fun z => z) = Copp (second_order (o k) D)) ->
  csum (zrange 0 m) (fun k => csum (row k) (fun z => z)) = Copp (second_order (flat_map o (zrange 0 m)) D).
Proof. intros E. unfold second_order. rewrite csum_flat, <- csum_opp. apply csum_ext. intros k Hk. apply zrange_in in Hk. now apply E. Qed.
Lemma energy_is Nsize w G : (forall i, 0 <= i < n -> snd (G i i) = 0%R) ->
  cal_energy N H Nsize w G = (rsum (zrange 0 Nsize) w - fst (second_order O G))%R.
Proof.
  intros HG. unfold cal_energy. cbv zeta. rewrite !total_is.
  assert (EB : loop 0 Nsize (fun k e => (e + w k)%R) 0%R = rsum (zrange 0 Nsize) w).
  { destruct (Z_le_gt_dec 0 Nsize) as [Hm|Hm]; [|rewrite loop_nil, zrange_nil by lia; reflexivity].
    set (P := fun j e => e = rsum (zrange 0 j) w). assert (Q : P Nsize (loop 0 Nsize (fun k e => (e + w k)%R) 0%R)); [|exact Q].
    apply (loop_inv P); [lia|unfold P; now rewrite zrange_nil by lia|]. intros i e Hi E. unfold P in *. rewrite zrange_snoc, rsum_app by lia. rewrite E. cbn. lra. }
  rewrite EB.
  rewrite (rows_second (h_intra V H) (e_intra N H G) G), (rows_second (h_inter V H) (e_inter N H G) G), (rows_second (h_hund V H) (e_hund N H G) G),
    (rows_second (h_exchange V H) (e_exchange N H G) G), (rows_second (h_pair V H) (e_pair N H G) G), (rows_second (h_interall V H) (e_interall N H G) G).
  - unfold hamiltonian, diagonal, hopping. rewrite !second_app.
    assert (ET : second_order (flat_map (h_transfer V H) (zrange 0 (NTransfer H))) G = RtoC 0) by (unfold second_order; rewrite csum_flat; apply csum_zero; intros k _; unfold h_transfer; cbn [csum snd fst wick2]; ring).
    rewrite ET. cbn. lra.
  - intros k _. unfold e_interall, h_interall, second_order. cbn [csum fst snd wick2]. ring.
  - intros k _. unfold e_pair, h_pair, second_order. cbn [csum fst snd wick2]. rewrite !Z.mul_0_l, !Z.mul_1_l, !Z.add_0_r. ring.
  - intros k _. unfold e_exchange, h_exchange, second_order. cbn [csum fst snd wick2]. rewrite !Z.mul_0_l, !Z.mul_1_l, !Z.add_0_r. ring.
  - intros k _. unfold e_hund, h_hund, second_order, number. cbn [map csum fst snd wick2]. rewrite !Z.mul_0_l, !Z.mul_1_l, !Z.add_0_r. ring.
  - intros k Hk. destruct (ok_inter V H HS k Hk) as (A & A'). unfold site in A, A'. unfold e_inter, h_inter, second_order, number. rewrite !(charge_is V G HG) by lia.
    cbn [map csum fst snd wick2]. rewrite !Z.mul_0_l, !Z.mul_1_l, !Z.add_0_r. ring.
  - intros k _. unfold e_intra, h_intra, second_order, number. cbn [csum fst snd wick2]. rewrite !Z.mul_0_l, !Z.mul_1_l, !Z.add_0_r. ring.
Qed.
Lemma mean_zero : mean_energy O (plus (fun _ _ => RtoC 0) (scale (RtoC 0) (fun _ _ => RtoC 0))) = RtoC 0.
Proof.
  apply csum_zero. intros (c, ops) _. cbn [fst snd]. unfold plus, scale. destruct ops as [|(a, b) [|(c', d) [|? ?]]]; cbn [wick]; ring.
Qed.
Lemma wick_zero O' G : (forall i j, G i j = RtoC 0) -> mean_energy O' G = RtoC 0.
Proof. intros E. apply csum_zero. intros (c, ops) _. cbn [fst snd]. destruct ops as [|(a, b) [|(c', d) [|? ?]]]; cbn [wick]; rewrite ?E; ring. Qed.
(** the energy of a state from its one-particle matrix *)
Lemma mean_from_ham G : (forall i, 0 <= i < n -> snd (G i i) = 0%R) -> mean_energy O G = Cminus (pairing n (makeham N H G) G) (second_order O G).
Proof.
  intros HG. pose proof (ham_derivative G G (RtoC (-1)) HG) as E. rewrite wick_zero in E by (intros i j; unfold plus, scale; complex).
  apply (f_equal (fun z => Cminus (mean_energy O G) z)) in E. rewrite <- (Cplus_0_r (mean_energy O G)) at 1. replace (Cplus (mean_energy O G) (RtoC 0)) with (Cminus (mean_energy O G) (RtoC 0)) by ring. rewrite E. complex.
Qed.
End Operators.
