(** Low-rank changes of a skew matrix: the Pfaffian and the inverse. *)
From Coq Require Import ZArith List Bool Lia Lra Reals.
From Coquelicot Require Import Complex.
From Verif Require Import Base.ZLoop Base.RSum Pf.Pfaffian Pf.Spec Pf.Proofs Ltl.Model Ltl.Spec Ltl.Pfa Ltl.Solve.
Import ListNotations.
Local Open Scope Z_scope.

(** ** blocks *)
Lemma psum_left l2 : forall l1 f, (forall z r, In z l2 -> f z r = RtoC 0) -> psum (l1 ++ l2) f = psum l1 (fun z r => f z (r ++ l2)).
Proof.
  induction l1 as [|y l1 IH]; intros f H.
  - cbn [app]. rewrite (psum_ext l2 f (fun _ _ => RtoC 0)); [apply psum_zero|]. intros; now apply H.
  - cbn [app psum]. rewrite (IH (fun z r => f z (y :: r))); [reflexivity|]. intros; now apply H.
Qed.
Lemma pf_blocks A l2 : forall m l1, (length l1 <= m)%nat -> (forall i j, In i l1 -> In j l2 -> A i j = RtoC 0) -> pf A (l1 ++ l2) = Cmult (pf A l1) (pf A l2).
Proof.
  induction m as [|m IH]; intros l1 Hl H.
  - destruct l1; [|cbn in Hl; lia]. cbn [app]. rewrite pf_nil. ring.
  - destruct l1 as [|x l1]; [cbn [app]; rewrite pf_nil; ring|]. cbn [app length] in *. rewrite !pf_cons.
    rewrite psum_left by (intros z r Hz; rewrite (H x z) by (assumption || now left); ring).
    rewrite Cmult_comm, <- psum_scal. apply psum_ext. intros z r Hz Hr Hlen. rewrite (IH r).
    + ring. + destruct l1; [destruct Hz|cbn in *; lia]. + intros i j Hi Hj. apply H; [right; now apply Hr|exact Hj].
Qed.

Lemma csum_split n r f : 0 <= n -> 0 <= r -> csum (zrange 0 (n + r)) f = Cplus (csum (zrange 0 n) f) (csum (zrange 0 r) (fun k => f (n + k))).
Proof.
  intros Hn Hr. rewrite (zrange_app 0 n (n + r)) by lia. rewrite csum_app. f_equal. replace (zrange n (n + r)) with (zrange (0 + n) (r + n)) by (f_equal; lia). rewrite csum_shift. apply csum_ext. intros k _. f_equal. lia.
Qed.
Lemma csum_kron n i (f : Z -> C) : 0 <= i < n -> csum (zrange 0 n) (fun k => Cmult (kron i k) (f k)) = f i.
Proof. intros Hi. exact (csum_delta (zrange 0 n) i f (zrange_NoDup 0 n) (proj2 (zrange_in 0 n i) Hi)). Qed.
Lemma kron_sym i j : kron i j = kron j i. Proof. unfold kron. destruct (Z.eqb_spec i j), (Z.eqb_spec j i); congruence. Qed.
Lemma csum_kron' n i (f : Z -> C) : 0 <= i < n -> csum (zrange 0 n) (fun k => Cmult (f k) (kron k i)) = f i.
Proof. intros Hi. rewrite (csum_ext _ _ (fun k => Cmult (kron i k) (f k))); [now apply csum_kron|]. intros k _. rewrite (kron_sym k i). ring. Qed.

Section LowRank.
Variables (n r : Z) (A M B D E : Z -> Z -> C).
Hypothesis (Hn : 0 <= n) (Hr : 0 <= r).
Hypothesis HA : forall i j, 0 <= i < n -> 0 <= j < n -> A j i = Copp (A i j).
Hypothesis HD : forall i j, 0 <= i < r -> 0 <= j < r -> D j i = Copp (D i j).
Hypothesis HM : is_inverse n M A.
Hypothesis HE : forall i j, 0 <= i < r -> 0 <= j < r -> csum (zrange 0 r) (fun k => Cmult (D i k) (E k j)) = kron i j.
Hypothesis HE' : forall i j, 0 <= i < r -> 0 <= j < r -> csum (zrange 0 r) (fun k => Cmult (E i k) (D k j)) = kron i j.

(** A + B E B' and D + B' M B *)
Definition changed (i j : Z) : C := Cplus (A i j) (csum (zrange 0 r) (fun a => csum (zrange 0 r) (fun b => Cmult (Cmult (B i a) (E a b)) (B j b)))).
Definition central (a b : Z) : C := Cplus (D a b) (csum (zrange 0 n) (fun i => csum (zrange 0 n) (fun j => Cmult (Cmult (B i a) (M i j)) (B j b)))).

(** [A B; -B' D] *)
Let S (i j : Z) : C := if i <? n then if j <? n then A i j else B i (j - n) else if j <? n then Copp (B j (i - n)) else D (i - n) (j - n).
Lemma S_skew i j : 0 <= i < n + r -> 0 <= j < n + r -> S j i = Copp (S i j).
Proof. intros Hi Hj. unfold S. destruct (Z.ltb_spec i n), (Z.ltb_spec j n); [apply HA; lia|ring|ring|apply HD; lia]. Qed.

(** a row of a shear: the identity and N *)
Definition shear (lower : bool) (x : Z -> Z -> C) (i j : Z) : C := if (if lower then (n <=? i) && (j <? n) else (i <? n) && (n <=? j)) then x i j else RtoC 0.
Lemma shear_row (lower : bool) x i f : 0 <= i < n + r -> csum (zrange 0 (n + r)) (fun k => Cmult (unit_tri (negb lower) (shear lower x) i k) (f k)) =
  Cplus (f i) (if lower then if n <=? i then csum (zrange 0 n) (fun k => Cmult (x i k) (f k)) else RtoC 0
               else if i <? n then csum (zrange 0 r) (fun k => Cmult (x i (n + k)) (f (n + k))) else RtoC 0).
Proof.
  intros Hi. rewrite (csum_ext _ _ (fun k => Cplus (Cmult (kron i k) (f k)) (Cmult (shear lower x i k) (f k)))).
  - rewrite csum_add, csum_kron by exact Hi. f_equal. rewrite csum_split by lia. unfold shear. destruct lower.
    + destruct (Z.leb_spec n i) as [H|H].
      * rewrite (csum_zero (zrange 0 r)), Cplus_0_r. { apply csum_ext. intros k Hk. apply zrange_in in Hk. destruct (Z.ltb_spec k n); [reflexivity|lia]. }
        intros k Hk. apply zrange_in in Hk. destruct (Z.ltb_spec (n + k) n); [lia|cbn [andb]; ring].
      * rewrite !csum_zero; [ring| |]; intros k _; cbn [andb]; ring.
    + destruct (Z.ltb_spec i n) as [H|H].
      * rewrite (csum_zero (zrange 0 n)), Cplus_0_l. { apply csum_ext. intros k Hk. apply zrange_in in Hk. destruct (Z.leb_spec n (n + k)); [reflexivity|lia]. }
        intros k Hk. apply zrange_in in Hk. destruct (Z.leb_spec n k); [lia|cbn [andb]; ring].
      * rewrite !csum_zero; [ring| |]; intros k _; cbn [andb]; ring.
  - intros k Hk. apply zrange_in in Hk. unfold unit_tri, kron, shear. destruct lower; cbn [negb].
    + destruct (Z.eqb_spec i k), (Z.ltb_spec k i), (Z.leb_spec n i), (Z.ltb_spec k n); cbn [andb]; try lia; ring.
    + destruct (Z.eqb_spec i k), (Z.ltb_spec i k), (Z.ltb_spec i n), (Z.leb_spec n k); cbn [andb]; try lia; ring.
Qed.
Lemma congruent_shear (lower : bool) x i j : 0 <= i < n + r -> 0 <= j < n + r ->
  let L := unit_tri (negb lower) (shear lower x) in let Y := fun i j => csum (zrange 0 (n + r)) (fun k => Cmult (L i k) (S k j)) in
  congruent (n + r) L S i j = Cplus (Y i j) (if lower then if n <=? j then csum (zrange 0 n) (fun k => Cmult (x j k) (Y i k)) else RtoC 0
                                             else if j <? n then csum (zrange 0 r) (fun k => Cmult (x j (n + k)) (Y i (n + k))) else RtoC 0).
Proof.
  intros Hi Hj L Y. unfold congruent, product at 1, transpose. change (product (n + r) L S) with Y. rewrite <- (shear_row lower x j (Y i) Hj). apply csum_ext. intros k _. fold L. ring.
Qed.
Lemma pf_shear (lower : bool) x : pf (congruent (n + r) (unit_tri (negb lower) (shear lower x)) S) (zrange 0 (n + r)) = pf S (zrange 0 (n + r)).
Proof. destruct lower; [apply pf_congruent_lower|apply pf_congruent_upper]; apply S_skew. Qed.
Lemma pf_two_blocks T P R : (forall i j, 0 <= i < n -> 0 <= j < n -> T i j = P i j) -> (forall i j, 0 <= i < n -> 0 <= j < r -> T i (n + j) = RtoC 0) ->
  (forall i j, 0 <= i < r -> 0 <= j < r -> T (n + i) (n + j) = R i j) -> pf T (zrange 0 (n + r)) = Cmult (pf P (zrange 0 n)) (pf R (zrange 0 r)).
Proof.
  intros H1 H2 H3. rewrite (zrange_app 0 n (n + r)) by lia. rewrite (pf_blocks T _ _ _ (le_n _)).
  - f_equal.
    + apply (pf_ext _ _ (length (zrange 0 n))); [lia|]. intros i j Hi Hj. apply zrange_in in Hi. apply zrange_in in Hj. now apply H1.
    + replace (zrange n (n + r)) with (map (fun k => k + n) (zrange 0 r)) by (rewrite <- zrange_shift; f_equal; lia). rewrite (pf_map _ _ (length (zrange 0 r))) by lia.
      apply (pf_ext _ _ (length (zrange 0 r))); [lia|]. intros i j Hi Hj. apply zrange_in in Hi. apply zrange_in in Hj. rewrite <- H3 by assumption. f_equal; lia.
  - intros i j Hi Hj. apply zrange_in in Hi. apply zrange_in in Hj. replace j with (n + (j - n)) by lia. apply H2; lia.
Qed.

Lemma M_left i j : 0 <= i < n -> 0 <= j < n -> csum (zrange 0 n) (fun k => Cmult (M i k) (A k j)) = kron i j. Proof. apply HM. Qed.
Lemma M_skew i j : 0 <= i < n -> 0 <= j < n -> M j i = Copp (M i j). Proof. apply HM. Qed.

(** clearing the lower left block with A *)
Lemma pf_lower : pf S (zrange 0 (n + r)) = Cmult (pf A (zrange 0 n)) (pf central (zrange 0 r)).
Proof.
  set (x := fun i k => csum (zrange 0 n) (fun m => Cmult (B m (i - n)) (M m k))). rewrite <- (pf_shear true x). set (L := unit_tri (negb true) (shear true x)).
  set (Y := fun i j => csum (zrange 0 (n + r)) (fun k => Cmult (L i k) (S k j))).
  assert (Y1 : forall i j, 0 <= i < n -> Y i j = S i j). { intros i j Hi. unfold Y, L. rewrite (shear_row true x i (fun k => S k j)) by lia. cbv iota. destruct (Z.leb_spec n i); [lia|ring]. }
  assert (Y2 : forall i j, 0 <= i < r -> Y (n + i) j = Cplus (S (n + i) j) (csum (zrange 0 n) (fun k => Cmult (x (n + i) k) (S k j)))).
  { intros i j Hi. unfold Y, L. rewrite (shear_row true x (n + i) (fun k => S k j)) by lia. cbv iota. destruct (Z.leb_spec n (n + i)); [reflexivity|lia]. }
  assert (Y3 : forall i j, 0 <= i < r -> 0 <= j < n -> Y (n + i) j = RtoC 0).
  { intros i j Hi Hj. rewrite Y2 by exact Hi. transitivity (Cplus (Copp (B j i)) (csum (zrange 0 n) (fun m => Cmult (B m i) (csum (zrange 0 n) (fun k => Cmult (M m k) (A k j)))))).
    - f_equal.
      + unfold S. destruct (Z.ltb_spec (n + i) n), (Z.ltb_spec j n); try lia. do 2 f_equal. lia.
      + rewrite (csum_ext _ _ (fun k => csum (zrange 0 n) (fun m => Cmult (Cmult (B m i) (M m k)) (A k j)))).
        * rewrite csum_swap. apply csum_ext. intros m _. rewrite <- csum_scal. apply csum_ext. intros k _. ring.
        * intros k Hk. apply zrange_in in Hk. unfold x, S. replace (n + i - n) with i by lia. destruct (Z.ltb_spec k n), (Z.ltb_spec j n); try lia. now rewrite <- csum_scal_r.
    - rewrite (csum_ext _ _ (fun m => Cmult (B m i) (kron m j))); [rewrite csum_kron' by exact Hj; ring|]. intros m Hm. apply zrange_in in Hm. now rewrite M_left. }
  apply pf_two_blocks.
  - intros i j Hi Hj. unfold L. rewrite (congruent_shear true x) by lia. cbv zeta iota. fold L. change (csum (zrange 0 (n + r)) (fun k => Cmult (L i k) (S k j))) with (Y i j). rewrite Y1 by exact Hi. destruct (Z.leb_spec n j); [lia|]. unfold S. destruct (Z.ltb_spec i n), (Z.ltb_spec j n); try lia. ring.
  - intros i j Hi Hj. rewrite (congruent_skew (n + r) L S S_skew (n + j) i). unfold L. rewrite (congruent_shear true x) by lia. cbv zeta iota. fold L. change (csum (zrange 0 (n + r)) (fun k => Cmult (L (n + j) k) (S k i))) with (Y (n + j) i). rewrite Y3 by assumption. destruct (Z.leb_spec n i); [lia|ring].
  - intros i j Hi Hj. unfold L. rewrite (congruent_shear true x) by lia. cbv zeta iota. fold L. change (csum (zrange 0 (n + r)) (fun k => Cmult (L (n + i) k) (S k (n + j)))) with (Y (n + i) (n + j)).
    destruct (Z.leb_spec n (n + j)); [|lia]. rewrite csum_zero, Cplus_0_r. 2:{ intros k Hk. apply zrange_in in Hk. change (csum (zrange 0 (n + r)) (fun k0 => Cmult (L (n + i) k0) (S k0 k))) with (Y (n + i) k). rewrite Y3 by assumption. ring. }
    rewrite Y2 by exact Hi. unfold central. f_equal.
    + unfold S. destruct (Z.ltb_spec (n + i) n), (Z.ltb_spec (n + j) n); try lia. f_equal; lia.
    + rewrite (csum_ext _ _ (fun k => csum (zrange 0 n) (fun m => Cmult (Cmult (B m i) (M m k)) (B k j)))); [apply csum_swap|].
      intros k Hk. apply zrange_in in Hk. unfold x, S. replace (n + i - n) with i by lia. destruct (Z.ltb_spec k n), (Z.ltb_spec (n + j) n); try lia. replace (n + j - n) with j by lia. now rewrite <- csum_scal_r.
Qed.
(** clearing the upper right block with D *)
Lemma pf_upper : pf S (zrange 0 (n + r)) = Cmult (pf changed (zrange 0 n)) (pf D (zrange 0 r)).
Proof.
  set (x := fun i k => Copp (csum (zrange 0 r) (fun m => Cmult (B i m) (E m (k - n))))). rewrite <- (pf_shear false x). set (L := unit_tri (negb false) (shear false x)).
  set (Y := fun i j => csum (zrange 0 (n + r)) (fun k => Cmult (L i k) (S k j))).
  assert (Y1 : forall i j, 0 <= i < r -> Y (n + i) j = S (n + i) j). { intros i j Hi. unfold Y, L. rewrite (shear_row false x (n + i) (fun k => S k j)) by lia. cbv iota. destruct (Z.ltb_spec (n + i) n); [lia|ring]. }
  assert (Y2 : forall i j, 0 <= i < n -> Y i j = Cplus (S i j) (csum (zrange 0 r) (fun k => Cmult (x i (n + k)) (S (n + k) j)))).
  { intros i j Hi. unfold Y, L. rewrite (shear_row false x i (fun k => S k j)) by lia. cbv iota. destruct (Z.ltb_spec i n); [reflexivity|lia]. }
  assert (X1 : forall i k, x i (n + k) = Copp (csum (zrange 0 r) (fun m => Cmult (B i m) (E m k)))). { intros i k. unfold x. replace (n + k - n) with k by lia. reflexivity. }
  assert (Y3 : forall i j, 0 <= i < n -> 0 <= j < r -> Y i (n + j) = RtoC 0).
  { intros i j Hi Hj. rewrite Y2 by exact Hi. transitivity (Cplus (B i j) (Copp (csum (zrange 0 r) (fun m => Cmult (B i m) (csum (zrange 0 r) (fun k => Cmult (E m k) (D k j))))))).
    - f_equal.
      + unfold S. destruct (Z.ltb_spec i n), (Z.ltb_spec (n + j) n); try lia. f_equal. lia.
      + rewrite <- csum_opp. rewrite (csum_ext _ _ (fun k => csum (zrange 0 r) (fun m => Copp (Cmult (Cmult (B i m) (E m k)) (D k j))))).
        * rewrite csum_swap. apply csum_ext. intros m _. rewrite csum_opp. f_equal. rewrite <- csum_scal. apply csum_ext. intros k _. ring.
        * intros k Hk. apply zrange_in in Hk. rewrite X1. unfold S. destruct (Z.ltb_spec (n + k) n), (Z.ltb_spec (n + j) n); try lia. replace (n + k - n) with k by lia. replace (n + j - n) with j by lia.
          rewrite csum_opp. rewrite csum_scal_r. ring.
    - rewrite (csum_ext _ _ (fun m => Cmult (B i m) (kron m j))); [rewrite csum_kron' by exact Hj; ring|]. intros m Hm. apply zrange_in in Hm. now rewrite HE'. }
  apply pf_two_blocks.
  - intros i j Hi Hj. unfold L. rewrite (congruent_shear false x) by lia. cbv zeta iota. fold L. change (csum (zrange 0 (n + r)) (fun k => Cmult (L i k) (S k j))) with (Y i j).
    destruct (Z.ltb_spec j n); [|lia]. rewrite csum_zero, Cplus_0_r. 2:{ intros k Hk. apply zrange_in in Hk. change (csum (zrange 0 (n + r)) (fun k0 => Cmult (L i k0) (S k0 (n + k)))) with (Y i (n + k)). rewrite Y3 by assumption. ring. }
    rewrite Y2 by exact Hi. unfold changed. f_equal.
    + unfold S. destruct (Z.ltb_spec i n), (Z.ltb_spec j n); try lia. reflexivity.
    + rewrite (csum_ext _ _ (fun k => csum (zrange 0 r) (fun m => Cmult (Cmult (B i m) (E m k)) (B j k)))); [apply csum_swap|].
      intros k Hk. apply zrange_in in Hk. rewrite X1. unfold S. destruct (Z.ltb_spec (n + k) n), (Z.ltb_spec j n); try lia. replace (n + k - n) with k by lia. rewrite csum_scal_r. ring.
  - intros i j Hi Hj. unfold L. rewrite (congruent_shear false x) by lia. cbv zeta iota. fold L. change (csum (zrange 0 (n + r)) (fun k => Cmult (L i k) (S k (n + j)))) with (Y i (n + j)). rewrite Y3 by assumption. destruct (Z.ltb_spec (n + j) n); [lia|ring].
  - intros i j Hi Hj. unfold L. rewrite (congruent_shear false x) by lia. cbv zeta iota. fold L. change (csum (zrange 0 (n + r)) (fun k => Cmult (L (n + i) k) (S k (n + j)))) with (Y (n + i) (n + j)). rewrite Y1 by exact Hi. destruct (Z.ltb_spec (n + j) n); [lia|]. unfold S. destruct (Z.ltb_spec (n + i) n), (Z.ltb_spec (n + j) n); try lia. rewrite Cplus_0_r. f_equal; lia.
Qed.
Theorem low_rank : Cmult (pf changed (zrange 0 n)) (pf D (zrange 0 r)) = Cmult (pf A (zrange 0 n)) (pf central (zrange 0 r)).
Proof. rewrite <- pf_upper. exact pf_lower. Qed.

(** ** the inverse *)
Lemma changed_skew i j : 0 <= i < n -> 0 <= j < n -> (forall a b, 0 <= a < r -> 0 <= b < r -> E b a = Copp (E a b)) -> changed j i = Copp (changed i j).
Proof.
  intros Hi Hj HEs. unfold changed. rewrite (HA i j) by assumption. rewrite csum_swap. transitivity (Cplus (Copp (A i j)) (Copp (csum (zrange 0 r) (fun a => csum (zrange 0 r) (fun b => Cmult (Cmult (B i a) (E a b)) (B j b)))))); [|ring]. f_equal.
  rewrite <- csum_opp. apply csum_ext. intros b Hb. rewrite <- csum_opp. apply csum_ext. intros a Ha. apply zrange_in in Ha. apply zrange_in in Hb. rewrite (HEs b a) by assumption. ring.
Qed.
Lemma central_skew a b : 0 <= a < r -> 0 <= b < r -> central b a = Copp (central a b).
Proof.
  intros Ha Hb. unfold central. rewrite (HD a b) by assumption. rewrite csum_swap. transitivity (Cplus (Copp (D a b)) (Copp (csum (zrange 0 n) (fun i => csum (zrange 0 n) (fun j => Cmult (Cmult (B i a) (M i j)) (B j b)))))); [|ring]. f_equal.
  rewrite <- csum_opp. apply csum_ext. intros j Hj. rewrite <- csum_opp. apply csum_ext. intros i Hi. apply zrange_in in Hi. apply zrange_in in Hj. rewrite (M_skew j i) by assumption. ring.
Qed.
Variable Ci : Z -> Z -> C.
Hypothesis HC : is_inverse r Ci central.
Hypothesis HEs : forall a b, 0 <= a < r -> 0 <= b < r -> E b a = Copp (E a b).
Definition moved_by (i a : Z) : C := csum (zrange 0 n) (fun k => Cmult (M i k) (B k a)).
Definition corrected (i j : Z) : C := Cplus (M i j) (csum (zrange 0 r) (fun b => Cmult (csum (zrange 0 r) (fun a => Cmult (moved_by i a) (Ci a b))) (moved_by j b))).
Theorem woodbury : is_inverse n corrected changed.
Proof.
  assert (Csk : forall a b, 0 <= a < r -> 0 <= b < r -> Ci b a = Copp (Ci a b)) by apply HC.
  assert (Cleft : forall a b, 0 <= a < r -> 0 <= b < r -> csum (zrange 0 r) (fun k => Cmult (Ci a k) (central k b)) = kron a b) by apply HC.
  assert (Cs : forall i j, 0 <= i < n -> 0 <= j < n -> corrected j i = Copp (corrected i j)).
  { intros i j Hi Hj. unfold corrected. rewrite (M_skew i j) by assumption. transitivity (Cplus (Copp (M i j)) (Copp (csum (zrange 0 r) (fun b => Cmult (csum (zrange 0 r) (fun a => Cmult (moved_by i a) (Ci a b))) (moved_by j b))))); [|ring]. f_equal.
    rewrite (csum_ext _ _ (fun b => csum (zrange 0 r) (fun a => Cmult (Cmult (moved_by j a) (Ci a b)) (moved_by i b)))) by (intros; now rewrite <- csum_scal_r).
    rewrite csum_swap. rewrite <- csum_opp. apply csum_ext. intros b Hb. rewrite <- csum_scal_r, <- csum_opp. apply csum_ext. intros a Ha. apply zrange_in in Ha. apply zrange_in in Hb. rewrite (Csk a b) by assumption. ring. }
  apply is_inverse_intro.
  - apply skew_spec. exact Cs.
  - apply skew_spec. intros i j Hi Hj. now apply changed_skew.
  - apply left_inverse_spec. intros i m Hi Hm. set (F := fun c => csum (zrange 0 r) (fun d => Cmult (E c d) (B m d))).
    assert (EB : forall j, changed j m = Cplus (A j m) (csum (zrange 0 r) (fun c => Cmult (B j c) (F c)))).
    { intros j. unfold changed. f_equal. apply csum_ext. intros c _. unfold F. rewrite <- csum_scal. apply csum_ext. intros d _. ring. }
    (* M changed *)
    assert (S1 : csum (zrange 0 n) (fun j => Cmult (M i j) (changed j m)) = Cplus (kron i m) (csum (zrange 0 r) (fun c => Cmult (moved_by i c) (F c)))).
    { rewrite (csum_ext _ _ (fun j => Cplus (Cmult (M i j) (A j m)) (csum (zrange 0 r) (fun c => Cmult (Cmult (M i j) (B j c)) (F c))))).
      - rewrite csum_add, M_left by assumption. f_equal. rewrite csum_swap. apply csum_ext. intros c _. unfold moved_by. now rewrite csum_scal_r.
      - intros j _. rewrite EB. rewrite (csum_ext _ (fun c => Cmult (Cmult (M i j) (B j c)) (F c)) (fun c => Cmult (M i j) (Cmult (B j c) (F c)))) by (intros; ring). rewrite csum_scal. ring. }
    (* moved_by' changed *)
    assert (S2 : forall b, 0 <= b < r -> csum (zrange 0 n) (fun j => Cmult (moved_by j b) (changed j m)) = csum (zrange 0 r) (fun c => Cmult (central c b) (F c))).
    { intros b Hb. rewrite (csum_ext _ _ (fun j => Cplus (Cmult (moved_by j b) (A j m)) (csum (zrange 0 r) (fun c => Cmult (Cmult (moved_by j b) (B j c)) (F c))))).
      2:{ intros j _. rewrite EB. rewrite (csum_ext _ (fun c => Cmult (Cmult (moved_by j b) (B j c)) (F c)) (fun c => Cmult (moved_by j b) (Cmult (B j c) (F c)))) by (intros; ring). rewrite csum_scal. ring. }
      rewrite csum_add.
      assert (G1 : csum (zrange 0 n) (fun j => Cmult (moved_by j b) (A j m)) = Copp (B m b)).
      { unfold moved_by. rewrite (csum_ext _ _ (fun j => csum (zrange 0 n) (fun k => Copp (Cmult (B k b) (Cmult (M k j) (A j m)))))).
        - rewrite csum_swap. rewrite (csum_ext _ _ (fun k => Copp (Cmult (B k b) (kron k m)))).
          + rewrite csum_opp, csum_kron' by exact Hm. reflexivity.
          + intros k Hk. apply zrange_in in Hk. rewrite csum_opp, csum_scal, M_left by assumption. reflexivity.
        - intros j Hj. rewrite <- csum_scal_r. apply csum_ext. intros k Hk. apply zrange_in in Hj. apply zrange_in in Hk. rewrite (M_skew k j) by assumption. ring. }
      rewrite G1. rewrite csum_swap. rewrite (csum_ext (zrange 0 r) (fun c => csum (zrange 0 n) _) (fun c => Cplus (Cmult (central c b) (F c)) (Copp (Cmult (D c b) (F c))))).
      2:{ intros c Hc. rewrite csum_scal_r. transitivity (Cmult (Cminus (central c b) (D c b)) (F c)); [|ring]. f_equal. unfold central.
          match goal with |- ?l = Cminus (Cplus ?d ?s) ?d => transitivity s; [|ring] end. apply csum_ext. intros j _. unfold moved_by. rewrite <- csum_scal_r. apply csum_ext. intros k _. ring. }
      rewrite csum_add, csum_opp.
      assert (G2 : csum (zrange 0 r) (fun c => Cmult (D c b) (F c)) = Copp (B m b)).
      { unfold F. rewrite (csum_ext _ _ (fun c => csum (zrange 0 r) (fun d => Copp (Cmult (Cmult (D b c) (E c d)) (B m d))))).
        - rewrite csum_swap. rewrite (csum_ext _ _ (fun d => Copp (Cmult (kron b d) (B m d)))).
          + rewrite csum_opp, (csum_kron r b (B m)) by exact Hb. reflexivity.
          + intros d Hd. apply zrange_in in Hd. rewrite csum_opp, csum_scal_r, HE by assumption. reflexivity.
        - intros c Hc. apply zrange_in in Hc. rewrite <- csum_scal. apply csum_ext. intros d _. rewrite (HD b c) by assumption. ring. }
      rewrite G2. ring. }
    rewrite (csum_ext _ _ (fun j => Cplus (Cmult (M i j) (changed j m)) (csum (zrange 0 r) (fun b => Cmult (csum (zrange 0 r) (fun a => Cmult (moved_by i a) (Ci a b))) (Cmult (moved_by j b) (changed j m)))))).
    2:{ intros j _. unfold corrected. rewrite (csum_ext _ (fun b => Cmult (csum (zrange 0 r) _) (Cmult (moved_by j b) (changed j m))) (fun b => Cmult (Cmult (csum (zrange 0 r) (fun a => Cmult (moved_by i a) (Ci a b))) (moved_by j b)) (changed j m))) by (intros; ring).
        rewrite csum_scal_r. ring. }
    rewrite csum_add, S1. rewrite csum_swap. rewrite (csum_ext (zrange 0 r) (fun b => csum (zrange 0 n) _) (fun b => csum (zrange 0 r) (fun c => Copp (Cmult (Cmult (csum (zrange 0 r) (fun a => Cmult (moved_by i a) (Ci a b))) (central b c)) (F c))))).
    2:{ intros b Hb. apply zrange_in in Hb. rewrite csum_scal, S2 by exact Hb. rewrite <- csum_scal. apply csum_ext. intros c Hc. apply zrange_in in Hc. rewrite (central_skew b c) by assumption. ring. }
    rewrite csum_swap. rewrite (csum_ext (zrange 0 r) (fun c => csum (zrange 0 r) (fun b => Copp _)) (fun c => Copp (Cmult (moved_by i c) (F c)))).
    + rewrite csum_opp. ring.
    + intros c Hc. apply zrange_in in Hc. rewrite csum_opp, csum_scal_r. do 2 f_equal. rewrite (csum_ext _ _ (fun b => csum (zrange 0 r) (fun a => Cmult (moved_by i a) (Cmult (Ci a b) (central b c))))).
      * rewrite csum_swap. rewrite (csum_ext _ _ (fun a => Cmult (moved_by i a) (kron a c))); [now apply csum_kron'|]. intros a Ha. apply zrange_in in Ha. rewrite csum_scal. now rewrite Cleft.
      * intros b _. rewrite <- csum_scal_r. apply csum_ext. intros a _. ring.
Qed.
End LowRank.
