(** The Pfaffian and the inverse the factorisation gives. *)
From Coq Require Import ZArith List Bool Lia Lra Reals Permutation.
From Coquelicot Require Import Complex.
From Verif Require Import Base.ZLoop Base.Checked Base.RSum Pf.Pfaffian Pf.Spec Ltl.Model Ltl.Spec Ltl.Pfa Ltl.Arr Ltl.Solve.
Import ListNotations.
Local Open Scope Z_scope.

(** ** the Pfaffian *)
Section Signs.
Variable piv : Z -> Z.
Lemma signs_app l l' z : signs piv (l ++ l') z = signs piv l (signs piv l' z). Proof. unfold signs. apply fold_right_app. Qed.
Lemma signs_mult l z w : signs piv l (Cmult z w) = Cmult (signs piv l z) w.
Proof. induction l as [|j l IH]; [reflexivity|]. cbn. unfold signs in IH. rewrite IH. destruct (negb _); ring. Qed.
Lemma signs_opp l z : signs piv l (Copp z) = Copp (signs piv l z).
Proof. induction l as [|j l IH]; [reflexivity|]. cbn. unfold signs in IH. rewrite IH. now destruct (negb _). Qed.
Lemma signs_rev l z : signs piv (rev l) z = signs piv l z.
Proof. revert z. induction l as [|j l IH]; intros z; [reflexivity|]. cbn [rev]. rewrite signs_app, IH. cbn. destruct (negb _); [apply signs_opp|reflexivity]. Qed.
Lemma signs_zero l z : signs piv l z = RtoC 0 <-> z = RtoC 0.
Proof.
  assert (O : forall y, Copp y = RtoC 0 <-> y = RtoC 0). { intros y. split; intros E; [replace y with (Copp (Copp y)) by ring; rewrite E; ring|rewrite E; ring]. }
  induction l as [|j l IH]; [reflexivity|]. cbn. unfold signs in IH. destruct (negb _); [rewrite O|]; exact IH.
Qed.
End Signs.
Lemma evens_snoc t : forall m a, evens a (S m) t = Cmult (evens a m t) (t (a + 2 * Z.of_nat m)).
Proof.
  induction m as [|m IH]; intros a; [cbn; rewrite Z.add_0_r; ring|]. change (evens a (S (S m)) t) with (Cmult (t a) (evens (a + 2) (S m) t)). rewrite IH. change (evens a (S m) t) with (Cmult (t a) (evens (a + 2) m t)). replace (a + 2 + 2 * Z.of_nat m) with (a + 2 * Z.of_nat (S m)) by lia. ring.
Qed.
Lemma evens_zero t : forall m, evens 0 m t = RtoC 0 <-> exists k, 0 <= k < Z.of_nat m /\ t (2 * k) = RtoC 0.
Proof.
  induction m as [|m IH].
  - split; [intros E; apply RtoC_inj in E; lra|intros (k & Hk & _); lia].
  - rewrite evens_snoc. split.
    + intros E. destruct (Ceq_dec (evens 0 m t) (RtoC 0)) as [E1|N1].
      * apply IH in E1. destruct E1 as (k & Hk & Ek). exists k. split; [lia|exact Ek].
      * destruct (Ceq_dec (t (0 + 2 * Z.of_nat m)) (RtoC 0)) as [E2|N2]; [exists (Z.of_nat m); split; [lia|exact E2]|]. exfalso. now apply (Cmult_neq_0 _ _ N1 N2).
    + intros (k & Hk & Ek). destruct (Z.eq_dec k (Z.of_nat m)) as [->|]; [replace (0 + 2 * Z.of_nat m) with (2 * Z.of_nat m) by lia; rewrite Ek; ring|].
      assert (E : evens 0 m t = RtoC 0) by (apply IH; exists k; split; [lia|exact Ek]). rewrite E. ring.
Qed.
Definition pfaffian_of (upper : bool) (n : Z) (A : Z -> C) (ldA : Z) (iPiv : Z -> Z) : C := if upper then utu2pfa n A ldA iPiv else ltl2pfa n A ldA iPiv.
Lemma pfaffian_loop upper A ldA piv m : pfaffian_of upper (2 * Z.of_nat m) A ldA piv = signs piv (zrange 0 (2 * Z.of_nat m)) (evens 0 m (diagonal_of upper A ldA)).
Proof.
  assert (L : pfaffian_of upper (2 * Z.of_nat m) A ldA piv = loop 0 (Z.of_nat m) (fun k pfa => let i := 2 * k in let pfa := Cmult pfa (diagonal_of upper A ldA i) in
    let pfa := if negb (piv i - 1 =? i) then Copp pfa else pfa in if negb (piv (i + 1) - 1 =? i + 1) then Copp pfa else pfa) (RtoC 1)).
  { unfold pfaffian_of, utu2pfa, ltl2pfa, diagonal_of. replace ((2 * Z.of_nat m + 1) / 2) with (Z.of_nat m) by (replace (2 * Z.of_nat m + 1) with (1 + Z.of_nat m * 2) by lia; rewrite Z.div_add by lia; reflexivity). now destruct upper. }
  rewrite L. clear L. induction m as [|m IH]; [reflexivity|].
  replace (Z.of_nat (S m)) with (Z.of_nat m + 1) by lia. rewrite loop_last by lia. rewrite IH. replace (2 * (Z.of_nat m + 1)) with (2 * Z.of_nat m + 1 + 1) by lia. rewrite !zrange_snoc by lia. rewrite !signs_app. rewrite evens_snoc. cbv zeta. replace (0 + 2 * Z.of_nat m) with (2 * Z.of_nat m) by lia.
  cbn [signs fold_right]. destruct (negb (piv (2 * Z.of_nat m + 1) - 1 =? 2 * Z.of_nat m + 1)), (negb (piv (2 * Z.of_nat m) - 1 =? 2 * Z.of_nat m)); rewrite ?signs_opp, signs_mult; ring.
Qed.
Lemma rows_list (upper : bool) n j : In j (if upper then zrange 0 n else rev (zrange 0 n)) -> 0 <= j < n.
Proof. destruct upper; [|rewrite <- in_rev]; intros H; now apply zrange_in in H. Qed.
Theorem pfaffian_is upper n A R ld piv : Z.Even n -> 0 <= n -> factorised upper n A R ld piv -> pfaffian_of upper n R ld piv = pf A (zrange 0 n).
Proof.
  intros (m & Hm) Hn (Hp & HA). subst n. replace m with (Z.of_nat (Z.to_nat m)) in * by lia. set (q := Z.to_nat m) in *. clearbody q. clear m. set (n := 2 * Z.of_nat q) in *.
  set (U := factor upper n R ld) in *. set (t := diagonal_of upper R ld) in *.
  rewrite (pf_ext A (fun i j => congruent n U (tridiagonal t) (rows upper n piv i) (rows upper n piv j)) (length (zrange 0 n))); [|lia|].
  2:{ intros i j Hi Hj. apply zrange_in in Hi. apply zrange_in in Hj. exact (HA i j Hi Hj). }
  unfold rows. rewrite (pf_chain n piv Hp _ (rows_list upper n) (congruent n U (tridiagonal t))).
  2:{ intros i j _ _. apply congruent_skew. intros; apply tri_skew. }
  assert (E : pf (congruent n U (tridiagonal t)) (zrange 0 n) = pf (tridiagonal t) (zrange 0 n)).
  { unfold U, factor. destruct upper; [apply pf_congruent_upper|apply pf_congruent_lower]; intros; apply tri_skew. }
  rewrite E. change (zrange 0 n) with (zrange 0 (0 + 2 * Z.of_nat q)) at 3. rewrite pf_tri. unfold n. rewrite pfaffian_loop. fold t. fold n. destruct upper; [reflexivity|]. now rewrite signs_rev.
Qed.
Lemma pfaffian_zero upper n R ld piv : Z.Even n -> 0 <= n -> (pfaffian_of upper n R ld piv = RtoC 0 <-> exists k, 0 <= k < n / 2 /\ diagonal_of upper R ld (2 * k) = RtoC 0).
Proof.
  intros (m & Hm) Hn. subst n. replace (2 * m / 2) with m by (rewrite Z.mul_comm, Z.div_mul; lia). replace m with (Z.of_nat (Z.to_nat m)) by lia. rewrite pfaffian_loop, signs_zero. apply evens_zero.
Qed.

(** ** matrices *)
Definition equal_to (n : Z) (X Y : Z -> Z -> C) : Prop := forall i j, 0 <= i < n -> 0 <= j < n -> X i j = Y i j.
Lemma product_kron_l n X i j : 0 <= i < n -> product n kron X i j = X i j.
Proof. intros Hi. unfold product. exact (csum_delta (zrange 0 n) i (fun k => X k j) (zrange_NoDup 0 n) (proj2 (zrange_in 0 n i) Hi)). Qed.
Lemma product_kron_r n X i j : 0 <= j < n -> product n X kron i j = X i j.
Proof.
  intros Hj. unfold product. rewrite (csum_ext _ _ (fun k => Cmult (delta j k) (X i k))); [exact (csum_delta (zrange 0 n) j (fun k => X i k) (zrange_NoDup 0 n) (proj2 (zrange_in 0 n j) Hj))|].
  intros k _. unfold kron, delta. destruct (Z.eqb_spec k j), (Z.eqb_spec j k); try congruence; ring.
Qed.
Lemma product_equal n X X' Y Y' : equal_to n X X' -> equal_to n Y Y' -> equal_to n (product n X Y) (product n X' Y').
Proof. intros HX HY i j Hi Hj. apply product_ext. intros k Hk. split; [apply HX|apply HY]; assumption. Qed.
Lemma equal_trans n X Y Z : equal_to n X Y -> equal_to n Y Z -> equal_to n X Z. Proof. intros H1 H2 i j Hi Hj. rewrite H1 by assumption. now apply H2. Qed.
Lemma equal_sym n X Y : equal_to n X Y -> equal_to n Y X. Proof. intros H i j Hi Hj. symmetry. now apply H. Qed.
Lemma equal_refl n X : equal_to n X X. Proof. easy. Qed.
Lemma product_transpose n X Y i j : product n (transpose X) (transpose Y) i j = product n Y X j i.
Proof. unfold product, transpose. apply csum_ext. intros. ring. Qed.

Section Congruence.
Variables (n : Z) (U V T X : Z -> Z -> C).
Hypothesis HT : forall i j, T j i = Copp (T i j).
Hypothesis HVU : equal_to n (product n V U) kron.
Hypothesis HUV : equal_to n (product n U V) kron.
Hypothesis HX : equal_to n (product n T X) V.
Let B := congruent n U T.
Let W := product n (transpose V) X.
Lemma right_inverse : equal_to n (product n B W) kron.
Proof.
  unfold B, W, congruent. apply (equal_trans n _ (product n U V)); [|exact HUV].
  intros i j Hi Hj. rewrite !product_assoc. revert i j Hi Hj. apply product_equal; [apply equal_refl|].
  apply (equal_trans n _ (product n T X)); [|exact HX]. apply product_equal; [apply equal_refl|].
  intros i j Hi Hj. rewrite <- product_assoc. rewrite (product_ext n _ X kron X); [now apply product_kron_l|].
  intros k Hk. split; [|reflexivity]. rewrite product_transpose. rewrite HVU by assumption. unfold kron. destruct (Z.eqb_spec k i), (Z.eqb_spec i k); congruence.
Qed.
Lemma inverse_skew i j : 0 <= i < n -> 0 <= j < n -> W j i = Copp (W i j).
Proof.
  intros Hi Hj. set (Y := fun i j => Copp (W j i)).
  assert (L : equal_to n (product n Y B) kron).
  { intros r c Hr Hc. transitivity (product n B W c r).
    - unfold product, Y. apply csum_ext. intros k Hk. unfold B. rewrite (congruent_skew n U T ltac:(intros; apply HT) c k). ring.
    - rewrite right_inverse by assumption. unfold kron. destruct (Z.eqb_spec r c), (Z.eqb_spec c r); congruence. }
  assert (E : equal_to n Y W).
  { intros r c Hr Hc. transitivity (product n Y (product n B W) r c).
    - rewrite (product_ext n Y _ Y kron); [now rewrite product_kron_r|]. intros k Hk. split; [reflexivity|]. now apply right_inverse.
    - rewrite <- product_assoc. rewrite (product_ext n _ W kron W); [now apply product_kron_l|]. intros k Hk. split; [|reflexivity]. now apply L. }
  rewrite <- (E i j Hi Hj). unfold Y. ring.
Qed.
Lemma left_inverse' : equal_to n (product n W B) kron.
Proof.
  intros i j Hi Hj. transitivity (product n B W j i).
  - unfold product. apply csum_ext. intros k Hk. apply zrange_in in Hk. rewrite (inverse_skew k i) by assumption. unfold B. rewrite (congruent_skew n U T ltac:(intros; apply HT) j k). ring.
  - rewrite right_inverse by assumption. unfold kron. destruct (Z.eqb_spec i j), (Z.eqb_spec j i); congruence.
Qed.
(** rows and columns interchanged *)
Variables (piv : Z -> Z) (l : list Z).
Hypothesis (Hp : forall j, 0 <= j < n -> 1 <= piv j <= n) (Hl : forall j, In j l -> 0 <= j < n).
Let s := interchanges piv l.
Lemma interchanged A D : (forall i j, 0 <= i < n -> 0 <= j < n -> A i j = B (s i) (s j)) -> (forall i j, 0 <= i < n -> 0 <= j < n -> D i j = W (s i) (s j)) -> is_inverse n D A.
Proof.
  intros HA HD. assert (R : forall i, 0 <= i < n -> 0 <= s i < n) by (apply chain_range; assumption).
  split; [|split].
  - intros i j Hi Hj. rewrite (csum_ext _ _ (fun k => (fun k => Cmult (W (s i) k) (B k (s j))) (s k))); [|intros k Hk; apply zrange_in in Hk; now rewrite HA, HD by assumption].
    etransitivity; [apply (csum_chain n piv Hp l Hl (fun k => Cmult (W (s i) k) (B k (s j))))|]. etransitivity; [apply left_inverse'; now apply R|]. apply kron_chain.
  - intros i j Hi Hj. rewrite (csum_ext _ _ (fun k => (fun k => Cmult (B (s i) k) (W k (s j))) (s k))); [|intros k Hk; apply zrange_in in Hk; now rewrite HA, HD by assumption].
    etransitivity; [apply (csum_chain n piv Hp l Hl (fun k => Cmult (B (s i) k) (W k (s j))))|]. etransitivity; [apply right_inverse; now apply R|]. apply kron_chain.
  - intros i j Hi Hj. rewrite !HD by assumption. apply inverse_skew; now apply R.
Qed.
End Congruence.

(** a unit row and column at b *)
Lemma bordered n b V U : 0 <= b < n -> (forall k, 0 <= k < n -> V b k = kron b k /\ V k b = kron k b) -> (forall k, 0 <= k < n -> U b k = kron b k /\ U k b = kron k b) ->
  (forall i j, 0 <= i < n -> 0 <= j < n -> i <> b -> j <> b -> product n V U i j = kron i j) -> equal_to n (product n V U) kron.
Proof.
  intros Hb HV HU H i j Hi Hj. destruct (Z.eq_dec i b) as [->|Hib].
  - rewrite (product_ext n V U kron U); [rewrite product_kron_l by assumption; now apply HU|]. intros k Hk. split; [now apply HV|reflexivity].
  - destruct (Z.eq_dec j b) as [->|Hjb]; [|now apply H]. rewrite (product_ext n V U V kron); [rewrite product_kron_r by assumption; now apply HV|]. intros k Hk. split; [reflexivity|now apply HU].
Qed.

(** ** the routines *)
Lemma sub_eq_upper ldA i j B : at_ (fun k => B (ldA + k)) ldA i j = at_ B ldA i (j + 1). Proof. unfold at_. f_equal. lia. Qed.
Lemma sub_eq_lower ldA i j B : at_ (fun k => B (1 + k)) ldA i j = at_ B ldA (i + 1) j. Proof. unfold at_. f_equal. lia. Qed.
Section Routine.
Variables (trtri : bool -> Z -> Z -> (Z -> C) -> Z -> C) (npanel : Z).
Hypothesis Htr : inverts trtri.
Definition shifted (upper : bool) (n : Z) (A : Z -> C) (ldA : Z) : Z -> C := if upper then from ldA (trtri true (n - 1) ldA) A else from 1 (trtri false (n - 1) ldA) A.
Definition unit_matrix (n : Z) (M : Z -> C) (ldM : Z) : Z -> C := loop 0 n (fun j M => loop 0 n (fun i M => put M ldM i j (if i =? j then RtoC 1 else RtoC 0)) M) M.
Definition copied (upper : bool) (n : Z) (A : Z -> C) (ldA : Z) (M : Z -> C) (ldM : Z) : Z -> C :=
  if upper then lacpy true (n - 2) A (2 * ldA) ldA M (1 * ldM) ldM else lacpy false (n - 2) A 2 ldA M (2 + 1 * ldM) ldM.
Definition subdiagonal (upper : bool) (A : Z -> C) (ldA i : Z) : C := if upper then Copp (at_ A ldA i (i + 1)) else at_ A ldA (i + 1) i.
Definition finish (upper : bool) (n : Z) (iPiv : Z -> Z) (M : Z -> C) (ldM : Z) (A : Z -> C) (ldA : Z) : Z -> C :=
  let full := (npanel <=? 1) || (n <=? npanel) in
  let A := if full then A else mirror upper n ldA (trmmt upper npanel n M ldM A ldA) in
  let A := loop 0 n (fun k A => let j := if upper then k else n - 1 - k in if negb (iPiv j - 1 =? j) then swap n (j * ldA) 1 ((iPiv j - 1) * ldA) 1 A else A) A in
  let A := if full then trmm upper n n M 0 ldM A 0 ldA else A in
  loop 0 n (fun k A => let i := if upper then k else n - 1 - k in if negb (iPiv i - 1 =? i) then swap n i ldA (iPiv i - 1) ldA A else A) A.
Definition inverse_of (upper : bool) (n : Z) (A : Z -> C) (ldA : Z) (iPiv : Z -> Z) (M : Z -> C) (ldM : Z) : option (Z -> C) :=
  if upper then utu2inv trtri npanel n A ldA iPiv M ldM else ltl2inv trtri npanel n A ldA iPiv M ldM.
Lemma inverse_steps upper n A ldA iPiv M ldM : inverse_of upper n A ldA iPiv M ldM =
  (let A := shifted upper n A ldA in let M := copied upper n A ldA (unit_matrix n M ldM) ldM in
   bind (sktdsmx n (subdiagonal upper A ldA) M ldM A ldA) (fun A => Some (finish upper n iPiv M ldM A ldA))).
Proof. destruct upper; reflexivity. Qed.

Section One.
Variables (upper : bool) (n ldA ldM : Z) (R : Z -> C).
Hypothesis (Hn : 2 <= n) (HA : n <= ldA) (HM : n <= ldM).
Let A1 := shifted upper n R ldA.
Let U := factor upper n R ldA.
Let V := factor upper n A1 ldA.
Lemma factor_border (upper' : bool) B k : 0 <= k < n -> let b := if upper' then n - 1 else 0 in factor upper' n B ldA b k = kron b k /\ factor upper' n B ldA k b = kron k b.
Proof.
  intros Hk. unfold factor, unit_tri, kron. destruct upper'; cbv zeta.
  - split; [destruct (Z.eqb_spec (n - 1) k), (Z.ltb_spec (n - 1) k); try lia; reflexivity|]. destruct (Z.eqb_spec k (n - 1)), (Z.ltb_spec k (n - 1)), (Z.ltb_spec (n - 1) (n - 1)); try lia; reflexivity.
  - split; [destruct (Z.eqb_spec 0 k), (Z.ltb_spec k 0); try lia; reflexivity|]. destruct (Z.eqb_spec k 0), (Z.ltb_spec 0 k), (Z.ltb_spec 0 0); try lia; reflexivity.
Qed.
Lemma factor_inverse : equal_to n (product n V U) kron /\ equal_to n (product n U V) kron.
Proof.
  set (b := if upper then n - 1 else 0). assert (Hb : 0 <= b < n) by (unfold b; destruct upper; lia).
  assert (BV : forall k, 0 <= k < n -> V b k = kron b k /\ V k b = kron k b) by (intros; now apply factor_border).
  assert (BU : forall k, 0 <= k < n -> U b k = kron b k /\ U k b = kron k b) by (intros; now apply factor_border).
  set (d := if upper then 0 else 1). set (off := if upper then ldA else 1).
  destruct (Htr upper (n - 1) ldA (fun k => R (off + k)) ltac:(lia) ltac:(lia)) as (I & _). cbv zeta in I.
  set (V' := unit_tri upper (at_ (trtri upper (n - 1) ldA (fun k => R (off + k))) ldA)) in I. set (U' := unit_tri upper (at_ (fun k => R (off + k)) ldA)) in I.
  assert (EU : forall i j, 0 <= i < n - 1 -> 0 <= j < n - 1 -> U (i + d) (j + d) = U' i j).
  { intros i j Hi Hj. unfold U, U', factor, unit_tri, off, d. destruct upper.
    - rewrite sub_eq_upper. rewrite !Z.add_0_r. destruct (i =? j), (i <? j); try reflexivity. destruct (Z.ltb_spec j (n - 1)); [reflexivity|lia].
    - rewrite sub_eq_lower. destruct (Z.eqb_spec (i + 1) (j + 1)), (Z.eqb_spec i j); try lia; try reflexivity. destruct (Z.ltb_spec (j + 1) (i + 1)), (Z.ltb_spec j i), (Z.ltb_spec 0 (j + 1)); try lia; try reflexivity. f_equal. lia. }
  assert (EV : forall i j, 0 <= i < n - 1 -> 0 <= j < n - 1 -> V (i + d) (j + d) = V' i j).
  { intros i j Hi Hj. unfold V, V', A1, shifted, factor, unit_tri, off, d. destruct upper.
    - rewrite !Z.add_0_r. destruct (i =? j), (i <? j); try reflexivity. destruct (Z.ltb_spec j (n - 1)); [|lia]. unfold from, at_. f_equal. lia.
    - destruct (Z.eqb_spec (i + 1) (j + 1)), (Z.eqb_spec i j); try lia; try reflexivity. destruct (Z.ltb_spec (j + 1) (i + 1)), (Z.ltb_spec j i), (Z.ltb_spec 0 (j + 1)); try lia; try reflexivity. unfold from, at_. f_equal. lia. }
  assert (S : forall X Y X' Y', (forall k, 0 <= k < n -> X b k = kron b k /\ X k b = kron k b) -> (forall i j, 0 <= i < n - 1 -> 0 <= j < n - 1 -> X (i + d) (j + d) = X' i j) -> (forall i j, 0 <= i < n - 1 -> 0 <= j < n - 1 -> Y (i + d) (j + d) = Y' i j) ->
    forall i j, 0 <= i < n - 1 -> 0 <= j < n - 1 -> product n X Y (i + d) (j + d) = product (n - 1) X' Y' i j).
  { intros X Y X' Y' BX EX EY i j Hi Hj. unfold product. transitivity (csum (zrange (0 + d) (n - 1 + d)) (fun k => Cmult (X (i + d) k) (Y k (j + d)))).
    - assert (Z0 : X (i + d) b = RtoC 0). { destruct (BX (i + d)) as (_ & ->); [unfold d; destruct upper; lia|]. unfold kron. destruct (Z.eqb_spec (i + d) b) as [E|]; [|reflexivity]. unfold d, b in E. destruct upper; lia. }
      unfold d, b in *. destruct upper.
      + replace n with (n - 1 + 1) at 1 by lia. rewrite zrange_snoc by lia. rewrite csum_app. replace (n - 1 + 0) with (n - 1) by lia. change (0 + 0) with 0. assert (Q : csum [n - 1] (fun k => Cmult (X (i + 0) k) (Y k (j + 0))) = RtoC 0). { cbn. rewrite Z0. ring. } rewrite Q. ring.
      + rewrite (zrange_cons 0) by lia. replace (n - 1 + 1) with n by lia. replace (0 + 1) with 1 by lia. change (csum (0 :: zrange 1 n) (fun k => Cmult (X (i + 1) k) (Y k (j + 1)))) with (Cplus (Cmult (X (i + 1) 0) (Y 0 (j + 1))) (csum (zrange 1 n) (fun k => Cmult (X (i + 1) k) (Y k (j + 1))))). rewrite Z0. ring.
    - rewrite csum_shift. apply csum_ext. intros k Hk. apply zrange_in in Hk. now rewrite EX, EY by assumption. }
  assert (Back : forall i, 0 <= i < n -> i <> b -> exists i', 0 <= i' < n - 1 /\ i = i' + d). { intros i Hi Hib. exists (i - d). unfold d, b in *. destruct upper; lia. }
  assert (Kd : forall i j, kron (i + d) (j + d) = kron i j). { intros i j. unfold kron. destruct (Z.eqb_spec (i + d) (j + d)), (Z.eqb_spec i j); try lia; reflexivity. }
  split; apply (bordered n b); try assumption; intros i j Hi Hj Hib Hjb; destruct (Back i Hi Hib) as (i' & Hi' & ->), (Back j Hj Hjb) as (j' & Hj' & ->); rewrite Kd.
  - rewrite (S V U V' U') by assumption. now apply I.
  - rewrite (S U V U' V') by assumption. now apply I.
Qed.
Lemma diagonal_kept i : 0 <= i < n - 1 -> diagonal_of upper A1 ldA i = diagonal_of upper R ldA i.
Proof.
  intros Hi. destruct (Htr upper (n - 1) ldA (fun k => R ((if upper then ldA else 1) + k)) ltac:(lia) ltac:(lia)) as (_ & K). specialize (K (i + i * ldA)).
  assert (K' : forall i0 j : Z, 0 <= i0 < n - 1 -> 0 <= j < n - 1 -> (if upper then i0 < j else j < i0) -> i + i * ldA <> i0 + j * ldA).
  { intros r c Hr Hc Hrc E. apply cell_eq in E; [|lia..]. destruct upper; lia. }
  specialize (K K'). unfold diagonal_of, A1, shifted, from, at_. destruct upper.
  - replace (i + (i + 1) * ldA - ldA) with (i + i * ldA) by lia. rewrite K. f_equal. lia.
  - f_equal. replace (i + 1 + i * ldA - 1) with (i + i * ldA) by lia. rewrite K. f_equal. lia.
Qed.
Lemma copied_cells M r c : 0 <= r < n -> 0 <= c < n -> at_ (copied upper n A1 ldA (unit_matrix n M ldM) ldM) ldM r c = V r c.
Proof.
  intros Hr Hc. unfold copied, V, factor, unit_tri. destruct upper.
  - rewrite (lacpy_cells true (n - 2) A1 (2 * ldA) ldA _ _ ldM 0 1) by lia. unfold unit_matrix. rewrite identity_fill by lia. unfold kron.
    destruct (Z.leb_spec 1 c), (Z.ltb_spec c (1 + (n - 2))), (Z.leb_spec 0 r), (Z.leb_spec (r - 0) (c - 1)), (Z.eqb_spec r c), (Z.ltb_spec r c), (Z.ltb_spec c (n - 1)); try lia; cbn [andb]; try reflexivity. unfold at_. f_equal. lia.
  - rewrite (lacpy_cells false (n - 2) A1 2 ldA _ _ ldM 2 1) by lia. unfold unit_matrix. rewrite identity_fill by lia. unfold kron.
    destruct (Z.leb_spec 1 c), (Z.ltb_spec c (1 + (n - 2))), (Z.leb_spec (c - 1) (r - 2)), (Z.ltb_spec r (2 + (n - 2))), (Z.eqb_spec r c), (Z.ltb_spec c r), (Z.ltb_spec 0 c); try lia; cbn [andb]; try reflexivity. unfold at_. f_equal. lia.
Qed.
Lemma product_cells M Y r c : (forall r c, 0 <= r < n -> 0 <= c < n -> at_ M ldM r c = V r c) -> 0 <= r < n -> 0 <= c < n -> product_cell upper n M ldM Y ldA r c = product n (transpose V) (at_ Y ldA) r c.
Proof.
  intros HMV Hr Hc. unfold product_cell, product, transpose.
  assert (Sp : zrange 0 n = zrange 0 r ++ r :: zrange (r + 1) n). { rewrite <- zrange_cons by lia. apply zrange_app; lia. }
  rewrite Sp, csum_app. change (csum (r :: zrange (r + 1) n) (fun k => Cmult (V k r) (at_ Y ldA k c))) with (Cplus (Cmult (V r r) (at_ Y ldA r c)) (csum (zrange (r + 1) n) (fun k => Cmult (V k r) (at_ Y ldA k c)))).
  replace (V r r) with (RtoC 1) by (unfold V, factor, unit_tri; destruct upper; now rewrite Z.eqb_refl).
  rewrite (csum_ext (if upper then zrange 0 r else zrange (r + 1) n) _ (fun k => Cmult (V k r) (at_ Y ldA k c))).
  2:{ intros k Hk. rewrite HMV; [reflexivity| |exact Hr]. destruct upper; apply zrange_in in Hk; lia. }
  clear HMV. unfold V, factor. destruct upper.
  - rewrite (csum_zero (zrange (r + 1) n)); [ring|]. intros k Hk. apply zrange_in in Hk. unfold unit_tri. destruct (Z.eqb_spec k r), (Z.ltb_spec k r); try lia; ring.
  - rewrite (csum_zero (zrange 0 r)); [ring|]. intros k Hk. apply zrange_in in Hk. unfold unit_tri. destruct (Z.eqb_spec k r), (Z.ltb_spec r k); try lia; ring.
Qed.
Variable piv : Z -> Z.
Hypothesis Hp : forall j, 0 <= j < n -> 1 <= piv j <= n.
Let s := rows upper n piv.
Lemma s_range i : 0 <= i < n -> 0 <= s i < n. Proof. apply chain_range; [exact Hp|]. apply rows_list. Qed.
Lemma finish_cells M Y : (forall r c, 0 <= r < n -> 0 <= c < n -> at_ M ldM r c = V r c) ->
  (forall i j, 0 <= i < n -> 0 <= j < n -> product n (transpose V) (at_ Y ldA) j i = Copp (product n (transpose V) (at_ Y ldA) i j)) ->
  forall r c, 0 <= r < n -> 0 <= c < n -> at_ (finish upper n piv M ldM Y ldA) ldA r c = product n (transpose V) (at_ Y ldA) (s r) (s c).
Proof.
  intros HMV Hsk r c Hr Hc. unfold finish. cbv zeta. rewrite (row_swaps upper n ldA piv) by (assumption || lia). fold s. assert (Hsr := s_range r Hr). assert (Hsc := s_range c Hc).
  destruct ((npanel <=? 1) || (n <=? npanel)) eqn:Ef.
  - rewrite trmm_all by lia. unfold product_cell. rewrite (column_swaps upper n ldA piv) by (assumption || lia). fold s.
    rewrite (csum_ext _ _ (fun k => Cmult (at_ M ldM k (s r)) (at_ Y ldA k (s c)))).
    + exact (product_cells M Y (s r) (s c) HMV Hsr Hsc).
    + intros k Hk. f_equal. apply (column_swaps upper n ldA piv); [lia|assumption| |assumption]. destruct upper; apply zrange_in in Hk; lia.
  - apply orb_false_iff in Ef. destruct Ef as (E1 & E2). apply Z.leb_gt in E1. apply Z.leb_gt in E2.
    rewrite (column_swaps upper n ldA piv) by (assumption || lia). fold s. rewrite mirror_cells by lia. set (W := product n (transpose V) (at_ Y ldA)) in *.
    destruct (Z.eqb_spec (s r) (s c)) as [E|N].
    + rewrite E. symmetry. apply C_self_opp. now apply Hsk.
    + assert (Tri : forall a b, 0 <= a < n -> 0 <= b < n -> (if upper then a <= b else b <= a) -> at_ (trmmt upper npanel n M ldM Y ldA) ldA a b = W a b).
      { intros a b Ha Hb Hab. rewrite trmmt_cells by (assumption || lia). now apply product_cells. }
      destruct (if upper then s r <? s c else s c <? s r) eqn:Eo.
      * apply Tri; try assumption. destruct upper; apply Z.ltb_lt in Eo; lia.
      * rewrite Tri; try assumption. { symmetry. now apply Hsk. } destruct upper; apply Z.ltb_ge in Eo; lia.
Qed.
End One.
Lemma tri_equal n t t' : (forall i, 0 <= i < n - 1 -> t i = t' i) -> equal_to n (tridiagonal t) (tridiagonal t').
Proof. intros H i j Hi Hj. unfold tridiagonal. destruct (Z.eqb_spec j (i + 1)); [apply H; lia|]. destruct (Z.eqb_spec i (j + 1)); [f_equal; apply H; lia|reflexivity]. Qed.
Lemma neg_sub upper A ldA i : Copp (subdiagonal upper A ldA i) = diagonal_of upper A ldA i. Proof. unfold subdiagonal, diagonal_of. destruct upper; [ring|reflexivity]. Qed.
Theorem inverse_ok upper n A R ldA piv M ldM : Z.Even n -> 0 <= n -> n <= ldA -> n <= ldM -> factorised upper n A R ldA piv ->
  (forall k, 0 <= k < n / 2 -> diagonal_of upper R ldA (2 * k) <> RtoC 0) ->
  exists Y, inverse_of upper n R ldA piv M ldM = Some Y /\ is_inverse n (at_ Y ldA) A.
Proof.
  intros (m & Hm) Hn HlA HlM (Hp & Hfac) Hdiag. destruct (Z.eq_dec n 0) as [E0|Hpos].
  { rewrite inverse_steps. cbv zeta. unfold sktdsmx. rewrite E0. cbn. eexists. split; [reflexivity|]. split; [|split]; intros; lia. }
  assert (Hm1 : 1 <= m) by lia. assert (Hd2 : n / 2 = m) by (subst n; rewrite Z.mul_comm, Z.div_mul; lia).
  rewrite inverse_steps. cbv zeta. set (A1 := shifted upper n R ldA). set (M1 := copied upper n A1 ldA (unit_matrix n M ldM) ldM).
  destruct (sktdsmx_solves n m (subdiagonal upper A1 ldA) M1 ldM ldA Hm1 Hm HlA A1) as (Y & EY & HY).
  { intros k Hk E. apply (Hdiag k); [lia|]. rewrite <- (diagonal_kept upper n ldA R) by lia. fold A1. rewrite <- neg_sub, E. ring. }
  rewrite EY. cbn [bind]. eexists. split; [reflexivity|].
  set (U := factor upper n R ldA) in *. set (V := factor upper n A1 ldA). set (T := tridiagonal (diagonal_of upper R ldA)) in *.
  assert (HMV : forall r c, 0 <= r < n -> 0 <= c < n -> at_ M1 ldM r c = V r c) by (intros; apply copied_cells; lia).
  destruct (factor_inverse upper n ldA R ltac:(lia) HlA) as (I1 & I2). fold U A1 V in I1, I2.
  assert (HTX : equal_to n (product n T (at_ Y ldA)) V).
  { intros i j Hi Hj. rewrite <- HMV by assumption. rewrite <- HY by assumption. apply product_ext. intros k Hk. split; [|reflexivity].
    unfold T. revert i k Hi Hk. assert (Q := tri_equal n (diagonal_of upper R ldA) (fun i => Copp (subdiagonal upper A1 ldA i))). intros i k Hi Hk. apply Q; try assumption. intros x Hx. rewrite neg_sub. symmetry. apply (diagonal_kept upper n ldA R); lia. }
  assert (HT : forall i j, T j i = Copp (T i j)) by (intros; apply tri_skew).
  apply (interchanged n U V T (at_ Y ldA) HT I1 I2 HTX piv (if upper then zrange 0 n else rev (zrange 0 n)) Hp (rows_list upper n)).
  - exact Hfac.
  - intros i j Hi Hj. apply (finish_cells upper n ldA ldM R); try assumption; try lia. intros a b Ha Hb. apply (inverse_skew n U V T); assumption.
Qed.
Theorem inverse_fails upper n R ldA piv M ldM k : Z.Even n -> 0 <= n -> n <= ldA -> n <= ldM -> 0 <= k < n / 2 -> diagonal_of upper R ldA (2 * k) = RtoC 0 -> inverse_of upper n R ldA piv M ldM = None.
Proof.
  intros (m & Hm) Hn HlA HlM Hk E. assert (Hd2 : n / 2 = m) by (subst n; rewrite Z.mul_comm, Z.div_mul; lia).
  rewrite inverse_steps. cbv zeta. rewrite (sktdsmx_fails n m _ _ _ _ Hm HlA _ k); [reflexivity|lia|].
  assert (Q := diagonal_kept upper n ldA R ltac:(lia) HlA (2 * k) ltac:(lia)). rewrite E in Q. rewrite <- neg_sub in Q. match type of Q with Copp ?z = _ => replace z with (Copp (Copp z)) by ring; rewrite Q; ring end.
Qed.
End Routine.
