(** What the array routines leave in the cells of a matrix. *)
From Coq Require Import ZArith List Bool Lia Reals Permutation.
From Coquelicot Require Import Complex.
From Verif Require Import Base.ZLoop Base.Checked Base.RSum Pf.Pfaffian Pf.Spec Ltl.Model Ltl.Spec Ltl.Pfa.
Import ListNotations.
Local Open Scope Z_scope.

Lemma cell_eq ld i j i' j' : 0 <= i < ld -> 0 <= i' < ld -> i + j * ld = i' + j' * ld -> i = i' /\ j = j'.
Proof. intros. assert (j = j') by nia. split; [subst; lia|assumption]. Qed.
Lemma at_put ld A i j v i' j' : 0 <= i < ld -> 0 <= i' < ld -> at_ (put A ld i j v) ld i' j' = if (i' =? i) && (j' =? j) then v else at_ A ld i' j'.
Proof.
  intros Hi Hi'. unfold at_, put, upd. destruct (Z.eqb_spec (i' + j' * ld) (i + j * ld)) as [E|N].
  - apply cell_eq in E; [|assumption..]. destruct E as (-> & ->). now rewrite !Z.eqb_refl.
  - destruct (Z.eqb_spec i' i) as [->|], (Z.eqb_spec j' j) as [->|]; try reflexivity. congruence.
Qed.
Lemma at_put_same ld A i j v : 0 <= i < ld -> at_ (put A ld i j v) ld i j = v.
Proof. intros. now rewrite at_put, !Z.eqb_refl. Qed.
Lemma at_put_other ld A i j v i' j' : 0 <= i < ld -> 0 <= i' < ld -> i' <> i \/ j' <> j -> at_ (put A ld i j v) ld i' j' = at_ A ld i' j'.
Proof. intros. rewrite at_put by assumption. destruct (Z.eqb_spec i' i), (Z.eqb_spec j' j); cbn; try reflexivity. lia. Qed.
Lemma upd_put A ld i j v p : p = i + j * ld -> upd A p v = put A ld i j v. Proof. now intros ->. Qed.

(** ** BLAS and LAPACK *)
Lemma swap_rows n ld i p A : 0 <= i < ld -> 0 <= p < ld -> 0 <= n -> forall r c, 0 <= r < ld -> 0 <= c < n -> at_ (swap n i ld p ld A) ld r c = at_ A ld (exchange i p r) c.
Proof.
  intros Hi Hp Hn. set (P := fun k B => forall r c, 0 <= r < ld -> (0 <= c < k -> at_ B ld r c = at_ A ld (exchange i p r) c) /\ (k <= c -> at_ B ld r c = at_ A ld r c)).
  assert (G : P n (swap n i ld p ld A)).
  { unfold swap. apply loop_inv; [exact Hn| |].
    - intros r c Hr. split; [lia|reflexivity].
    - intros k B Hk IH r c Hr. cbv zeta. fold (at_ B ld i k). fold (at_ B ld p k). rewrite (upd_put _ ld p k _ (p + k * ld)) by reflexivity. rewrite (upd_put _ ld i k _ (i + k * ld)) by reflexivity.
      destruct (Z.eq_dec c k) as [->|Hc].
      + split; [intros _|lia]. assert (Same : forall r, 0 <= r < ld -> at_ B ld r k = at_ A ld r k) by (intros x Hx; apply IH; [assumption|lia]).
        rewrite at_put by assumption. rewrite Z.eqb_refl, andb_true_r. unfold exchange. destruct (Z.eqb_spec r p) as [->|Hrp].
        * rewrite Same by assumption. destruct (Z.eqb_spec p i) as [->|]; reflexivity.
        * rewrite at_put by assumption. rewrite Z.eqb_refl, andb_true_r. destruct (Z.eqb_spec r i) as [->|]; now rewrite Same.
      + rewrite at_put_other, at_put_other by (assumption || lia). destruct (IH r c Hr) as (I1 & I2). split; intros Hc'; [apply I1; lia|apply I2; lia]. }
  intros r c Hr Hc. exact (proj1 (G r c Hr) Hc).
Qed.
Lemma swap_cols n ld j p A : 0 <= n <= ld -> forall r c, 0 <= r < n -> at_ (swap n (j * ld) 1 (p * ld) 1 A) ld r c = at_ A ld r (exchange j p c).
Proof.
  intros Hn. set (P := fun k B => forall r c, 0 <= r < ld -> (0 <= r < k -> at_ B ld r c = at_ A ld r (exchange j p c)) /\ (k <= r -> at_ B ld r c = at_ A ld r c)).
  assert (G : P n (swap n (j * ld) 1 (p * ld) 1 A)).
  { unfold swap. apply loop_inv; [lia| |].
    - intros r c Hr. split; [lia|reflexivity].
    - intros k B Hk IH r c Hr. cbv zeta. replace (j * ld + k * 1) with (k + j * ld) by lia. replace (p * ld + k * 1) with (k + p * ld) by lia.
      fold (at_ B ld k j). fold (at_ B ld k p). rewrite (upd_put _ ld k p _ (k + p * ld)) by reflexivity. rewrite (upd_put _ ld k j _ (k + j * ld)) by reflexivity.
      destruct (Z.eq_dec r k) as [->|Hc].
      + split; [intros _|lia]. assert (Same : forall c, at_ B ld k c = at_ A ld k c) by (intros x; apply IH; [assumption|lia]).
        rewrite at_put by assumption. rewrite Z.eqb_refl, andb_true_l. unfold exchange. destruct (Z.eqb_spec c p) as [->|Hrp].
        * rewrite Same. destruct (Z.eqb_spec p j) as [->|]; reflexivity.
        * rewrite at_put by assumption. rewrite Z.eqb_refl, andb_true_l. destruct (Z.eqb_spec c j) as [->|]; now rewrite Same.
      + rewrite at_put_other, at_put_other by (assumption || lia). destruct (IH r c Hr) as (I1 & I2). split; intros Hc'; [apply I1; lia|apply I2; lia]. }
  intros r c Hr. exact (proj1 (G r c ltac:(lia)) Hr).
Qed.
(** the whole sequences of interchanges, over an ascending (upper) or a descending (lower) range *)
Definition order (upper : bool) (n m : Z) : list Z := if upper then zrange 0 m else rev (zrange (n - m) n).
Lemma order_next upper n m : 0 <= m < n -> order upper n (m + 1) = order upper n m ++ [if upper then m else n - 1 - m].
Proof. intros H. destruct upper; cbn [order]; [apply zrange_snoc; lia|]. rewrite (zrange_cons (n - (m + 1))) by lia. cbn [rev]. f_equal; [do 2 f_equal; lia|f_equal; lia]. Qed.
Lemma interchanges_snoc piv l j i : interchanges piv (l ++ [j]) i = interchanges piv l (exchange j (piv j - 1) i).
Proof. unfold interchanges. now rewrite fold_right_app. Qed.
Lemma order_in upper n m : 0 <= m <= n -> forall j, In j (order upper n m) -> 0 <= j < n.
Proof. intros Hm j. unfold order. destruct upper; [intros H; apply zrange_in in H; lia|]. rewrite <- in_rev. intros H; apply zrange_in in H; lia. Qed.
Lemma order_all upper n : 0 <= n -> order upper n n = if upper then zrange 0 n else rev (zrange 0 n).
Proof. intros. unfold order. destruct upper; [reflexivity|]. now rewrite Z.sub_diag. Qed.
Section Swaps.
Variables (upper : bool) (n ld : Z) (piv : Z -> Z).
Hypothesis (Hn : 0 <= n <= ld) (Hp : forall j, 0 <= j < n -> 1 <= piv j <= n).
Lemma column_swaps A : forall r c, 0 <= r < n -> 0 <= c < n ->
  at_ (loop 0 n (fun k A => let j := if upper then k else n - 1 - k in if negb (piv j - 1 =? j) then swap n (j * ld) 1 ((piv j - 1) * ld) 1 A else A) A) ld r c = at_ A ld r (rows upper n piv c).
Proof.
  intros r c Hr Hc. unfold rows. rewrite <- (order_all upper n) by lia. revert c Hc.
  refine (loop_inv (fun m B => forall c, 0 <= c < n -> at_ B ld r c = at_ A ld r (interchanges piv (order upper n m) c)) 0 n _ A _ _ _); [lia| |].
  - intros c Hc. unfold order. destruct upper; cbn; [reflexivity|]. now rewrite Z.sub_0_r, zrange_nil by lia.
  - intros m B Hm IH c Hc. cbv zeta. set (j := if upper then m else n - 1 - m). assert (Hj : 0 <= j < n) by (unfold j; destruct upper; lia). assert (Pj := Hp j Hj).
    rewrite order_next by lia. fold j. rewrite interchanges_snoc. rewrite <- IH by (apply exchange_range; lia).
    destruct (Z.eqb_spec (piv j - 1) j) as [E|N]; cbn [negb]; [now rewrite E, exchange_refl|]. now apply swap_cols.
Qed.
Lemma row_swaps A : forall r c, 0 <= r < n -> 0 <= c < n ->
  at_ (loop 0 n (fun k A => let i := if upper then k else n - 1 - k in if negb (piv i - 1 =? i) then swap n i ld (piv i - 1) ld A else A) A) ld r c = at_ A ld (rows upper n piv r) c.
Proof.
  intros r c Hr Hc. unfold rows. rewrite <- (order_all upper n) by lia. revert r Hr.
  refine (loop_inv (fun m B => forall r, 0 <= r < n -> at_ B ld r c = at_ A ld (interchanges piv (order upper n m) r) c) 0 n _ A _ _ _); [lia| |].
  - intros r Hr. unfold order. destruct upper; cbn; [reflexivity|]. now rewrite Z.sub_0_r, zrange_nil by lia.
  - intros m B Hm IH r Hr. cbv zeta. set (j := if upper then m else n - 1 - m). assert (Hj : 0 <= j < n) by (unfold j; destruct upper; lia). assert (Pj := Hp j Hj).
    rewrite order_next by lia. fold j. rewrite interchanges_snoc. rewrite <- IH by (apply exchange_range; lia).
    destruct (Z.eqb_spec (piv j - 1) j) as [E|N]; cbn [negb]; [now rewrite E, exchange_refl|]. apply swap_rows; lia.
Qed.
End Swaps.

(** ** filling *)
Lemma fill_column ld n j g A : n <= ld -> forall lo hi, 0 <= lo -> hi <= n -> forall r c, 0 <= r < ld ->
  at_ (loop lo hi (fun i A => put A ld i j (g i)) A) ld r c = if (c =? j) && (lo <=? r) && (r <? hi) then g r else at_ A ld r c.
Proof.
  intros Hn lo hi Hlo Hhi. destruct (Z_le_gt_dec lo hi) as [Hle|Hgt].
  - refine (loop_inv (fun k B => forall r c, 0 <= r < ld -> at_ B ld r c = if (c =? j) && (lo <=? r) && (r <? k) then g r else at_ A ld r c) lo hi _ A Hle _ _).
    + intros r c Hr. destruct (Z.eqb_spec c j), (Z.leb_spec lo r), (Z.ltb_spec r lo); try lia; reflexivity.
    + intros k B Hk IH r c Hr. rewrite at_put by lia. rewrite IH by assumption. destruct (Z.eqb_spec r k) as [->|]; cbn [andb].
      * destruct (Z.eqb_spec c j); cbn [andb]; [|reflexivity]. destruct (Z.leb_spec lo k), (Z.ltb_spec k (k + 1)); try lia. reflexivity.
      * destruct (Z.ltb_spec r k), (Z.ltb_spec r (k + 1)); try lia; reflexivity.
  - intros r c Hr. rewrite loop_nil by lia. destruct (Z.leb_spec lo r), (Z.ltb_spec r hi); try lia; rewrite ?andb_false_r; reflexivity.
Qed.
Lemma identity_fill n ld A : 0 <= n <= ld -> forall r c, 0 <= r < n -> 0 <= c < n ->
  at_ (loop 0 n (fun j A => loop 0 n (fun i A => put A ld i j (if i =? j then RtoC 1 else RtoC 0)) A) A) ld r c = kron r c.
Proof.
  intros Hn r c Hr Hc.
  assert (G := loop_inv (fun m B => forall c, 0 <= c < m -> at_ B ld r c = kron r c) 0 n (fun j A => loop 0 n (fun i A => put A ld i j (if i =? j then RtoC 1 else RtoC 0)) A) A ltac:(lia)).
  cbn beta in G. apply G; [intros; lia| |exact Hc]. clear c Hc G. intros m B Hm IH c Hc.
  rewrite (fill_column ld n m (fun i => if i =? m then RtoC 1 else RtoC 0)) by lia. destruct (Z.eqb_spec c m) as [->|]; cbn [andb].
  - destruct (Z.leb_spec 0 r), (Z.ltb_spec r n); try lia. reflexivity.
  - apply IH. lia.
Qed.
Lemma lacpy_cells upper m A a ldA B b ldB rb cb : b = rb + cb * ldB -> 0 <= m -> 0 <= rb -> rb + m <= ldB -> forall r c, 0 <= r < ldB ->
  at_ (lacpy upper m A a ldA B b ldB) ldB r c =
  if (cb <=? c) && (c <? cb + m) && (if upper then (rb <=? r) && (r - rb <=? c - cb) else (c - cb <=? r - rb) && (r <? rb + m)) then A (a + (r - rb) + (c - cb) * ldA) else at_ B ldB r c.
Proof.
  intros -> Hm Hrb Hld. unfold lacpy.
  refine (loop_inv (fun k R => forall r c, 0 <= r < ldB -> at_ R ldB r c = if (cb <=? c) && (c <? cb + k) && (if upper then (rb <=? r) && (r - rb <=? c - cb) else (c - cb <=? r - rb) && (r <? rb + m)) then A (a + (r - rb) + (c - cb) * ldA) else at_ B ldB r c) 0 m _ B Hm _ _).
  - intros r c Hr. destruct (Z.leb_spec cb c), (Z.ltb_spec c (cb + 0)); try lia; reflexivity.
  - intros k R Hk IH r c Hr.
    set (lo := if upper then 0 else k). set (hi := if upper then k + 1 else m).
    assert (E : loop lo hi (fun i B => upd B (rb + cb * ldB + i + k * ldB) (A (a + i + k * ldA))) R = loop (rb + lo) (rb + hi) (fun i B => put B ldB i (cb + k) (A (a + (i - rb) + k * ldA))) R).
    { assert (Hlh : lo <= hi) by (unfold lo, hi; destruct upper; lia). clear - Hlh.
      replace hi with (lo + Z.of_nat (Z.to_nat (hi - lo))) by lia. generalize (Z.to_nat (hi - lo)). clear. intros q. induction q as [|q IH]; [now rewrite !loop_nil by lia|].
      replace (lo + Z.of_nat (S q)) with (lo + Z.of_nat q + 1) by lia. replace (rb + (lo + Z.of_nat q + 1)) with (rb + (lo + Z.of_nat q) + 1) by lia. rewrite !loop_last by lia. rewrite IH.
      unfold put. f_equal; [lia|]. f_equal. lia. }
    rewrite E. rewrite (fill_column ldB (rb + m) (cb + k) (fun i => A (a + (i - rb) + k * ldA))) by (unfold lo, hi; destruct upper; lia).
    rewrite IH by assumption. unfold lo, hi. destruct (Z.eqb_spec c (cb + k)) as [->|Hc]; cbn [andb].
    + replace (cb + k - cb) with k by lia. destruct (Z.leb_spec cb (cb + k)), (Z.ltb_spec (cb + k) (cb + (k + 1))), (Z.ltb_spec (cb + k) (cb + k)); try lia. cbn [andb].
      destruct upper.
      * destruct (Z.leb_spec (rb + 0) r), (Z.ltb_spec r (rb + (k + 1))), (Z.leb_spec rb r), (Z.leb_spec (r - rb) k); try lia; reflexivity.
      * destruct (Z.leb_spec (rb + k) r), (Z.ltb_spec r (rb + m)), (Z.leb_spec k (r - rb)); try lia; reflexivity.
    + destruct (Z.leb_spec cb c), (Z.ltb_spec c (cb + k)), (Z.ltb_spec c (cb + (k + 1))); try lia; reflexivity.
Qed.
Lemma trmm_cells upper m q A a ldA B b ldB rb cb : b = rb + cb * ldB -> 0 <= m -> 0 <= q -> 0 <= rb -> rb + m <= ldB -> forall r c, 0 <= r < ldB ->
  at_ (trmm upper m q A a ldA B b ldB) ldB r c =
  if (cb <=? c) && (c <? cb + q) && (rb <=? r) && (r <? rb + m)
  then Cplus (at_ B ldB r c) (csum (if upper then zrange 0 (r - rb) else zrange (r - rb + 1) m) (fun k => Cmult (A (a + k + (r - rb) * ldA)) (at_ B ldB (rb + k) c)))
  else at_ B ldB r c.
Proof.
  intros -> Hm Hq Hrb Hld. unfold trmm.
  set (g := fun c r => Cplus (at_ B ldB r c) (csum (if upper then zrange 0 (r - rb) else zrange (r - rb + 1) m) (fun k => Cmult (A (a + k + (r - rb) * ldA)) (at_ B ldB (rb + k) c)))).
  refine (loop_inv (fun k R => forall r c, 0 <= r < ldB -> at_ R ldB r c = if (cb <=? c) && (c <? cb + k) && (rb <=? r) && (r <? rb + m) then g c r else at_ B ldB r c) 0 q _ B Hq _ _).
  - intros r c Hr. destruct (Z.leb_spec cb c), (Z.ltb_spec c (cb + 0)); try lia; reflexivity.
  - intros k R Hk IH r c Hr.
    match goal with |- at_ (loop 0 m ?f R) _ _ _ = _ => assert (E : forall p : nat, loop 0 (Z.of_nat p) f R = loop (rb + 0) (rb + Z.of_nat p) (fun i B => put B ldB i (cb + k) (g (cb + k) i)) R) end.
    { clear. intros p. induction p as [|p IH]; [now rewrite !loop_nil by lia|].
      replace (Z.of_nat (S p)) with (Z.of_nat p + 1) by lia. replace (rb + (Z.of_nat p + 1)) with (rb + Z.of_nat p + 1) by lia. rewrite !loop_last by lia. rewrite IH.
      unfold put. f_equal; [lia|]. unfold g, at_. replace (rb + Z.of_nat p - rb) with (Z.of_nat p) by lia. f_equal; [f_equal; lia|]. apply csum_ext. intros z _. do 2 f_equal. lia. }
    specialize (E (Z.to_nat m)). rewrite Z2Nat.id in E by lia. rewrite E. rewrite (fill_column ldB (rb + m) (cb + k) (g (cb + k))) by lia. rewrite IH by assumption. destruct (Z.eqb_spec c (cb + k)) as [->|Hc]; cbn [andb].
    + destruct (Z.leb_spec cb (cb + k)), (Z.ltb_spec (cb + k) (cb + (k + 1))), (Z.ltb_spec (cb + k) (cb + k)); try lia. cbn [andb]. rewrite Z.add_0_r. destruct (rb <=? r), (r <? rb + m); reflexivity.
    + destruct (Z.leb_spec cb c), (Z.ltb_spec c (cb + k)), (Z.ltb_spec c (cb + (k + 1))); try lia; reflexivity.
Qed.
