(** A factorisation routine that meets its contract for all sizes (Parlett and Reid's elimination with interchanges), and a Pfaffian. *)
From Coq Require Import ZArith List Bool Lia Reals.
From Coquelicot Require Import Complex.
From Verif Require Import Base.ZLoop Base.RSum Pf.Pfaffian Pf.Spec Pf.Proofs Ltl.Model Ltl.Spec Ltl.Arr Ltl.Pfa Blk.Model Blk.Spec Blk.Alg Blk.Arr Blk.ProofsMerge.
Import ListNotations.
Local Open Scope Z_scope.

Definition nonzero_at (A : Z -> Z -> C) (n i : Z) : bool := if Ceq_dec (A i (n - 1)) (RtoC 0) then false else true.
Definition pivot_row (A : Z -> Z -> C) (n : Z) : Z := match find (nonzero_at A n) (zrange 0 (n - 1)) with Some p => p | None => n - 2 end.
Record fact := Fact { fU : Z -> Z -> C; fT : Z -> C; fP : Z -> Z; fInv : Z -> Z }.
Fixpoint ref (k : nat) (A : Z -> Z -> C) : fact :=
  match k with
  | S (S _ as k1) =>
      let n := Z.of_nat k in let p := pivot_row A n in let e := exchange (n - 2) p in
      let t := A (e (n - 2)) (e (n - 1)) in
      let m i := if (0 <=? i) && (i <? n - 2) then if Ceq_dec t (RtoC 0) then RtoC 0 else Cdiv (A (e i) (e (n - 1))) t else RtoC 0 in
      let r := ref k1 (fun i j => Cminus (Cminus (A (e i) (e j)) (Cmult (m i) (A (e (n - 2)) (e j)))) (Cmult (m j) (A (e i) (e (n - 2))))) in
      Fact (fun i j => Cplus (fU r i j) (Cmult (m (fInv r i)) (kron (n - 2) j))) (upd (fT r) (n - 2) t) (upd (fP r) (n - 2) (p + 1)) (fun x => e (fInv r x))
  | _ => Fact kron (fun _ => RtoC 0) (fun j => j + 1) (fun x => x)
  end.

Definition sandwich (n : Z) (U : Z -> Z -> C) (t : Z -> C) (x y : Z) : C := csum (zrange 0 n) (fun k => csum (zrange 0 n) (fun l => Cmult (Cmult (U x k) (tridiagonal t k l)) (U y l))).
Lemma sandwich_ext n U U' t t' x y : (forall k, 0 <= k < n -> U x k = U' x k) -> (forall k, 0 <= k < n -> U y k = U' y k) -> (forall k, 0 <= k < n - 1 -> t k = t' k) -> sandwich n U t x y = sandwich n U' t' x y.
Proof.
  intros H1 H2 H3. apply csum_ext. intros k Hk. apply csum_ext. intros l Hl. apply zrange_in in Hk. apply zrange_in in Hl. rewrite H1, H2 by assumption. f_equal. f_equal. unfold tridiagonal. destruct (Z.eqb_spec l (k + 1)); [now rewrite H3 by lia|]. destruct (Z.eqb_spec k (l + 1)); [now rewrite H3 by lia|reflexivity].
Qed.
(** bilinear *)
Lemma csum_bi n (f g : Z -> C) (h : Z -> Z -> C) (c : C) (u : Z -> C) (y : Z -> C) : (forall k, 0 <= k < n -> f k = Cplus (g k) (Cmult c (u k))) ->
  csum (zrange 0 n) (fun k => csum (zrange 0 n) (fun l => Cmult (Cmult (f k) (h k l)) (y l))) =
  Cplus (csum (zrange 0 n) (fun k => csum (zrange 0 n) (fun l => Cmult (Cmult (g k) (h k l)) (y l)))) (Cmult c (csum (zrange 0 n) (fun k => csum (zrange 0 n) (fun l => Cmult (Cmult (u k) (h k l)) (y l))))).
Proof.
  intros H. rewrite <- csum_scal, <- csum_add. apply csum_ext. intros k Hk. apply zrange_in in Hk. rewrite <- csum_scal, <- csum_add. apply csum_ext. intros l _. rewrite H by exact Hk. ring.
Qed.
Lemma csum_bi' n (f g : Z -> C) (h : Z -> Z -> C) (c : C) (u : Z -> C) (y : Z -> C) : (forall k, 0 <= k < n -> f k = Cplus (g k) (Cmult c (u k))) ->
  csum (zrange 0 n) (fun k => csum (zrange 0 n) (fun l => Cmult (Cmult (y k) (h k l)) (f l))) =
  Cplus (csum (zrange 0 n) (fun k => csum (zrange 0 n) (fun l => Cmult (Cmult (y k) (h k l)) (g l)))) (Cmult c (csum (zrange 0 n) (fun k => csum (zrange 0 n) (fun l => Cmult (Cmult (y k) (h k l)) (u l))))).
Proof.
  intros H. rewrite <- csum_scal, <- csum_add. apply csum_ext. intros k Hk. rewrite <- csum_scal, <- csum_add. apply csum_ext. intros l Hl. apply zrange_in in Hl. rewrite H by exact Hl. ring.
Qed.

Lemma pivot_range A n : 2 <= n -> 0 <= pivot_row A n <= n - 2.
Proof. intros Hn. unfold pivot_row. destruct (find _ _) as [p|] eqn:E; [apply find_some in E; destruct E as (E & _); apply zrange_in in E; lia|lia]. Qed.
Lemma pivot_zero A n i : 2 <= n -> A (pivot_row A n) (n - 1) = RtoC 0 -> 0 <= i < n - 1 -> A i (n - 1) = RtoC 0.
Proof.
  intros Hn Hz Hi. unfold pivot_row in Hz. destruct (find _ _) as [p|] eqn:E.
  - apply find_some in E. destruct E as (_ & E). unfold nonzero_at in E. destruct (Ceq_dec _ _); [discriminate|contradiction].
  - pose proof (find_none _ _ E i (proj2 (zrange_in 0 (n - 1) i) Hi)) as F. unfold nonzero_at in F. now destruct (Ceq_dec _ _).
Qed.

Record right (n : Z) (A : Z -> Z -> C) (f : fact) : Prop := {
  rDiag : forall i j, j < i -> fU f i j = RtoC 0; rOne : forall i, fU f i i = RtoC 1; rLast : forall i j, n - 1 <= j -> fU f i j = kron i j;
  rPiv : forall j, 0 <= j < n -> 1 <= fP f j <= n; rPlain : forall j, n - 1 <= j -> fP f j = j + 1;
  rRows : forall i, n - 1 <= i -> interchanges (fP f) (zrange 0 n) i = i; rIn : forall i, 0 <= i < n - 1 -> 0 <= interchanges (fP f) (zrange 0 n) i < n - 1;
  rInv : forall i, fInv f (interchanges (fP f) (zrange 0 n) i) = i; rInvL : forall i, n - 1 <= i -> fInv f i = i;
  rVal : forall i j, 0 <= i < n -> 0 <= j < n -> A i j = sandwich n (fU f) (fT f) (interchanges (fP f) (zrange 0 n) i) (interchanges (fP f) (zrange 0 n) j) }.

Lemma interchanges_ext piv piv' l i : (forall j, In j l -> piv j = piv' j) -> interchanges piv l i = interchanges piv' l i.
Proof. unfold interchanges. induction l as [|a l IH]; intros H; [reflexivity|]. cbn [fold_right]. rewrite (H a) by now left. rewrite IH; [reflexivity|]. intros j Hj. apply H. now right. Qed.
Lemma kron_self i : kron i i = RtoC 1. Proof. unfold kron. now rewrite Z.eqb_refl. Qed.
Lemma kron_off i j : i <> j -> kron i j = RtoC 0. Proof. intros H. unfold kron. destruct (Z.eqb_spec i j); [contradiction|reflexivity]. Qed.

Lemma ref_right k : forall A, (forall i j, 0 <= i < Z.of_nat k -> 0 <= j < Z.of_nat k -> A j i = Copp (A i j)) -> right (Z.of_nat k) A (ref k A).
Proof.
  induction k as [|k IH]; intros A HA.
  { constructor; cbn [ref fU fT fP fInv]; intros; change (Z.of_nat 0) with 0 in *; try lia; try reflexivity; [now apply kron_off; lia|apply kron_self]. }
  destruct k as [|k].
  { constructor; cbn [ref fU fT fP fInv]; change (Z.of_nat 1) with 1; change (zrange 0 1) with [0]; intros; try lia; try reflexivity; [now apply kron_off; lia|apply kron_self| | |].
    - cbn [interchanges fold_right]. apply exchange_refl. - cbn [interchanges fold_right]. apply exchange_refl.
    - assert (i = 0) as -> by lia. assert (j = 0) as -> by lia. change (interchanges _ _ 0) with 0. unfold sandwich. change (zrange 0 1) with [0]. cbn [csum fold_right]. unfold tridiagonal. cbn [Z.eqb Z.add]. rewrite (skew_zero (A 0 0)) by (apply HA; lia). ring. }
  change (ref (S (S k)) A) with
    (let n := Z.of_nat (S (S k)) in let p := pivot_row A n in let e := exchange (n - 2) p in let t := A (e (n - 2)) (e (n - 1)) in
      let m i := if (0 <=? i) && (i <? n - 2) then if Ceq_dec t (RtoC 0) then RtoC 0 else Cdiv (A (e i) (e (n - 1))) t else RtoC 0 in
      let r := ref (S k) (fun i j => Cminus (Cminus (A (e i) (e j)) (Cmult (m i) (A (e (n - 2)) (e j)))) (Cmult (m j) (A (e i) (e (n - 2))))) in
      Fact (fun i j => Cplus (fU r i j) (Cmult (m (fInv r i)) (kron (n - 2) j))) (upd (fT r) (n - 2) t) (upd (fP r) (n - 2) (p + 1)) (fun x => e (fInv r x))).
  cbv zeta. set (n := Z.of_nat (S (S k))) in *. assert (Hk : Z.of_nat (S k) = n - 1) by (unfold n; lia). assert (Hn : 2 <= n) by (unfold n; lia). clearbody n.
  set (p := pivot_row A n). pose proof (pivot_range A n Hn) as Hp. fold p in Hp. set (e := exchange (n - 2) p). set (t := A (e (n - 2)) (e (n - 1))).
  set (m := fun i => if (0 <=? i) && (i <? n - 2) then if Ceq_dec t (RtoC 0) then RtoC 0 else Cdiv (A (e i) (e (n - 1))) t else RtoC 0).
  set (D := fun i j => Cminus (Cminus (A (e i) (e j)) (Cmult (m i) (A (e (n - 2)) (e j)))) (Cmult (m j) (A (e i) (e (n - 2))))).
  assert (He : forall i, 0 <= i < n -> 0 <= e i < n) by (intros i Hi; apply exchange_range; lia).
  assert (He1 : forall i, n - 1 <= i -> e i = i). { intros i Hi. unfold e, exchange. destruct (Z.eqb_spec i (n - 2)), (Z.eqb_spec i p); lia. }
  assert (He2 : forall i, 0 <= i < n - 1 -> 0 <= e i < n - 1) by (intros i Hi; apply exchange_range; lia).
  assert (Hee : forall i, e (e i) = i) by (intros; apply exchange_twice).
  assert (Hm0 : forall i, ~ (0 <= i < n - 2) -> m i = RtoC 0). { intros i Hi. unfold m. destruct (Z.leb_spec 0 i), (Z.ltb_spec i (n - 2)); cbn [andb]; (reflexivity || lia). }
  assert (Et : t = A p (n - 1)). { unfold t. rewrite (He1 (n - 1)) by lia. unfold e, exchange. now rewrite Z.eqb_refl. }
  assert (Hmt : forall i, 0 <= i < n - 2 -> Cmult (m i) t = A (e i) (n - 1)).
  { intros i Hi. unfold m. destruct (Z.leb_spec 0 i), (Z.ltb_spec i (n - 2)); try lia. cbn [andb]. destruct (Ceq_dec t (RtoC 0)) as [E|N].
    - rewrite Et in E. unfold p in E. rewrite (pivot_zero A n (e i) Hn E) by (apply He2; lia). ring.
    - rewrite (He1 (n - 1)) by lia. field. exact N. }
  assert (HD : forall i j, 0 <= i < n -> 0 <= j < n -> D j i = Copp (D i j)).
  { intros i j Hi Hj. unfold D. rewrite (HA (e i) (e j)) by (apply He; assumption). rewrite (HA (e i) (e (n - 2))) by (apply He; lia). rewrite (HA (e (n - 2)) (e j)) by (apply He; lia). ring. }
  rewrite Hk in IH. specialize (IH D ltac:(intros; apply HD; lia)). set (r := ref (S k) D) in *. clearbody r. destruct IH as [I1 I2 I3 I4 I5 I6 I7 I8 I9 I10].
  set (pv := upd (fP r) (n - 2) (p + 1)).
  assert (ER : forall i, interchanges pv (zrange 0 n) i = interchanges (fP r) (zrange 0 (n - 1)) (e i)).
  { intros i. replace (zrange 0 n) with (zrange 0 (n - 2) ++ [n - 2] ++ [n - 1]).
    2:{ replace (zrange 0 n) with (zrange 0 (n - 1) ++ [n - 1]) by (rewrite <- zrange_snoc by lia; f_equal; lia). rewrite app_assoc. f_equal. rewrite <- zrange_snoc by lia. f_equal. lia. }
    rewrite app_assoc. rewrite interchanges_snoc. rewrite interchanges_snoc. assert (Q1 : pv (n - 1) = n - 1 + 1) by (unfold pv; rewrite upd_other by lia; apply I5; lia). assert (Q2 : pv (n - 2) = p + 1) by apply upd_same. rewrite Q1, Q2. replace (n - 1 + 1 - 1) with (n - 1) by lia. rewrite exchange_refl. replace (p + 1 - 1) with p by lia. fold e.
    replace (zrange 0 (n - 1)) with (zrange 0 (n - 2) ++ [n - 2]) by (rewrite <- zrange_snoc by lia; f_equal; lia). rewrite interchanges_snoc. rewrite (I5 (n - 2)) by lia. replace (n - 2 + 1 - 1) with (n - 2) by lia. rewrite exchange_refl.
    apply interchanges_ext. intros j Hj. apply zrange_in in Hj. apply upd_other. lia. }
  set (R := interchanges (fP r) (zrange 0 (n - 1))) in *.
  assert (Hr : forall i, 0 <= i < n -> 0 <= R i < n). { intros i Hi. destruct (Z.lt_ge_cases i (n - 2)) as [L|L]; [specialize (I7 i ltac:(lia)); lia|rewrite I6 by lia; lia]. }
  constructor; cbn [fU fT fP fInv]; fold pv.
  - intros i j Hij. rewrite I1 by assumption. destruct (Z.eq_dec j (n - 2)) as [->|N]; [rewrite Hm0 by (rewrite I9 by lia; lia); ring|]. rewrite (kron_off (n - 2) j) by lia. ring.
  - intros i. rewrite I2. destruct (Z.eq_dec i (n - 2)) as [->|N]; [rewrite Hm0 by (rewrite I9 by lia; lia); ring|]. rewrite (kron_off (n - 2) i) by lia. ring.
  - intros i j Hj. rewrite I3 by lia. rewrite (kron_off (n - 2) j) by lia. ring.
  - intros j Hj. unfold pv. destruct (Z.eq_dec j (n - 2)) as [->|N]; [rewrite upd_same; lia|]. rewrite upd_other by assumption. destruct (Z.eq_dec j (n - 1)) as [->|]; [rewrite I5 by lia; lia|]. specialize (I4 j ltac:(lia)). lia.
  - intros j Hj. unfold pv. rewrite upd_other by lia. apply I5. lia.
  - intros i Hi. rewrite ER, He1 by assumption. apply I6. lia.
  - intros i Hi. rewrite ER. specialize (He2 i Hi). destruct (Z.lt_ge_cases (e i) (n - 2)) as [L|L]; [specialize (I7 (e i) ltac:(lia)); lia|rewrite I6 by lia; lia].
  - intros i. rewrite ER, I8. apply Hee.
  - intros i Hi. rewrite I9 by lia. now apply He1.
  - intros i0 j0 Hi0 Hj0. rewrite !ER. rewrite <- (Hee i0), <- (Hee j0) at 1. pose proof (He i0 Hi0) as Hi. pose proof (He j0 Hj0) as Hj. set (i := e i0) in *. set (j := e j0) in *. clearbody i j.
    set (T := upd (fT r) (n - 2) t). set (V := sandwich n (fU r) T).
    assert (Row2 : forall k0, fU r (n - 2) k0 = kron (n - 2) k0). { intros k0. destruct (Z.lt_trichotomy k0 (n - 2)) as [L|[->|L]]; [rewrite I1 by lia; symmetry; apply kron_off; lia|rewrite I2; now rewrite kron_self|apply I3; lia]. }
    assert (Row1 : forall k0, fU r (n - 1) k0 = kron (n - 1) k0). { intros k0. destruct (Z.lt_trichotomy k0 (n - 1)) as [L|[->|L]]; [rewrite I1 by lia; symmetry; apply kron_off; lia|rewrite I2; now rewrite kron_self|apply I3; lia]. }
    (* the factors as a sum *)
    assert (EXP : sandwich n (fun i j => Cplus (fU r i j) (Cmult (m (fInv r i)) (kron (n - 2) j))) T (R i) (R j) =
      Cplus (Cplus (V (R i) (R j)) (Cmult (m i) (V (n - 2) (R j)))) (Cmult (m j) (Cplus (V (R i) (n - 2)) (Cmult (m i) (V (n - 2) (n - 2)))))).
    { unfold sandwich at 1. rewrite (csum_bi n _ (fU r (R i)) (tridiagonal T) (m i) (fU r (n - 2))) by (intros k0 _; unfold R; rewrite I8, Row2; reflexivity).
      rewrite (csum_bi' n _ (fU r (R j)) (tridiagonal T) (m j) (fU r (n - 2)) (fU r (R i))) by (intros k0 _; unfold R; rewrite I8, Row2; reflexivity).
      rewrite (csum_bi' n _ (fU r (R j)) (tridiagonal T) (m j) (fU r (n - 2)) (fU r (n - 2))) by (intros k0 _; unfold R; rewrite I8, Row2; reflexivity).
      unfold V, sandwich. ring. }
    rewrite EXP.
    (* the smaller product *)
    assert (VS : forall x y, 0 <= x < n - 1 -> 0 <= y < n - 1 -> V x y = sandwich (n - 1) (fU r) (fT r) x y).
    { intros x y Hx Hy. unfold V, sandwich. replace (zrange 0 n) with (zrange 0 (n - 1) ++ [n - 1]) by (rewrite <- zrange_snoc by lia; f_equal; lia).
      rewrite csum_app. cbn [csum fold_right]. rewrite (csum_zero (zrange 0 (n - 1) ++ [n - 1]) (fun l => Cmult (Cmult (fU r x (n - 1)) (tridiagonal T (n - 1) l)) (fU r y l))) by (intros l _; rewrite (I3 x) by lia; rewrite kron_off by lia; ring).
      transitivity (csum (zrange 0 (n - 1)) (fun k => csum (zrange 0 (n - 1)) (fun l => Cmult (Cmult (fU r x k) (tridiagonal (fT r) k l)) (fU r y l)))); [|reflexivity].
      rewrite Cplus_0_l, Cplus_0_r. apply csum_ext. intros k0 Hk0. rewrite csum_app. cbn [csum fold_right]. rewrite (I3 y) by lia. rewrite (kron_off y) by lia. rewrite Cmult_0_r, Cplus_0_l, Cplus_0_r. apply csum_ext. intros l Hl. apply zrange_in in Hk0. apply zrange_in in Hl. f_equal. f_equal. unfold tridiagonal, T. destruct (Z.eqb_spec l (k0 + 1)); [rewrite upd_other by lia; reflexivity|]. destruct (Z.eqb_spec k0 (l + 1)); [rewrite upd_other by lia; reflexivity|reflexivity]. }
    assert (VL : forall x, 0 <= x < n -> V x (n - 1) = Cmult (fU r x (n - 2)) t).
    { intros x Hx. unfold V, sandwich. rewrite (csum_ext _ _ (fun k0 => Cmult (Cmult (fU r x k0) t) (kron k0 (n - 2)))); [rewrite csum_kron' by lia; reflexivity|]. intros k0 Hk0. apply zrange_in in Hk0.
      rewrite (csum_ext _ _ (fun l => Cmult (kron (n - 1) l) (Cmult (fU r x k0) (tridiagonal T k0 l)))) by (intros l _; rewrite Row1; ring). rewrite csum_kron by lia.
      rewrite <- Cmult_assoc. f_equal. unfold tridiagonal. destruct (Z.eqb_spec (n - 1) (k0 + 1)) as [E|N].
      - replace k0 with (n - 2) by lia. unfold T. rewrite upd_same, kron_self. ring.
      - rewrite (kron_off k0) by lia. destruct (Z.eqb_spec k0 (n - 1 + 1)); [lia|ring]. }
    assert (VR : forall x, 0 <= x < n -> V (n - 1) x = Copp (Cmult (fU r x (n - 2)) t)).
    { intros x Hx. unfold V, sandwich. rewrite (csum_ext _ _ (fun k0 => Cmult (kron (n - 1) k0) (csum (zrange 0 n) (fun l => Cmult (tridiagonal T k0 l) (fU r x l))))) by (intros k0 _; rewrite <- csum_scal; apply csum_ext; intros l _; rewrite Row1; ring). rewrite csum_kron by lia.
      rewrite (csum_ext _ _ (fun l => Cmult (Copp (Cmult (fU r x l) t)) (kron l (n - 2)))); [rewrite csum_kron' by lia; reflexivity|]. intros l Hl. apply zrange_in in Hl. unfold tridiagonal. destruct (Z.eqb_spec l (n - 1 + 1)); [lia|]. destruct (Z.eqb_spec (n - 1) (l + 1)) as [E|N].
      - replace l with (n - 2) by lia. unfold T. rewrite upd_same, kron_self. ring.
      - rewrite (kron_off l) by lia. ring. }
    (* entries of the eliminated matrix *)
    assert (VD : forall x y, 0 <= x < n -> 0 <= y < n -> V (R x) (R y) = D x y).
    { assert (R1 : R (n - 1) = n - 1) by (apply I6; lia).
      assert (RU : forall x, 0 <= x < n - 1 -> fU r (R x) (n - 2) = kron x (n - 2)).
      { intros x Hx. rewrite I3 by lia. destruct (Z.eq_dec x (n - 2)) as [->|N]; [rewrite (I6 (n - 2)) by lia; reflexivity|]. specialize (I7 x ltac:(lia)). fold R in I7. rewrite !kron_off by lia. reflexivity. }
      assert (DL : forall x, 0 <= x < n - 1 -> D x (n - 1) = Cmult (kron x (n - 2)) t).
      { intros x Hx. unfold D. rewrite (Hm0 (n - 1)) by lia. rewrite (He1 (n - 1)) by lia. destruct (Z.eq_dec x (n - 2)) as [->|N].
        - rewrite (Hm0 (n - 2)) by lia. rewrite kron_self. unfold t. rewrite (He1 (n - 1)) by lia. ring.
        - rewrite (kron_off x) by lia. pose proof (Hmt x ltac:(lia)) as E. unfold t in E. rewrite (He1 (n - 1)) in E by lia. rewrite <- E. ring. }
      intros x y Hx Hy. destruct (Z.eq_dec x (n - 1)) as [->|Nx], (Z.eq_dec y (n - 1)) as [->|Ny].
      - rewrite R1, VL by lia. rewrite I1 by lia. rewrite (skew_zero (D (n - 1) (n - 1))) by (apply HD; lia). ring.
      - rewrite R1, VR by (apply Hr; lia). rewrite RU by lia. rewrite (HD y (n - 1)) by lia. rewrite DL by lia. reflexivity.
      - rewrite R1, VL by (apply Hr; lia). rewrite RU by lia. symmetry. apply DL. lia.
      - assert (RR : forall z, 0 <= z < n - 1 -> 0 <= R z < n - 1) by (intros z Hz; destruct (Z.lt_ge_cases z (n - 2)) as [L|L]; [specialize (I7 z ltac:(lia)); fold R in I7; lia|rewrite I6 by lia; lia]).
        rewrite VS by (apply RR; lia). symmetry. apply I10; lia. }
    assert (R2 : R (n - 2) = n - 2) by (apply I6; lia).
    pose proof (VD i j Hi Hj) as E1. pose proof (VD (n - 2) j ltac:(lia) Hj) as E2. pose proof (VD i (n - 2) Hi ltac:(lia)) as E3. pose proof (VD (n - 2) (n - 2) ltac:(lia) ltac:(lia)) as E4. rewrite R2 in E2, E3, E4.
    rewrite E1, E2, E3, E4. rewrite (skew_zero (D (n - 2) (n - 2))) by (apply HD; lia). unfold D. rewrite (Hm0 (n - 2)) by lia. rewrite (skew_zero (A (e (n - 2)) (e (n - 2)))) by (apply HA; apply He; lia). ring.
Qed.

(** stored as sktrf does *)
Definition ref_sktrf (n ld : Z) (A : Z -> C) : (Z -> C) * (Z -> Z) :=
  let f := ref (Z.to_nat n) (full A ld) in
  (fun q => let i := q mod ld in let c := q / ld in if c =? i + 1 then fT f i else fU f i (c - 1), fP f).
Lemma cell i c ld : 0 <= i < ld -> (i + c * ld) mod ld = i /\ (i + c * ld) / ld = c.
Proof. intros H. rewrite Z.mod_add, Z.div_add by lia. rewrite Z.mod_small, Z.div_small by lia. lia. Qed.
Theorem ref_factorises : factorises_upper ref_sktrf.
Proof.
  intros n ld A _ Hn. pose proof (ref_right (Z.to_nat n) (full A ld) (fun i j _ _ => full_skew A ld i j)) as H. rewrite Z2Nat.id in H by lia. unfold ref_sktrf. cbv zeta. cbn [fst snd]. set (f := ref (Z.to_nat n) (full A ld)) in *. set (S := fun q => _).
  destruct H as [H1 H2 H3 H4 H5 H6 H7 H8 H9 H10]. split; [exact H4|]. intros i j Hi Hj. rewrite H10 by assumption. unfold rows. cbv iota.
  assert (HR : forall i, 0 <= i < n -> 0 <= interchanges (fP f) (zrange 0 n) i < n). { intros x Hx. destruct (Z.lt_ge_cases x (n - 1)) as [L|L]; [specialize (H7 x ltac:(lia)); lia|rewrite H6 by lia; lia]. }
  pose proof (HR i Hi) as Rx. pose proof (HR j Hj) as Ry. set (x := interchanges (fP f) (zrange 0 n) i) in *. set (y := interchanges (fP f) (zrange 0 n) j) in *. clearbody x y.
  assert (EU : forall x k, 0 <= x < n -> 0 <= k < n -> factor true n S ld x k = fU f x k).
  { intros x0 k Hx Hk. unfold factor, unit_tri. destruct (Z.eqb_spec x0 k) as [->|N]; [now rewrite H2|]. destruct (Z.ltb_spec x0 k); [|now rewrite H1 by lia]. destruct (Z.ltb_spec k (n - 1)).
    - unfold at_, S. destruct (cell x0 (k + 1) ld ltac:(lia)) as (-> & ->). destruct (Z.eqb_spec (k + 1) (x0 + 1)); [lia|]. f_equal. lia.
    - rewrite H3 by lia. symmetry. apply kron_off. lia. }
  assert (ET : forall k, 0 <= k < n - 1 -> diagonal_of true S ld k = fT f k).
  { intros k Hk. unfold diagonal_of, at_, S. destruct (cell k (k + 1) ld ltac:(lia)) as (-> & ->). now rewrite Z.eqb_refl. }
  rewrite <- (sandwich_ext n (factor true n S ld) (fU f) (diagonal_of true S ld) (fT f) x y) by (intros; (apply EU || apply ET); assumption).
  unfold sandwich, product, transpose. rewrite csum_swap. apply csum_ext. intros l Hl. rewrite (csum_ext _ _ (fun k => Cmult (factor true n S ld y l) (Cmult (factor true n S ld x k) (tridiagonal (diagonal_of true S ld) k l)))) by (intros; ring). rewrite csum_scal. ring.
Qed.
Definition ref_skpfa (n ld : Z) (A : Z -> C) : C * (Z -> C) := (pf (full A ld) (zrange 0 n), A).
Lemma ref_pfaffian : pfaffian_of_upper ref_skpfa. Proof. intros n ld A _ _. split; [reflexivity|reflexivity]. Qed.
