(** Pfaffians of tridiagonal matrices, under interchanges and under unit triangular congruences. *)
From Coq Require Import ZArith List Bool Lia Reals Lra Permutation.
From Coquelicot Require Import Complex.
From Verif Require Import Base.ZLoop Base.RSum Pf.Pfaffian Pf.Spec Pf.Proofs Ltl.Model Ltl.Spec.
Import ListNotations.
Local Open Scope Z_scope.

(** ** interchanges *)
Lemma exchange_refl a i : exchange a a i = i.
Proof. unfold exchange. destruct (Z.eqb_spec i a); congruence. Qed.
Lemma exchange_twice a b i : exchange a b (exchange a b i) = i.
Proof. unfold exchange. destruct (Z.eqb_spec i a), (Z.eqb_spec i b); subst; repeat match goal with |- context [?x =? ?y] => destruct (Z.eqb_spec x y) end; congruence. Qed.
Lemma exchange_range n a b i : 0 <= a < n -> 0 <= b < n -> 0 <= i < n -> 0 <= exchange a b i < n.
Proof. intros. unfold exchange. destruct (i =? a), (i =? b); lia. Qed.
Lemma exchange_perm n a b : 0 <= a < n -> 0 <= b < n -> Permutation (map (exchange a b) (zrange 0 n)) (zrange 0 n).
Proof.
  intros Ha Hb. apply NoDup_Permutation_bis.
  - apply FinFun.Injective_map_NoDup; [|apply zrange_NoDup]. intros i j E. rewrite <- (exchange_twice a b i), E. apply exchange_twice.
  - rewrite map_length. lia.
  - intros i Hi. apply in_map_iff in Hi. destruct Hi as (k & <- & Hk). apply zrange_in in Hk. apply zrange_in. now apply exchange_range.
Qed.
Lemma csum_map {A B} (g : A -> B) (l : list A) (f : B -> C) : csum (map g l) f = csum l (fun x => f (g x)).
Proof. induction l as [|x l IH]; cbn; [reflexivity|]. now rewrite IH. Qed.
Lemma csum_exchange n a b f : 0 <= a < n -> 0 <= b < n -> csum (zrange 0 n) (fun k => f (exchange a b k)) = csum (zrange 0 n) f.
Proof. intros Ha Hb. rewrite <- csum_map. apply csum_perm. now apply exchange_perm. Qed.

Section Chain.
Variables (n : Z) (piv : Z -> Z).
Hypothesis Hp : forall j, 0 <= j < n -> 1 <= piv j <= n.
Lemma chain_range l : (forall j, In j l -> 0 <= j < n) -> forall i, 0 <= i < n -> 0 <= interchanges piv l i < n.
Proof.
  induction l as [|j l IH]; intros Hl i Hi; [exact Hi|]. cbn. assert (Hj : 0 <= j < n) by (apply Hl; now left). assert (P := Hp j Hj). apply exchange_range; [exact Hj|lia|]. apply IH; [|exact Hi]. intros; apply Hl; now right.
Qed.
Lemma csum_chain l : (forall j, In j l -> 0 <= j < n) -> forall f, csum (zrange 0 n) (fun k => f (interchanges piv l k)) = csum (zrange 0 n) f.
Proof.
  induction l as [|j l IH]; intros Hl f; [reflexivity|]. assert (Hj : 0 <= j < n) by (apply Hl; now left). assert (P := Hp j Hj).
  change (csum (zrange 0 n) (fun k => (fun i => f (exchange j (piv j - 1) i)) (interchanges piv l k)) = csum (zrange 0 n) f).
  etransitivity; [apply (IH ltac:(intros; apply Hl; now right) (fun i => f (exchange j (piv j - 1) i)))|]. apply csum_exchange; [exact Hj|lia].
Qed.
Lemma chain_injective l i j : interchanges piv l i = interchanges piv l j -> i = j.
Proof. induction l as [|k l IH]; [easy|]. cbn. intros E. apply IH. rewrite <- (exchange_twice k (piv k - 1) (interchanges piv l i)). unfold interchanges in *. rewrite E. apply exchange_twice. Qed.
Lemma kron_chain l i j : kron (interchanges piv l i) (interchanges piv l j) = kron i j.
Proof. unfold kron. destruct (Z.eqb_spec i j) as [->|N]; [now rewrite Z.eqb_refl|]. destruct (Z.eqb_spec (interchanges piv l i) (interchanges piv l j)) as [E|]; [|reflexivity]. now apply chain_injective in E. Qed.

(** ** Pfaffian under interchanges *)
Lemma pf_swap_far A a b : forall l2 l1 l3, skewsym A (l1 ++ a :: l2 ++ b :: l3) -> pf A (l1 ++ a :: l2 ++ b :: l3) = Copp (pf A (l1 ++ b :: l2 ++ a :: l3)).
Proof.
  induction l2 as [|y l2 IH]; intros l1 l3 H; cbn [app].
  - apply pf_swap'. apply H; rewrite !in_app_iff; cbn; tauto.
  - assert (I1 : In a (l1 ++ a :: (y :: l2) ++ b :: l3)) by (rewrite in_app_iff; cbn; tauto).
    assert (I2 : In b (l1 ++ a :: (y :: l2) ++ b :: l3)) by (rewrite in_app_iff; cbn; rewrite in_app_iff; cbn; tauto).
    assert (I3 : In y (l1 ++ a :: (y :: l2) ++ b :: l3)) by (rewrite in_app_iff; cbn; tauto).
    rewrite (pf_swap' A a y l1 (l2 ++ b :: l3)) by (apply H; assumption).
    change (l1 ++ y :: a :: l2 ++ b :: l3) with (l1 ++ [y] ++ (a :: l2 ++ b :: l3)). rewrite app_assoc. rewrite IH.
    + rewrite <- app_assoc. cbn [app]. rewrite (pf_swap' A y b l1 (l2 ++ a :: l3)) by (apply H; assumption). ring.
    + assert (P : forall z, In z ((l1 ++ [y]) ++ a :: l2 ++ b :: l3) -> In z (l1 ++ a :: (y :: l2) ++ b :: l3)).
      { clear. intros z. rewrite !in_app_iff. cbn. rewrite !in_app_iff. cbn. tauto. }
      intros i j Hi Hj. apply H; now apply P.
Qed.
Lemma map_exchange_away a b l : ~ In a l -> ~ In b l -> map (exchange a b) l = l.
Proof.
  induction l as [|y l IH]; intros Ha Hb; [reflexivity|]. cbn in *. rewrite IH by tauto. f_equal. unfold exchange. destruct (Z.eqb_spec y a), (Z.eqb_spec y b); tauto.
Qed.
Lemma pf_exchange A a b l : skewsym A l -> NoDup l -> In a l -> In b l -> a <> b -> pf (fun i j => A (exchange a b i) (exchange a b j)) l = Copp (pf A l).
Proof.
  intros Hs Hnd Ha Hb Hab. rewrite <- (pf_map A (exchange a b) (length l)) by lia.
  assert (W : forall a b, skewsym A l -> In a l -> a <> b -> forall l1 l2 l3, l = l1 ++ a :: l2 ++ b :: l3 -> pf A (map (exchange a b) l) = Copp (pf A l)).
  { clear - Hnd. intros a b Hs Ha Hab l1 l2 l3 E. subst l. rewrite map_app. cbn [map]. rewrite map_app. cbn [map].
    assert (Na : ~ In a (l1 ++ l2 ++ b :: l3)) by now apply NoDup_remove_2. assert (Nb : ~ In b ((l1 ++ a :: l2) ++ l3)). { apply NoDup_remove_2. rewrite <- app_assoc. exact Hnd. }
    rewrite !in_app_iff in Na. rewrite !in_app_iff in Nb. cbn in Na, Nb. rewrite !map_exchange_away by tauto.
    replace (exchange a b a) with b by (unfold exchange; now rewrite Z.eqb_refl). replace (exchange a b b) with a by (unfold exchange; rewrite Z.eqb_refl; destruct (Z.eqb_spec b a); congruence).
    rewrite (pf_swap_far A a b l2 l1 l3 Hs). ring. }
  destruct (in_split a l Ha) as (l1 & l2 & E). assert (Hb' := Hb). rewrite E, in_app_iff in Hb'. cbn in Hb'. destruct Hb' as [Hb'|[Hb'|Hb']]; [|congruence|].
  - destruct (in_split b l1 Hb') as (m1 & m2 & ->). rewrite (map_ext (exchange a b) (exchange b a)).
    + apply (W b a Hs Hb ltac:(congruence) m1 m2 l2). now rewrite E, <- app_assoc.
    + intros i. unfold exchange. destruct (Z.eqb_spec i a), (Z.eqb_spec i b); congruence.
  - destruct (in_split b l2 Hb') as (m1 & m2 & ->). exact (W a b Hs Ha Hab l1 m1 m2 E).
Qed.
(** each proper interchange changes the sign *)
Definition signs (l : list Z) (z : C) : C := fold_right (fun j z => if negb (piv j - 1 =? j) then Copp z else z) z l.
Lemma pf_chain l : (forall j, In j l -> 0 <= j < n) -> forall A, skewsym A (zrange 0 n) ->
  pf (fun i j => A (interchanges piv l i) (interchanges piv l j)) (zrange 0 n) = signs l (pf A (zrange 0 n)).
Proof.
  induction l as [|k l IH]; intros Hl A Hs; [reflexivity|]. cbn [interchanges fold_right signs].
  assert (Hk : 0 <= k < n) by (apply Hl; now left). assert (P := Hp k Hk).
  change (pf (fun i j => (fun i j => A (exchange k (piv k - 1) i) (exchange k (piv k - 1) j)) (interchanges piv l i) (interchanges piv l j)) (zrange 0 n) = (if negb (piv k - 1 =? k) then Copp (signs l (pf A (zrange 0 n))) else signs l (pf A (zrange 0 n)))).
  rewrite IH; [|intros; apply Hl; now right|].
  2:{ intros i j Hi Hj. apply Hs; apply zrange_in; apply zrange_in in Hi; apply zrange_in in Hj; apply exchange_range; lia. }
  assert (O : forall z, signs l (Copp z) = Copp (signs l z)). { clear. induction l as [|j l IH]; intros z; [reflexivity|]. cbn. unfold signs in IH. rewrite IH. now destruct (negb _). }
  destruct (Z.eqb_spec (piv k - 1) k) as [E|N]; cbn [negb].
  - f_equal. apply (pf_ext _ _ (length (zrange 0 n))); [lia|]. intros i j _ _. now rewrite E, !exchange_refl.
  - rewrite <- O. f_equal. apply pf_exchange; [exact Hs|apply zrange_NoDup|apply zrange_in; lia|apply zrange_in; lia|congruence].
Qed.
End Chain.

(** ** tridiagonal matrices *)
Lemma tri_skew t i j : tridiagonal t j i = Copp (tridiagonal t i j).
Proof. unfold tridiagonal. destruct (Z.eqb_spec i (j + 1)), (Z.eqb_spec j (i + 1)); try lia; ring. Qed.
Fixpoint evens (a : Z) (m : nat) (t : Z -> C) : C := match m with O => RtoC 1 | S m => Cmult (t a) (evens (a + 2) m t) end.
Lemma pf_tri t : forall m a, pf (tridiagonal t) (zrange a (a + 2 * Z.of_nat m)) = evens a m t.
Proof.
  induction m as [|m IH]; intros a; [rewrite zrange_nil by lia; reflexivity|].
  rewrite (zrange_cons a), (zrange_cons (a + 1)) by lia. rewrite pf_cons. cbn [psum evens].
  rewrite (psum_ext _ _ (fun _ _ => RtoC 0)).
  - rewrite psum_zero. replace (a + 1 + 1) with (a + 2) by lia. replace (a + 2 * Z.of_nat (S m)) with (a + 2 + 2 * Z.of_nat m) by lia. rewrite IH. unfold tridiagonal. rewrite Z.eqb_refl. ring.
  - intros z r Hz _ _. apply zrange_in in Hz. unfold tridiagonal. destruct (Z.eqb_spec z (a + 1)), (Z.eqb_spec a (z + 1)); try lia. ring.
Qed.

(** ** congruence with a unit triangular matrix *)
Definition congruent (n : Z) (U T : Z -> Z -> C) (i j : Z) : C := product n (product n U T) (transpose U) i j.
Lemma product_ext n X Y X' Y' i j : (forall k, 0 <= k < n -> X i k = X' i k /\ Y k j = Y' k j) -> product n X Y i j = product n X' Y' i j.
Proof. intros H. unfold product. apply csum_ext. intros k Hk. apply zrange_in in Hk. destruct (H k Hk) as (-> & ->). reflexivity. Qed.
Lemma product_assoc n X Y W i j : product n (product n X Y) W i j = product n X (product n Y W) i j.
Proof.
  unfold product. transitivity (csum (zrange 0 n) (fun k => csum (zrange 0 n) (fun l => Cmult (Cmult (X i l) (Y l k)) (W k j)))).
  - apply csum_ext. intros k _. now rewrite <- csum_scal_r.
  - rewrite csum_swap. apply csum_ext. intros l _. rewrite <- csum_scal. apply csum_ext. intros k _. ring.
Qed.
Lemma congruent_sum n U T i j : congruent n U T i j = csum (zrange 0 n) (fun a => csum (zrange 0 n) (fun b => Cmult (Cmult (U i a) (U j b)) (T a b))).
Proof.
  unfold congruent. rewrite product_assoc. unfold product, transpose. apply csum_ext. intros a _. rewrite <- csum_scal. apply csum_ext. intros b _. ring.
Qed.
Lemma congruent_skew n U T : (forall i j, 0 <= i < n -> 0 <= j < n -> T j i = Copp (T i j)) -> forall i j, congruent n U T j i = Copp (congruent n U T i j).
Proof.
  intros HT i j. rewrite !congruent_sum, csum_swap, <- csum_opp. apply csum_ext. intros b Hb. rewrite <- csum_opp. apply csum_ext. intros a Ha. apply zrange_in in Ha. apply zrange_in in Hb. rewrite (HT b a) by assumption. ring.
Qed.
Section Congruence.
Variables (n : Z) (T : Z -> Z -> C).
Hypothesis HT : forall i j, 0 <= i < n -> 0 <= j < n -> T j i = Copp (T i j).
(** replacing row m, which was that of the identity, by one with 1 at m and other entries at rows that are still those of the identity *)
Lemma pf_one_row W W' m : 0 <= m < n -> (forall i k, 0 <= i < n -> i <> m -> W' i k = W i k) -> (forall k, 0 <= k < n -> W m k = kron m k) ->
  W' m m = RtoC 1 -> (forall k, 0 <= k < n -> k <> m -> W' m k <> RtoC 0 -> forall j, 0 <= j < n -> W k j = kron k j) ->
  pf (congruent n W' T) (zrange 0 n) = pf (congruent n W T) (zrange 0 n).
Proof.
  intros Hm Hother Hid H1 Hspan. set (L := zrange 0 n). set (A := congruent n W T).
  assert (HA : skewsym A L). { intros i j _ _. now apply congruent_skew. }
  assert (Hnd : NoDup L) by apply zrange_NoDup. assert (HmL : In m L) by now apply zrange_in.
  assert (K1 : forall k j, 0 <= k < n -> (forall z, 0 <= z < n -> W k z = kron k z) -> A k j = csum L (fun b => Cmult (W j b) (T k b))).
  { intros k j Hk HW. unfold A. rewrite congruent_sum. fold L. rewrite (csum_ext L _ (fun a => Cmult (delta k a) (csum L (fun b => Cmult (W j b) (T a b))))).
    - apply (csum_delta L k (fun a => csum L (fun b => Cmult (W j b) (T a b)))); [exact Hnd|now apply zrange_in].
    - intros a Ha. apply zrange_in in Ha. rewrite HW by exact Ha. rewrite <- csum_scal. apply csum_ext. intros b _. change (kron k a) with (delta k a). ring. }
  (* the new row *)
  assert (E : forall i j, In i L -> In j L -> congruent n W' T i j = setrow A m (fun z => csum L (fun k => Cmult (W' m k) (A k z))) i j).
  { assert (R : forall j, In j L -> j <> m -> congruent n W' T m j = csum L (fun k => Cmult (W' m k) (A k j))).
    { intros j Hj Hne. apply zrange_in in Hj. rewrite congruent_sum. fold L. apply csum_ext. intros k Hk. apply zrange_in in Hk.
      destruct (Ceq_dec (W' m k) (RtoC 0)) as [Z0|NZ].
      - rewrite Z0, Cmult_0_l. apply csum_zero. intros b _. ring.
      - rewrite K1; [|exact Hk|]. + rewrite <- csum_scal. apply csum_ext. intros b _. rewrite (Hother j b Hj Hne). ring.
        + destruct (Z.eq_dec k m) as [->|Hkm]; [exact Hid|]. exact (Hspan k Hk Hkm NZ). }
    intros i j Hi Hj. unfold setrow. destruct (Z.eqb_spec i m) as [->|Hi'], (Z.eqb_spec j m) as [->|Hj'].
    - apply C_self_opp. now apply congruent_skew.
    - now apply R.
    - rewrite <- R by assumption. now apply congruent_skew.
    - unfold A. rewrite !congruent_sum. apply csum_ext. intros a _. apply csum_ext. intros b _. apply zrange_in in Hi. apply zrange_in in Hj. rewrite !Hother by assumption. reflexivity. }
  rewrite (pf_ext _ _ (length L) L (le_n _) E). clear E.
  destruct (pf_row_linear A L m Hnd HmL) as (c & _ & Hc). rewrite Hc.
  transitivity (csum L (fun k => Cmult (W' m k) (pf (setrow A m (A k)) L))).
  - rewrite (csum_ext L _ (fun z => csum L (fun k => Cmult (W' m k) (Cmult (A k z) (c z))))).
    + rewrite csum_swap. apply csum_ext. intros k _. rewrite csum_scal, Hc. reflexivity.
    + intros z _. rewrite <- csum_scal_r. apply csum_ext. intros k _. ring.
  - rewrite (csum_ext L _ (fun k => Cmult (delta m k) (pf A L))).
    + exact (csum_delta L m (fun _ => pf A L) Hnd HmL).
    + intros k Hk. unfold delta. destruct (Z.eqb_spec m k) as [<-|Hne].
      * rewrite H1. f_equal. apply (pf_ext _ _ (length L)); [lia|]. intros i j Hi Hj. now apply (setrow_same A L m).
      * rewrite (pf_row_equal A L m k) by (assumption || congruence). ring.
Qed.
(** rows 0..m-1 of U, identity below (or rows m..n-1, identity above) *)
Definition mixed (upper : bool) (U : Z -> Z -> C) (m i k : Z) : C := if (if upper then i <? m else m <=? i) then U i k else kron i k.
Lemma kron_refl i : kron i i = RtoC 1. Proof. unfold kron. now rewrite Z.eqb_refl. Qed.
Lemma pf_identity : pf (congruent n kron T) (zrange 0 n) = pf T (zrange 0 n).
Proof.
  apply (pf_ext _ _ (length (zrange 0 n))); [lia|]. intros i j Hi Hj. rewrite congruent_sum.
  rewrite (csum_ext _ _ (fun a => Cmult (delta i a) (csum (zrange 0 n) (fun b => Cmult (delta j b) (T a b))))).
  - rewrite (csum_delta _ i (fun a => csum (zrange 0 n) (fun b => Cmult (delta j b) (T a b)))) by (exact Hi || apply zrange_NoDup). apply (csum_delta _ j (fun b => T i b)); [apply zrange_NoDup|exact Hj].
  - intros a _. rewrite <- csum_scal. apply csum_ext. intros b _. change (kron i a) with (delta i a). change (kron j b) with (delta j b). ring.
Qed.
Lemma pf_congruent_upper a : pf (congruent n (unit_tri true a) T) (zrange 0 n) = pf T (zrange 0 n).
Proof.
  set (U := unit_tri true a). destruct (Z_le_gt_dec n 0) as [Hn|Hn]. { rewrite zrange_nil by lia. reflexivity. }
  assert (S : forall m, (m <= Z.to_nat n)%nat -> pf (congruent n (mixed true U (Z.of_nat m)) T) (zrange 0 n) = pf T (zrange 0 n)).
  { induction m as [|m IH]; intros Hm.
    - rewrite <- pf_identity. apply (pf_ext _ _ (length (zrange 0 n))); [lia|]. intros i j Hi Hj. apply zrange_in in Hi. apply zrange_in in Hj. rewrite !congruent_sum. apply csum_ext. intros x _. apply csum_ext. intros y _.
      unfold mixed. destruct (Z.ltb_spec i (Z.of_nat 0)), (Z.ltb_spec j (Z.of_nat 0)); try lia. reflexivity.
    - rewrite <- IH by lia. apply (pf_one_row _ _ (Z.of_nat m)).
      + lia. + intros i k Hi Hne. unfold mixed. destruct (Z.ltb_spec i (Z.of_nat (Datatypes.S m))), (Z.ltb_spec i (Z.of_nat m)); try lia; reflexivity.
      + intros k Hk. unfold mixed. now rewrite Z.ltb_irrefl.
      + unfold mixed. destruct (Z.ltb_spec (Z.of_nat m) (Z.of_nat (Datatypes.S m))); [|lia]. unfold U, unit_tri. now rewrite Z.eqb_refl.
      + intros k Hk Hne NZ j Hj. unfold mixed. destruct (Z.ltb_spec k (Z.of_nat m)) as [Hlt|]; [|reflexivity]. exfalso. apply NZ. unfold mixed. destruct (Z.ltb_spec (Z.of_nat m) (Z.of_nat (Datatypes.S m))); [|lia]. unfold U, unit_tri. destruct (Z.eqb_spec (Z.of_nat m) k), (Z.ltb_spec (Z.of_nat m) k); try lia. reflexivity. }
  rewrite <- (S (Z.to_nat n) (le_n _)). apply (pf_ext _ _ (length (zrange 0 n))); [lia|]. intros i j Hi Hj. apply zrange_in in Hi. apply zrange_in in Hj. rewrite !congruent_sum. apply csum_ext. intros x _. apply csum_ext. intros y _.
  unfold mixed. destruct (Z.ltb_spec i (Z.of_nat (Z.to_nat n))), (Z.ltb_spec j (Z.of_nat (Z.to_nat n))); try lia. reflexivity.
Qed.
Lemma pf_congruent_lower a : pf (congruent n (unit_tri false a) T) (zrange 0 n) = pf T (zrange 0 n).
Proof.
  set (U := unit_tri false a). destruct (Z_le_gt_dec n 0) as [Hn|Hn]. { rewrite zrange_nil by lia. reflexivity. }
  assert (S : forall m, (m <= Z.to_nat n)%nat -> pf (congruent n (mixed false U (n - Z.of_nat m)) T) (zrange 0 n) = pf T (zrange 0 n)).
  { induction m as [|m IH]; intros Hm.
    - rewrite <- pf_identity. apply (pf_ext _ _ (length (zrange 0 n))); [lia|]. intros i j Hi Hj. apply zrange_in in Hi. apply zrange_in in Hj. rewrite !congruent_sum. apply csum_ext. intros x _. apply csum_ext. intros y _.
      unfold mixed. destruct (Z.leb_spec (n - Z.of_nat 0) i), (Z.leb_spec (n - Z.of_nat 0) j); try lia. reflexivity.
    - rewrite <- IH by lia. apply (pf_one_row _ _ (n - Z.of_nat m - 1)).
      + lia. + intros i k Hi Hne. unfold mixed. destruct (Z.leb_spec (n - Z.of_nat (Datatypes.S m)) i), (Z.leb_spec (n - Z.of_nat m) i); try lia; reflexivity.
      + intros k Hk. unfold mixed. destruct (Z.leb_spec (n - Z.of_nat m) (n - Z.of_nat m - 1)); [lia|reflexivity].
      + unfold mixed. destruct (Z.leb_spec (n - Z.of_nat (Datatypes.S m)) (n - Z.of_nat m - 1)); [|lia]. unfold U, unit_tri. now rewrite Z.eqb_refl.
      + intros k Hk Hne NZ j Hj. unfold mixed. destruct (Z.leb_spec (n - Z.of_nat m) k) as [Hlt|]; [|reflexivity]. exfalso. apply NZ. unfold mixed. destruct (Z.leb_spec (n - Z.of_nat (Datatypes.S m)) (n - Z.of_nat m - 1)); [|lia]. unfold U, unit_tri. destruct (Z.eqb_spec (n - Z.of_nat m - 1) k), (Z.ltb_spec k (n - Z.of_nat m - 1)); try lia. reflexivity. }
  rewrite <- (S (Z.to_nat n) (le_n _)). apply (pf_ext _ _ (length (zrange 0 n))); [lia|]. intros i j Hi Hj. apply zrange_in in Hi. apply zrange_in in Hj. rewrite !congruent_sum. apply csum_ext. intros x _. apply csum_ext. intros y _.
  unfold mixed. destruct (Z.leb_spec (n - Z.of_nat (Z.to_nat n)) i), (Z.leb_spec (n - Z.of_nat (Z.to_nat n)) j); try lia. reflexivity.
Qed.
End Congruence.
