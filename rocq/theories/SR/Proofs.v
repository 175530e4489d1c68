From Coq Require Import ZArith List Bool Reals Lia Lra Permutation.
From Coquelicot Require Import Complex.
From Verif Require Import Base.ZLoop Base.RSum Par.Model Par.Proofs SR.Model SR.Spec.
Import ListNotations.
Local Open Scope Z_scope.

(** ** complex arithmetic and loops *)
Lemma Ceq (a b : C) : fst a = fst b -> snd a = snd b -> a = b.
Proof. destruct a, b. cbn. intros -> ->. reflexivity. Qed.
Lemma cadd_get a i v j : cadd a i v j = if j =? i then Cplus (a i) v else a j.
Proof. unfold cadd. apply upd_get. Qed.
Lemma cell_eq n i j i' j' : 0 <= j < n -> 0 <= j' < n -> i * n + j = i' * n + j' -> i = i' /\ j = j'.
Proof. intros Hj Hj' E. assert (i = i') by nia. subst. lia. Qed.
Lemma cells_lt i j k l n : 0 <= j < n -> 0 <= l < n -> i <> k -> i * n + j <> k * n + l.
Proof. nia. Qed.
(** one row *)
Lemma row_get n i (v : Z -> C) oo i' j' : 0 <= j' < n ->
  loop 0 n (fun j oo => cadd oo (i * n + j) (v j)) oo (i' * n + j') = Cplus (oo (i' * n + j')) (if i' =? i then v j' else RtoC 0).
Proof.
  intros Hj'.
  assert (A : (fun k q => forall j', 0 <= j' < n -> q (i' * n + j') = Cplus (oo (i' * n + j')) (if (i' =? i) && (j' <? k) then v j' else RtoC 0)) n
     (loop 0 n (fun j oo => cadd oo (i * n + j) (v j)) oo)).
  { apply (loop_inv (fun k q => forall j', 0 <= j' < n -> q (i' * n + j') = Cplus (oo (i' * n + j')) (if (i' =? i) && (j' <? k) then v j' else RtoC 0))); [lia| |].
    - intros j Hj. destruct (Z.ltb_spec j 0); [lia|]. rewrite andb_false_r. ring.
    - intros k q Hk IH j Hj. rewrite cadd_get. destruct (Z.eqb_spec (i' * n + j) (i * n + k)) as [e|e].
      + apply (cell_eq n i' j i k) in e; [|lia|lia]. destruct e as (E1 & E2). rewrite E1, E2 in *. rewrite (IH k) by lia. rewrite Z.eqb_refl.
        destruct (Z.ltb_spec k k), (Z.ltb_spec k (k + 1)); try lia. cbn [andb]. ring.
      + rewrite IH by lia. destruct (Z.eqb_spec i' i) as [->|]; cbn [andb]; [|reflexivity].
        assert (j <> k) by (intros ->; apply e; reflexivity).
        destruct (Z.ltb_spec j k), (Z.ltb_spec j (k + 1)); try lia; reflexivity. }
  rewrite A by assumption. destruct (Z.ltb_spec j' n); [|lia]. now rewrite andb_true_r.
Qed.
Lemma rows_get n a b (v : Z -> Z -> C) oo i' j' : a <= b -> 0 <= j' < n ->
  loop a b (fun i oo => loop 0 n (fun j oo => cadd oo (i * n + j) (v i j)) oo) oo (i' * n + j') =
  Cplus (oo (i' * n + j')) (if (a <=? i') && (i' <? b) then v i' j' else RtoC 0).
Proof.
  intros Hab Hj'.
  assert (A : (fun k q => q (i' * n + j') = Cplus (oo (i' * n + j')) (if (a <=? i') && (i' <? k) then v i' j' else RtoC 0)) b
     (loop a b (fun i oo => loop 0 n (fun j oo => cadd oo (i * n + j) (v i j)) oo) oo)).
  { apply (loop_inv (fun k q => q (i' * n + j') = Cplus (oo (i' * n + j')) (if (a <=? i') && (i' <? k) then v i' j' else RtoC 0))); [lia| |].
    - destruct (Z.leb_spec a i'), (Z.ltb_spec i' a); try lia; cbn [andb]; ring.
    - intros k q Hk IH. rewrite row_get by lia. rewrite IH. destruct (Z.eqb_spec i' k) as [->|].
      + destruct (Z.leb_spec a k), (Z.ltb_spec k k), (Z.ltb_spec k (k + 1)); try lia. cbn [andb]. ring.
      + destruct (Z.leb_spec a i'), (Z.ltb_spec i' k), (Z.ltb_spec i' (k + 1)); try lia; cbn [andb]; ring. }
  exact A.
Qed.
Lemma first_rows S w e (O oo ho : Z -> C) : 0 <= S ->
  let st := loop 0 (2 * S) (fun j (st : (Z -> C) * (Z -> C)) =>
      let (oo, ho) := st in
      let tmp := Cmult (RtoC w) (O j) in
      let oo := cadd oo (0 * (2 * S) + j) tmp in
      let oo := cadd oo (1 * (2 * S) + j) (RtoC 0) in
      (oo, cadd ho j (Cmult e tmp))) (oo, ho) in
  (forall x, fst st x = Cplus (oo x) (if (0 <=? x) && (x <? 2 * S) then Cmult (RtoC w) (O x) else RtoC 0)) /\
  (forall x, snd st x = Cplus (ho x) (if (0 <=? x) && (x <? 2 * S) then Cmult (Cmult (RtoC w) e) (O x) else RtoC 0)).
Proof.
  intros HS st. unfold st. clear st.
  apply (loop_inv (fun k (st : (Z -> C) * (Z -> C)) =>
    (forall x, fst st x = Cplus (oo x) (if (0 <=? x) && (x <? k) then Cmult (RtoC w) (O x) else RtoC 0)) /\
    (forall x, snd st x = Cplus (ho x) (if (0 <=? x) && (x <? k) then Cmult (Cmult (RtoC w) e) (O x) else RtoC 0)))); [lia| |].
  - split; intros x; destruct (Z.leb_spec 0 x), (Z.ltb_spec x 0); try lia; cbn [andb fst snd]; ring.
  - intros k (q, h) Hk (IHq & IHh). cbn [fst snd] in *. split; intros x.
    + rewrite !cadd_get. replace (0 * (2 * S) + k) with k by ring. destruct (Z.eqb_spec x (1 * (2 * S) + k)) as [->|e1].
      * destruct (Z.eqb_spec (1 * (2 * S) + k) k) as [e0|e0].
        -- lia.
        -- rewrite IHq. destruct (Z.leb_spec 0 (1 * (2 * S) + k)), (Z.ltb_spec (1 * (2 * S) + k) k), (Z.ltb_spec (1 * (2 * S) + k) (k + 1)); try lia; cbn [andb]; ring.
      * destruct (Z.eqb_spec x k) as [->|e0]; rewrite IHq.
        -- destruct (Z.leb_spec 0 k), (Z.ltb_spec k k), (Z.ltb_spec k (k + 1)); try lia; cbn [andb]; ring.
        -- destruct (Z.leb_spec 0 x), (Z.ltb_spec x k), (Z.ltb_spec x (k + 1)); try lia; cbn [andb]; ring.
    + rewrite cadd_get. destruct (Z.eqb_spec x k) as [->|e0]; rewrite IHh.
      * destruct (Z.leb_spec 0 k), (Z.ltb_spec k k), (Z.ltb_spec k (k + 1)); try lia; cbn [andb]; ring.
      * destruct (Z.leb_spec 0 x), (Z.ltb_spec x k), (Z.ltb_spec x (k + 1)); try lia; cbn [andb]; ring.
Qed.
Lemma Cconj_1 : Cconj (RtoC 1) = RtoC 1. Proof. unfold Cconj, RtoC. cbn. f_equal. ring. Qed.
Lemma Cconj_0 : Cconj (RtoC 0) = RtoC 0. Proof. unfold Cconj, RtoC. cbn. f_equal. ring. Qed.

Lemma calculateOO_get S w e x oo ho : 0 < S ->
  (forall i j, 0 <= i < 2 * S -> 0 <= j < 2 * S ->
    fst (calculateOO S w e (srOptO x) oo ho) (i * (2 * S) + j) =
    Cplus (oo (i * (2 * S) + j)) (Cmult (RtoC w) (Cmult (srOptO x j) (Cconj (srOptO x i))))) /\
  (forall j, 0 <= j < 2 * S -> snd (calculateOO S w e (srOptO x) oo ho) j =
    Cplus (ho j) (Cmult (RtoC w) (Cmult e (srOptO x j)))).
Proof.
  intros HS. unfold calculateOO. pose proof (first_rows S w e (srOptO x) oo ho ltac:(lia)) as F. cbn zeta in F.
  set (st := loop 0 (2 * S) _ (oo, ho)) in *. destruct st as (q, h). cbn [fst snd] in F. destruct F as (Fq & Fh). cbn [fst snd]. split.
  - intros i j Hi Hj. rewrite (rows_get (2 * S) 2 (2 * S) (fun i j => Cmult (RtoC w) (Cmult (srOptO x j) (Cconj (srOptO x i))))) by lia.
    rewrite Fq. destruct (Z.leb_spec 2 i).
    + destruct (Z.ltb_spec i (2 * S)); [|lia]. cbn [andb].
      destruct (Z.leb_spec 0 (i * (2 * S) + j)), (Z.ltb_spec (i * (2 * S) + j) (2 * S)); try nia; cbn [andb]; ring.
    + cbn [andb]. assert (C : i = 0 \/ i = 1) by lia. destruct C as [-> | ->].
      * replace (0 * (2 * S) + j) with j by ring. destruct (Z.leb_spec 0 j), (Z.ltb_spec j (2 * S)); try lia. cbn [andb].
        change (srOptO x 0) with (RtoC 1). rewrite Cconj_1. ring.
      * destruct (Z.ltb_spec (1 * (2 * S) + j) (2 * S)); [lia|]. rewrite andb_false_r.
        change (srOptO x 1) with (RtoC 0). rewrite Cconj_0. ring.
  - intros j Hj. rewrite Fh. destruct (Z.leb_spec 0 j), (Z.ltb_spec j (2 * S)); try lia. cbn [andb]. ring.
Qed.

(** ** one process: sums over its samples *)
Definition part (smp : Z -> sample) (a b : Z) : list sample := counted (map smp (zrange a b)).
Lemma part_snoc smp a b : a <= b -> part smp a (b + 1) = part smp a b ++ (if ok (smp b) then [smp b] else []).
Proof. intros H. unfold part, counted. rewrite zrange_snoc, map_app, filter_app by assumption. cbn [map filter]. reflexivity. Qed.
Lemma part_nil smp a : part smp a a = [].
Proof. unfold part. rewrite zrange_nil by lia. reflexivity. Qed.

Record sums (l : list sample) (a : acc) : Prop := {
  su_W : Wc a = rsum l wgt;
  su_E : Etot a = csum l (fun x => Cmult (RtoC (wgt x)) (ene x));
  su_E2 : Etot2 a = csum l (fun x => Cmult (RtoC (wgt x)) (Cmult (ene x) (Cconj (ene x))))
}.
Record sumsHO (S : Z) (l : list sample) (ho : Z -> C) : Prop := {
  su_HO : forall j, 0 <= j < 2 * S -> ho j = csum l (fun x => Cmult (RtoC (wgt x)) (Cmult (ene x) (srOptO x j)))
}.
Record sumsOO (S : Z) (l : list sample) (oo : Z -> C) : Prop := {
  su_OO : forall i j, 0 <= i < 2 * S -> 0 <= j < 2 * S -> oo (i * (2 * S) + j) =
    csum l (fun x => Cmult (RtoC (wgt x)) (Cmult (srOptO x j) (Cconj (srOptO x i))))
}.
Lemma sums_nil st : sums [] (clear st).
Proof. now constructor. Qed.
Lemma store_sample_get S i w e (O st ho : Z -> C) : 0 <= S ->
  let r := store_sample S i w e O st ho in
  (forall k, fst r k = if (i * (2 * S) <=? k) && (k <? (i + 1) * (2 * S)) then Cmult (RtoC (sqrt w)) (O (k - i * (2 * S))) else st k) /\
  (forall j, 0 <= j < 2 * S -> snd r j = Cplus (ho j) (Cmult (RtoC w) (Cmult e (O j)))).
Proof.
  intros HS r. unfold r, store_sample. clear r.
  assert (A : (fun m (x : (Z -> C) * (Z -> C)) =>
     (forall k, fst x k = if (i * (2 * S) <=? k) && (k <? i * (2 * S) + m) then Cmult (RtoC (sqrt w)) (O (k - i * (2 * S))) else st k) /\
     (forall j, 0 <= j < 2 * S -> snd x j = Cplus (ho j) (if j <? m then Cmult (RtoC w) (Cmult e (O j)) else RtoC 0))) (2 * S)
    (loop 0 (2 * S) (fun i0 (x : (Z -> C) * (Z -> C)) => let (st, ho) := x in
    (upd st (i0 + i * (2 * S)) (Cmult (RtoC (sqrt w)) (O i0)), cadd ho i0 (Cmult (Cmult (RtoC w) e) (O i0)))) (st, ho))).
  { apply (loop_inv (fun m (x : (Z -> C) * (Z -> C)) =>
     (forall k, fst x k = if (i * (2 * S) <=? k) && (k <? i * (2 * S) + m) then Cmult (RtoC (sqrt w)) (O (k - i * (2 * S))) else st k) /\
     (forall j, 0 <= j < 2 * S -> snd x j = Cplus (ho j) (if j <? m then Cmult (RtoC w) (Cmult e (O j)) else RtoC 0)))); [lia| |].
    - split; [|intros j Hj; destruct (Z.ltb_spec j 0); [lia|]; cbn [snd]; ring].
      intros k. destruct (Z.leb_spec (i * (2 * S)) k), (Z.ltb_spec k (i * (2 * S) + 0)); try lia; reflexivity.
    - intros m (q, h) Hm (IHq & IHh). cbn [fst snd] in *. split.
      + intros k. rewrite upd_get. destruct (Z.eqb_spec k (m + i * (2 * S))) as [->|e0].
        * destruct (Z.leb_spec (i * (2 * S)) (m + i * (2 * S))), (Z.ltb_spec (m + i * (2 * S)) (i * (2 * S) + (m + 1))); try lia.
          cbn [andb]. do 2 f_equal. lia.
        * rewrite IHq. destruct (Z.leb_spec (i * (2 * S)) k), (Z.ltb_spec k (i * (2 * S) + m)), (Z.ltb_spec k (i * (2 * S) + (m + 1))); try lia; reflexivity.
      + intros j Hj. rewrite cadd_get. destruct (Z.eqb_spec j m) as [->|e0]; rewrite IHh by lia.
        * destruct (Z.ltb_spec m m), (Z.ltb_spec m (m + 1)); try lia. ring.
        * destruct (Z.ltb_spec j m), (Z.ltb_spec j (m + 1)); try lia; ring. }
  destruct A as (A & B). split.
  - intros k. rewrite A. replace ((i + 1) * (2 * S)) with (i * (2 * S) + 2 * S) by ring. reflexivity.
  - intros j Hj. rewrite B by assumption. destruct (Z.ltb_spec j (2 * S)); [reflexivity|lia].
Qed.

Lemma csum_snoc {A} (l : list A) x f : csum (l ++ [x]) f = Cplus (csum l f) (f x).
Proof. rewrite csum_app. cbn [csum]. ring. Qed.
Lemma rsum_snoc {A} (l : list A) x f : rsum (l ++ [x]) f = (rsum l f + f x)%R.
Proof. rewrite rsum_app. cbn [rsum]. ring. Qed.
Lemma app_if_false {A} (l : list A) : l ++ [] = l. Proof. apply app_nil_r. Qed.

(** the loop over samples a..b-1 *)
Lemma loop_direct S smp a b st : 0 < S -> a <= b ->
  let r := loop a b (fun i x => one_sample S false i (smp i) x) (clear st) in
  sums (part smp a b) r /\ sumsOO S (part smp a b) (OO r) /\ sumsHO S (part smp a b) (HO r) /\ forall k, Store r k = st k.
Proof.
  intros HS Hab r. unfold r. clear r.
  apply (loop_inv (fun k r => sums (part smp a k) r /\ sumsOO S (part smp a k) (OO r) /\ sumsHO S (part smp a k) (HO r) /\ forall k, Store r k = st k)); [lia| |].
  - rewrite part_nil. split; [apply sums_nil|]. repeat split; intros; reflexivity.
  - intros k x Hk ([W E E2] & [Ho] & [Hh] & Hst). rewrite part_snoc by lia. unfold one_sample. destruct (ok (smp k)).
    2:{ rewrite app_if_false. repeat split; assumption. }
    pose proof (calculateOO_get S (wgt (smp k)) (ene (smp k)) (smp k) (OO x) (HO x) HS) as (Fo & Fh).
    destruct (calculateOO S (wgt (smp k)) (ene (smp k)) (srOptO (smp k)) (OO x) (HO x)) as (oo, ho). cbn [fst snd] in *.
    split; [|split; [|split]]; cbn [Wc Etot Etot2 OO HO Store].
    + constructor; cbn [Wc Etot Etot2].
      * rewrite rsum_snoc, W. reflexivity.
      * rewrite csum_snoc, E. reflexivity.
      * rewrite csum_snoc, E2. f_equal. ring.
    + constructor. intros i j Hi Hj. rewrite csum_snoc, Fo, Ho by assumption. reflexivity.
    + constructor. intros j Hj. rewrite csum_snoc, Fh, Hh by assumption. reflexivity.
    + exact Hst.
Qed.
Lemma loop_store S smp a b st : 0 < S -> a <= b ->
  let r := loop a b (fun i x => one_sample S true i (smp i) x) (clear st) in
  sums (part smp a b) r /\ sumsHO S (part smp a b) (HO r) /\ (forall k, OO r k = RtoC 0) /\
  (forall i j, 0 <= j < 2 * S -> Store r (j + i * (2 * S)) =
     if (a <=? i) && (i <? b) && ok (smp i) then Cmult (RtoC (sqrt (wgt (smp i)))) (srOptO (smp i) j) else st (j + i * (2 * S))).
Proof.
  intros HS Hab r. unfold r. clear r.
  apply (loop_inv (fun k r => sums (part smp a k) r /\ sumsHO S (part smp a k) (HO r) /\ (forall k, OO r k = RtoC 0) /\
   (forall i j, 0 <= j < 2 * S -> Store r (j + i * (2 * S)) =
     if (a <=? i) && (i <? k) && ok (smp i) then Cmult (RtoC (sqrt (wgt (smp i)))) (srOptO (smp i) j) else st (j + i * (2 * S))))); [lia| |].
  - rewrite part_nil. split; [apply sums_nil|]. split; [constructor; reflexivity|]. split; [reflexivity|].
    intros i j Hj. destruct (Z.leb_spec a i), (Z.ltb_spec i a); try lia; reflexivity.
  - intros k x Hk ([W E E2] & [Hh] & Ho & Hst). rewrite part_snoc by lia. unfold one_sample.
    destruct (ok (smp k)) eqn:Ek.
    2:{ rewrite app_if_false. split; [now constructor|]. split; [now constructor|]. split; [assumption|].
        intros i j Hj. rewrite Hst by assumption. destruct (Z.eq_dec i k) as [->|].
        - rewrite Ek. rewrite !andb_false_r. reflexivity.
        - destruct (Z.leb_spec a i), (Z.ltb_spec i k), (Z.ltb_spec i (k + 1)); try lia; reflexivity. }
    pose proof (store_sample_get S k (wgt (smp k)) (ene (smp k)) (srOptO (smp k)) (Store x) (HO x) ltac:(lia)) as (Fs & Fh).
    destruct (store_sample S k (wgt (smp k)) (ene (smp k)) (srOptO (smp k)) (Store x) (HO x)) as (st', ho). cbn [fst snd] in *.
    split; [|split; [|split]]; cbn [Wc Etot Etot2 OO HO Store].
    + constructor; cbn [Wc Etot Etot2].
      * rewrite rsum_snoc, W. reflexivity.
      * rewrite csum_snoc, E. reflexivity.
      * rewrite csum_snoc, E2. f_equal. ring.
    + constructor. intros j Hj. rewrite csum_snoc, Fh, Hh by assumption. reflexivity.
    + exact Ho.
    + intros i j Hj. rewrite Fs. destruct (Z.eq_dec i k) as [->|Nk].
      * destruct (Z.leb_spec (k * (2 * S)) (j + k * (2 * S))), (Z.ltb_spec (j + k * (2 * S)) ((k + 1) * (2 * S))); try lia.
        destruct (Z.leb_spec a k), (Z.ltb_spec k (k + 1)); try lia. rewrite Ek. cbn [andb]. do 2 f_equal. lia.
      * rewrite Hst by assumption.
        destruct (Z.leb_spec (k * (2 * S)) (j + i * (2 * S))), (Z.ltb_spec (j + i * (2 * S)) ((k + 1) * (2 * S))); cbn [andb];
          try (destruct (Z.leb_spec a i), (Z.ltb_spec i k), (Z.ltb_spec i (k + 1)); try lia; reflexivity). nia.
Qed.

(** ** one process of VMCMainCal *)
Definition p_start (N : Z) (gsize : Z -> Z) (p : Z * Z) : Z := fst (split_loop N (snd p) (gsize (fst p))).
Definition p_end (N : Z) (gsize : Z -> Z) (p : Z * Z) : Z := snd (split_loop N (snd p) (gsize (fst p))).

Lemma main_direct S N size rank smp st : 0 < S -> 0 <= N -> 1 <= size -> 0 <= rank < size ->
  let a := fst (split_loop N rank size) in let b := snd (split_loop N rank size) in
  let r := main_cal S false false N size rank smp st in
  sums (part smp a b) r /\ sumsOO S (part smp a b) (OO r) /\ sumsHO S (part smp a b) (HO r).
Proof.
  intros HS HN Hz Hr. cbn zeta. pose proof (split_within N size rank HN Hz Hr) as (W & _).
  unfold main_cal. destruct (split_loop N rank size) as (a, b). cbn [fst snd orb] in *.
  pose proof (loop_direct S smp a b st HS ltac:(lia)) as (A & B & C & _). auto.
Qed.

(** ** sums over processes *)
Lemma csum_flat_map {A B} (g : A -> list B) (l : list A) f : csum (flat_map g l) f = csum l (fun x => csum (g x) f).
Proof. induction l as [|x l IH]; cbn [flat_map csum]; [reflexivity|]. now rewrite csum_app, IH. Qed.
Lemma csum_map {A B} (g : A -> B) (l : list A) f : csum (map g l) f = csum l (fun x => f (g x)).
Proof. induction l as [|x l IH]; cbn [csum map]; [reflexivity|now rewrite IH]. Qed.
Lemma in_procs groups gsize p : In p (procs groups gsize) -> 0 <= fst p < groups /\ 0 <= snd p < gsize (fst p).
Proof.
  unfold procs. rewrite in_flat_map. intros (g & Hg & Hp). apply in_map_iff in Hp. destruct Hp as (r & <- & Hr).
  apply zrange_in in Hg. apply zrange_in in Hr. cbn [fst snd]. auto.
Qed.
Lemma counted_app l m : counted (l ++ m) = counted l ++ counted m.
Proof. apply filter_app. Qed.
Lemma counted_flat_map {A} (f : A -> list sample) l : counted (flat_map f l) = flat_map (fun x => counted (f x)) l.
Proof. induction l as [|x l IH]; cbn [flat_map]; [reflexivity|]. now rewrite counted_app, IH. Qed.
Lemma map_flat_map {A B D} (f : B -> D) (g : A -> list B) l : map f (flat_map g l) = flat_map (fun x => map f (g x)) l.
Proof. induction l as [|x l IH]; cbn [flat_map]; [reflexivity|]. now rewrite map_app, IH. Qed.
Lemma parts_concat N size smp : 0 <= N -> 1 <= size ->
  flat_map (fun r => part smp (fst (split_loop N r size)) (snd (split_loop N r size))) (zrange 0 size) = counted (map smp (zrange 0 N)).
Proof. intros HN Hs. unfold part. rewrite <- counted_flat_map, <- map_flat_map, split_concat by assumption. reflexivity. Qed.

Definition p_part (N : Z) (gsize : Z -> Z) (smp : Z -> Z -> sample) (p : Z * Z) : list sample :=
  part (smp (fst p)) (p_start N gsize p) (p_end N gsize p).
Lemma procs_parts groups gsize N smp : 0 <= N -> (forall g, 0 <= g < groups -> 1 <= gsize g) ->
  flat_map (p_part N gsize smp) (procs groups gsize) = counted (all_samples groups N smp).
Proof.
  intros HN Hg. unfold procs, all_samples, counted at 1. change (filter ok) with counted. rewrite counted_flat_map.
  assert (A : forall l, (forall g, In g l -> 1 <= gsize g) ->
    flat_map (p_part N gsize smp) (flat_map (fun g => map (fun r => (g, r)) (zrange 0 (gsize g))) l) =
    flat_map (fun x => counted (map (smp x) (zrange 0 N))) l).
  { induction l as [|g l IH]; intros Hl; cbn [flat_map]; [reflexivity|]. rewrite flat_map_app, IH by (intros; apply Hl; now right). f_equal.
    rewrite <- (parts_concat N (gsize g)) by (try apply Hl; try lia; now left). unfold p_part, p_start, p_end.
    induction (zrange 0 (gsize g)) as [|r m IHm]; cbn [map flat_map]; [reflexivity|]. now rewrite IHm. }
  apply A. intros g Hi. apply zrange_in in Hi. now apply Hg.
Qed.
Lemma procs_csum groups gsize N smp F : 0 <= N -> (forall g, 0 <= g < groups -> 1 <= gsize g) ->
  csum (procs groups gsize) (fun p => csum (p_part N gsize smp p) F) = csum (counted (all_samples groups N smp)) F.
Proof. intros HN Hg. rewrite <- csum_flat_map, procs_parts by assumption. reflexivity. Qed.
Lemma procs_rsum groups gsize N smp F : 0 <= N -> (forall g, 0 <= g < groups -> 1 <= gsize g) ->
  rsum (procs groups gsize) (fun p => rsum (p_part N gsize smp p) F) = rsum (counted (all_samples groups N smp)) F.
Proof. intros HN Hg. rewrite <- rsum_flat_map, procs_parts by assumption. reflexivity. Qed.

Lemma single_proc (ps : list (Z * Z)) me : In me ps -> (1 <? Z.of_nat (length ps)) = false -> ps = [me].
Proof.
  intros Hm Hl. destruct ps as [|p [|q l]].
  - destruct Hm.
  - destruct Hm as [->|[]]. reflexivity.
  - exfalso. apply Z.ltb_ge in Hl. cbn [length] in Hl. lia.
Qed.
Lemma mul_inv_C (z : C) W : W <> 0%R -> Cmult z (RtoC (1 / W)) = Cdiv z (RtoC W).
Proof. intros HW. unfold Cdiv. rewrite <- RtoC_inv by assumption. f_equal. f_equal. field. assumption. Qed.
Lemma reduce_csum ps me (F : Z * Z -> C) : In me ps ->
  (if 1 <? Z.of_nat (length ps) then csum ps F else F me) = csum ps F.
Proof.
  intros Hm. destruct (1 <? Z.of_nat (length ps)) eqn:E; [reflexivity|]. rewrite (single_proc _ _ Hm E). cbn [csum]. ring.
Qed.

Lemma average_we_eq ps A me l : In me ps -> total_weight l <> 0%R ->
  rsum ps (fun p => Wc (A p)) = total_weight l ->
  csum ps (fun p => Etot (A p)) = csum (counted l) (fun x => Cmult (RtoC (wgt x)) (ene x)) ->
  csum ps (fun p => Etot2 (A p)) = csum (counted l) (fun x => Cmult (RtoC (wgt x)) (Cmult (ene x) (Cconj (ene x)))) ->
  average_we ps A me = (total_weight l, cmean l ene, cmean l (fun x => Cmult (ene x) (Cconj (ene x)))).
Proof.
  intros Hm HW W E E2. unfold average_we, cmean. destruct (1 <? Z.of_nat (length ps)) eqn:B.
  - rewrite W, E, E2, !mul_inv_C by assumption. reflexivity.
  - rewrite (single_proc _ _ Hm B) in W, E, E2. cbn [rsum csum] in W, E, E2. rewrite Rplus_0_r in W. rewrite Cplus_0_r in E, E2.
    rewrite W, E, E2, !mul_inv_C by assumption. reflexivity.
Qed.
Lemma average_vec_eq ps W v me i z : In me ps -> W <> 0%R -> csum ps (fun p => v p i) = z -> average_vec ps W v me i = Cdiv z (RtoC W).
Proof.
  intros Hm HW E. unfold average_vec. destruct (1 <? Z.of_nat (length ps)) eqn:B.
  - rewrite E. now apply mul_inv_C.
  - rewrite (single_proc _ _ Hm B) in E. cbn [csum] in E. rewrite Cplus_0_r in E. rewrite E. now apply mul_inv_C.
Qed.

Lemma averages_direct S groups gsize N smp st me :
  0 < S -> 0 <= N -> (forall g, 0 <= g < groups -> 1 <= gsize g) ->
  let l := all_samples groups N smp in
  let ps := procs groups gsize in
  let A := fun p => main_cal S false false N (gsize (fst p)) (snd p) (smp (fst p)) (st p) in
  In me ps -> total_weight l <> 0%R ->
  average_we ps A me = (total_weight l, cmean l ene, cmean l (fun x => Cmult (ene x) (Cconj (ene x)))) /\
  is_average S l (average_vec ps (total_weight l) (fun p => OO (A p)) me) (average_vec ps (total_weight l) (fun p => HO (A p)) me).
Proof.
  intros HS HN Hg l ps A Hm HW.
  assert (HA : forall p, In p ps -> sums (p_part N gsize smp p) (A p) /\ sumsOO S (p_part N gsize smp p) (OO (A p)) /\ sumsHO S (p_part N gsize smp p) (HO (A p))).
  { intros p Hp. apply in_procs in Hp. destruct Hp as (H1 & H2). apply (main_direct S N (gsize (fst p)) (snd p) (smp (fst p)) (st p)); auto. }
  split.
  - apply average_we_eq; try assumption.
    + unfold total_weight, l. rewrite <- (procs_rsum groups gsize) by assumption. apply rsum_ext. intros p Hp. apply (HA p Hp).
    + unfold l. rewrite <- (procs_csum groups gsize) by assumption. apply csum_ext. intros p Hp. apply (HA p Hp).
    + unfold l. rewrite <- (procs_csum groups gsize) by assumption. apply csum_ext. intros p Hp. apply (HA p Hp).
  - split.
    + intros i j Hi Hj. apply average_vec_eq; try assumption. unfold l. rewrite <- (procs_csum groups gsize) by assumption.
      apply csum_ext. intros p Hp. destruct (HA p Hp) as (_ & [F] & _). now apply F.
    + intros j Hj. apply average_vec_eq; try assumption. unfold l. rewrite <- (procs_csum groups gsize) by assumption.
      apply csum_ext. intros p Hp. destruct (HA p Hp) as (_ & _ & [F]). now apply F.
Qed.

(** ** Green functions *)
Lemma seg_get n off (v : Z -> C) c k : 0 <= n ->
  loop 0 n (fun i c => cadd c (off + i) (v i)) c k = Cplus (c k) (if (off <=? k) && (k <? off + n) then v (k - off) else RtoC 0).
Proof.
  intros Hn.
  apply (loop_inv (fun m c' => c' k = Cplus (c k) (if (off <=? k) && (k <? off + m) then v (k - off) else RtoC 0))); [lia| |].
  - destruct (Z.leb_spec off k), (Z.ltb_spec k (off + 0)); try lia; cbn [andb]; ring.
  - intros m q Hm IH. rewrite cadd_get. destruct (Z.eqb_spec k (off + m)) as [->|e]; rewrite IH.
    + destruct (Z.leb_spec off (off + m)), (Z.ltb_spec (off + m) (off + m)), (Z.ltb_spec (off + m) (off + (m + 1))); try lia.
      cbn [andb]. replace (off + m - off) with m by ring. ring.
    + destruct (Z.leb_spec off k), (Z.ltb_spec k (off + m)), (Z.ltb_spec k (off + (m + 1))); try lia; cbn [andb]; ring.
Qed.
(** the local value of cell k of the observables *)
Lemma green_sample_get N1 N2 N3 ca x phys k : 0 <= N1 -> 0 <= N2 -> 0 <= N3 -> 0 <= k < N1 + N2 + N3 ->
  green_sample N1 N2 N3 ca x phys k = Cplus (phys k) (Cmult (RtoC (wgt x)) (green_cell N1 N2 ca x k)).
Proof.
  intros H1 H2 H3 Hk. unfold green_sample, green_cell.
  rewrite (seg_get N2 N1 (fun i => Cmult (Cmult (RtoC (wgt x)) (grn1 x (fst (ca i)))) (Cconj (grn1 x (snd (ca i)))))) by lia.
  rewrite (seg_get N3 (N1 + N2) (fun i => Cmult (RtoC (wgt x)) (grn2 x i))) by lia.
  rewrite (seg_get N1 0 (fun i => Cmult (RtoC (wgt x)) (grn1 x i))) by lia.
  destruct (Z.leb_spec 0 k), (Z.ltb_spec k (0 + N1)), (Z.leb_spec (N1 + N2) k), (Z.ltb_spec k (N1 + N2 + N3)), (Z.leb_spec N1 k),
    (Z.ltb_spec k (N1 + N2)), (Z.ltb_spec k N1); try lia; cbn [andb].
  - replace (k - 0) with k by ring. ring.
  - replace (k - (N1 + N2)) with (k - N1 - N2) by ring. ring.
  - ring.
Qed.
Lemma green_cal_get N1 N2 N3 ca N size rank smp : 0 <= N1 -> 0 <= N2 -> 0 <= N3 -> 0 <= N -> 1 <= size -> 0 <= rank < size ->
  let l := part smp (fst (split_loop N rank size)) (snd (split_loop N rank size)) in
  let r := green_cal N1 N2 N3 ca N size rank smp in
  fst r = rsum l wgt /\
  forall k, 0 <= k < N1 + N2 + N3 -> snd r k = csum l (fun x => Cmult (RtoC (wgt x)) (green_cell N1 N2 ca x k)).
Proof.
  intros H1 H2 H3 HN Hz Hr. cbn zeta. pose proof (split_within N size rank HN Hz Hr) as (W & _).
  unfold green_cal. destruct (split_loop N rank size) as (a, b). cbn [fst snd] in *.
  apply (loop_inv (fun m (r : R * (Z -> C)) => fst r = rsum (part smp a m) wgt /\
    forall k, 0 <= k < N1 + N2 + N3 -> snd r k = csum (part smp a m) (fun x => Cmult (RtoC (wgt x)) (green_cell N1 N2 ca x k)))); [lia| |].
  - rewrite part_nil. split; reflexivity.
  - intros m (w, ph) Hm (IHw & IHp). rewrite part_snoc by lia. cbn [fst snd] in *. destruct (ok (smp m)); cbn [fst snd].
    + split; [rewrite rsum_snoc, IHw; reflexivity|]. intros k Hk. rewrite csum_snoc, green_sample_get, IHp by lia. reflexivity.
    + rewrite app_if_false. auto.
Qed.
Lemma green_average N1 N2 N3 ca groups gsize N smp :
  0 <= N1 -> 0 <= N2 -> 0 <= N3 -> 0 <= N -> 0 < groups -> (forall g, 0 <= g < groups -> 1 <= gsize g) ->
  let l := all_samples groups N smp in
  let ps := procs groups gsize in
  let A := fun p => green_cal N1 N2 N3 ca N (gsize (fst p)) (snd p) (smp (fst p)) in
  total_weight l <> 0%R ->
  rsum ps (fun p => fst (A p)) = total_weight l /\
  forall k, 0 <= k < N1 + N2 + N3 ->
  average_reduce ps (total_weight l) (fun p => snd (A p)) (0, 0) (0, 0) k = cmean l (fun x => green_cell N1 N2 ca x k).
Proof.
  intros H1 H2 H3 HN Hgr Hg l ps A HW.
  assert (HA : forall p, In p ps -> fst (A p) = rsum (p_part N gsize smp p) wgt /\
     forall k, 0 <= k < N1 + N2 + N3 -> snd (A p) k = csum (p_part N gsize smp p) (fun x => Cmult (RtoC (wgt x)) (green_cell N1 N2 ca x k))).
  { intros p Hp. apply in_procs in Hp. destruct Hp as (Hp1 & Hp2).
    apply (green_cal_get N1 N2 N3 ca N (gsize (fst p)) (snd p) (smp (fst p))); auto. }
  assert (Hm : In (0, 0) ps).
  { unfold ps, procs. apply in_flat_map. exists 0. split; [apply zrange_in; lia|]. apply in_map. apply zrange_in. specialize (Hg 0). lia. }
  split.
  - unfold total_weight, l. rewrite <- (procs_rsum groups gsize) by assumption. apply rsum_ext. intros p Hp. apply (HA p Hp).
  - intros k Hk.
    assert (E : csum ps (fun p => snd (A p) k) = csum (counted l) (fun x => Cmult (RtoC (wgt x)) (green_cell N1 N2 ca x k))).
    { unfold l. rewrite <- (procs_csum groups gsize) by assumption. apply csum_ext. intros p Hp. now apply (HA p Hp). }
    unfold average_reduce, cmean. cbn [fst snd Z.eqb andb]. destruct (1 <? Z.of_nat (length ps)) eqn:B.
    + rewrite E. now apply mul_inv_C.
    + rewrite (single_proc _ _ Hm B) in E. cbn [csum] in E. rewrite Cplus_0_r in E. rewrite E. now apply mul_inv_C.
Qed.
