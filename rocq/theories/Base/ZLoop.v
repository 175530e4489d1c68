(** Integer ranges, C-style counted loops, C arrays as functions, finite sums.
    Nothing here models code of the repository. *)
From Coq Require Import ZArith List Lia Bool Permutation Morphisms.
From Coq Require Export ZifyBool ZifyNat.
Import ListNotations.
Local Open Scope Z_scope.

(** [a; a+1; ...; b-1] *)
Definition zrange (a b : Z) : list Z :=
  map (fun k => a + Z.of_nat k) (seq 0 (Z.to_nat (b - a))).

(** for (i=a; i<b; i++) s = f i s *)
Definition loop {S : Type} (a b : Z) (f : Z -> S -> S) (s : S) : S :=
  fold_left (fun s i => f i s) (zrange a b) s.

(** arr[i] = v *)
Definition upd {V : Type} (arr : Z -> V) (i : Z) (v : V) : Z -> V :=
  fun j => if j =? i then v else arr j.

(** arr[i] += v *)
Definition addto (arr : Z -> Z) (i v : Z) : Z -> Z := upd arr i (arr i + v).

Fixpoint zsum {A : Type} (l : list A) (f : A -> Z) : Z :=
  match l with
  | [] => 0
  | x :: l' => f x + zsum l' f
  end.

(** ** ranges *)
Lemma zrange_in a b i : In i (zrange a b) <-> a <= i < b.
Proof.
  unfold zrange. rewrite in_map_iff. split.
  - intros (k & <- & Hk). apply in_seq in Hk. lia.
  - intros H. exists (Z.to_nat (i - a)). split; [lia|]. apply in_seq. lia.
Qed.

Lemma zrange_nil a b : b <= a -> zrange a b = [].
Proof. intros H. unfold zrange. replace (Z.to_nat (b - a)) with 0%nat by lia. reflexivity. Qed.

Lemma zrange_cons a b : a < b -> zrange a b = a :: zrange (a + 1) b.
Proof.
  intros H. unfold zrange.
  replace (Z.to_nat (b - a)) with (S (Z.to_nat (b - (a + 1)))) by lia.
  cbn [seq map]. f_equal; [lia|].
  rewrite <- seq_shift, map_map. apply map_ext. intros k. lia.
Qed.

Lemma zrange_snoc a b : a <= b -> zrange a (b + 1) = zrange a b ++ [b].
Proof.
  intros H. unfold zrange.
  replace (Z.to_nat (b + 1 - a)) with (Z.to_nat (b - a) + 1)%nat by lia.
  rewrite seq_app, map_app. cbn. f_equal. f_equal. lia.
Qed.

Lemma zrange_app a b c : a <= b -> b <= c -> zrange a c = zrange a b ++ zrange b c.
Proof.
  intros H1 H2.
  replace c with (b + Z.of_nat (Z.to_nat (c - b))) by lia.
  induction (Z.to_nat (c - b)) as [|n IH].
  - rewrite Z.add_0_r, (zrange_nil b b) by lia. now rewrite app_nil_r.
  - replace (b + Z.of_nat (S n)) with (b + Z.of_nat n + 1) by lia.
    rewrite !zrange_snoc by lia. rewrite IH, app_assoc. reflexivity.
Qed.

Lemma zrange_length a b : length (zrange a b) = Z.to_nat (b - a).
Proof. unfold zrange. now rewrite map_length, seq_length. Qed.

Lemma zrange_NoDup a b : NoDup (zrange a b).
Proof.
  unfold zrange. apply FinFun.Injective_map_NoDup; [|apply seq_NoDup].
  intros x y H. lia.
Qed.

Lemma zrange_shift a b c : zrange (a + c) (b + c) = map (fun i => i + c) (zrange a b).
Proof.
  unfold zrange. replace (b + c - (a + c)) with (b - a) by lia.
  rewrite map_map. apply map_ext. intros. lia.
Qed.

(** ** arrays *)
Lemma upd_same {V} (a : Z -> V) i v : upd a i v i = v.
Proof. unfold upd. now rewrite Z.eqb_refl. Qed.

Lemma upd_other {V} (a : Z -> V) i v j : j <> i -> upd a i v j = a j.
Proof. intros H. unfold upd. destruct (Z.eqb_spec j i); congruence. Qed.

Lemma upd_get {V} (a : Z -> V) i v j : upd a i v j = if j =? i then v else a j.
Proof. reflexivity. Qed.

Lemma addto_get a i v j : addto a i v j = a j + (if i =? j then v else 0).
Proof.
  unfold addto, upd. rewrite (Z.eqb_sym i j).
  destruct (Z.eqb_spec j i); subst; lia.
Qed.

(** ** sums *)
Lemma zsum_app {A} (l1 l2 : list A) f : zsum (l1 ++ l2) f = zsum l1 f + zsum l2 f.
Proof. induction l1 as [|x l IH]; cbn; lia. Qed.

Lemma zsum_ext {A} (l : list A) f g : (forall x, In x l -> f x = g x) -> zsum l f = zsum l g.
Proof.
  induction l as [|x l IH]; cbn; intros H; [reflexivity|].
  rewrite (H x), IH; auto.
Qed.

Lemma zsum_add {A} (l : list A) f g : zsum l (fun x => f x + g x) = zsum l f + zsum l g.
Proof. induction l as [|x l IH]; cbn; lia. Qed.

Lemma zsum_sub {A} (l : list A) f g : zsum l (fun x => f x - g x) = zsum l f - zsum l g.
Proof. induction l as [|x l IH]; cbn; lia. Qed.

Lemma zsum_mul {A} (l : list A) c f : zsum l (fun x => c * f x) = c * zsum l f.
Proof. induction l as [|x l IH]; cbn; lia. Qed.

Lemma zsum_zero {A} (l : list A) f : (forall x, In x l -> f x = 0) -> zsum l f = 0.
Proof.
  induction l as [|x l IH]; cbn; intros H; [reflexivity|].
  rewrite (H x), IH; auto.
Qed.

Lemma zsum_const {A} (l : list A) c : zsum l (fun _ => c) = c * Z.of_nat (length l).
Proof. induction l as [|x l IH]; cbn [zsum length]; lia. Qed.

Lemma zsum_nonneg {A} (l : list A) f : (forall x, In x l -> 0 <= f x) -> 0 <= zsum l f.
Proof.
  induction l as [|x l IH]; cbn; intros H; [lia|].
  pose proof (H x (or_introl eq_refl)). pose proof (IH (fun y Hy => H y (or_intror Hy))). lia.
Qed.

Lemma zsum_le {A} (l : list A) f g : (forall x, In x l -> f x <= g x) -> zsum l f <= zsum l g.
Proof.
  induction l as [|x l IH]; cbn; intros H; [lia|].
  pose proof (H x (or_introl eq_refl)). pose proof (IH (fun y Hy => H y (or_intror Hy))). lia.
Qed.

Lemma zsum_map {A B} (g : A -> B) (l : list A) f : zsum (map g l) f = zsum l (fun x => f (g x)).
Proof. induction l as [|x l IH]; cbn; lia. Qed.

Lemma zsum_flat_map {A B} (g : A -> list B) (l : list A) f :
  zsum (flat_map g l) f = zsum l (fun x => zsum (g x) f).
Proof. induction l as [|x l IH]; cbn; [lia|]. rewrite zsum_app. lia. Qed.

Lemma zsum_swap {A B} (l : list A) (m : list B) f :
  zsum l (fun x => zsum m (fun y => f x y)) = zsum m (fun y => zsum l (fun x => f x y)).
Proof.
  induction l as [|x l IH]; cbn.
  - symmetry. apply zsum_zero. reflexivity.
  - rewrite IH. rewrite <- zsum_add. reflexivity.
Qed.

Lemma zsum_perm {A} (l m : list A) f : Permutation l m -> zsum l f = zsum m f.
Proof. induction 1; cbn; lia. Qed.

Lemma zsum_filter {A} (p : A -> bool) (l : list A) f :
  zsum (filter p l) f = zsum l (fun x => if p x then f x else 0).
Proof. induction l as [|x l IH]; cbn; [lia|]. destruct (p x); cbn; lia. Qed.

(** a sum over a duplicate-free list of a function supported at one point *)
Lemma zsum_delta (l : list Z) (k : Z) f :
  NoDup l -> zsum l (fun x => if x =? k then f x else 0) = if existsb (Z.eqb k) l then f k else 0.
Proof.
  induction l as [|x l IH]; cbn; intros Hnd; [reflexivity|].
  inversion Hnd as [|? ? Hni Hnd' E]; subst.
  rewrite (IH Hnd'). rewrite (Z.eqb_sym k x).
  destruct (Z.eqb_spec x k) as [->|Hne]; cbn [orb]; [|lia].
  destruct (existsb (Z.eqb k) l) eqn:Ex; [|lia].
  apply existsb_exists in Ex. destruct Ex as (y & Hy & Hky).
  apply Z.eqb_eq in Hky; subst. contradiction.
Qed.

Lemma zsum_delta_range a b k f :
  zsum (zrange a b) (fun x => if x =? k then f x else 0)
  = if (a <=? k) && (k <? b) then f k else 0.
Proof.
  rewrite zsum_delta by apply zrange_NoDup.
  destruct (existsb (Z.eqb k) (zrange a b)) eqn:E.
  - apply existsb_exists in E. destruct E as (x & Hx & Hk). apply zrange_in in Hx.
    apply Z.eqb_eq in Hk; subst.
    replace ((a <=? x) && (x <? b)) with true by lia. reflexivity.
  - destruct ((a <=? k) && (k <? b)) eqn:E2; [|reflexivity].
    exfalso. assert (existsb (Z.eqb k) (zrange a b) = true); [|congruence].
    apply existsb_exists. exists k. split; [apply zrange_in; lia|apply Z.eqb_refl].
Qed.

(** extract the terms at one point of a range *)
Lemma zsum_range_split1 a b k f : a <= k < b ->
  zsum (zrange a b) f = f k + zsum (zrange a b) (fun x => if x =? k then 0 else f x).
Proof.
  intros H.
  rewrite (zsum_ext _ f (fun x => (if x =? k then f x else 0) + (if x =? k then 0 else f x)))
    by (intros; destruct (x =? k); lia).
  rewrite zsum_add, zsum_delta_range.
  replace ((a <=? k) && (k <? b)) with true by lia. reflexivity.
Qed.

Lemma zsum_range_split2 a b k1 k2 f : a <= k1 < b -> a <= k2 < b -> k1 <> k2 ->
  zsum (zrange a b) f
  = f k1 + f k2 + zsum (zrange a b) (fun x => if (x =? k1) || (x =? k2) then 0 else f x).
Proof.
  intros H1 H2 Hne.
  rewrite (zsum_range_split1 a b k1) by assumption.
  rewrite (zsum_range_split1 a b k2 (fun x => if x =? k1 then 0 else f x)) by assumption.
  replace (k2 =? k1) with false by lia.
  rewrite <- Z.add_assoc. do 2 f_equal. apply zsum_ext. intros x _.
  destruct (x =? k1) eqn:E1, (x =? k2) eqn:E2; reflexivity.
Qed.

Lemma zsum_range_app a b c f : a <= b -> b <= c ->
  zsum (zrange a c) f = zsum (zrange a b) f + zsum (zrange b c) f.
Proof. intros. rewrite (zrange_app a b c), zsum_app; auto. Qed.

Lemma zsum_range_shift a b c f :
  zsum (zrange (a + c) (b + c)) f = zsum (zrange a b) (fun i => f (i + c)).
Proof. rewrite zrange_shift, zsum_map. reflexivity. Qed.

(** ** loops *)
Lemma fold_left_ext_in {A S} (f g : S -> A -> S) (l : list A) s :
  (forall s x, In x l -> f s x = g s x) -> fold_left f l s = fold_left g l s.
Proof.
  revert s. induction l as [|x l IH]; cbn; intros s H; [reflexivity|].
  rewrite (H s x) by auto. apply IH. auto.
Qed.

Lemma loop_nil {S} a b (f : Z -> S -> S) s : b <= a -> loop a b f s = s.
Proof. intros H. unfold loop. now rewrite zrange_nil. Qed.

Lemma loop_first {S} a b (f : Z -> S -> S) s : a < b -> loop a b f s = loop (a + 1) b f (f a s).
Proof. intros H. unfold loop. now rewrite zrange_cons. Qed.

Lemma loop_last {S} a b (f : Z -> S -> S) s : a <= b -> loop a (b + 1) f s = f b (loop a b f s).
Proof. intros H. unfold loop. now rewrite zrange_snoc, fold_left_app. Qed.

Lemma loop_ext {S} a b (f g : Z -> S -> S) s :
  (forall i s, a <= i < b -> f i s = g i s) -> loop a b f s = loop a b g s.
Proof.
  intros H. unfold loop. apply fold_left_ext_in. intros s' x Hx.
  apply H. now apply zrange_in.
Qed.

Lemma loop_inv {S} (P : Z -> S -> Prop) a b (f : Z -> S -> S) s :
  a <= b -> P a s -> (forall i s, a <= i < b -> P i s -> P (i + 1) (f i s)) -> P b (loop a b f s).
Proof.
  intros Hab H0 Hs.
  replace b with (a + Z.of_nat (Z.to_nat (b - a))) by lia.
  assert (Hle : a + Z.of_nat (Z.to_nat (b - a)) <= b) by lia.
  revert Hle. induction (Z.to_nat (b - a)) as [|n IH]; intros Hle.
  - rewrite Z.add_0_r, loop_nil by lia. assumption.
  - replace (a + Z.of_nat (Datatypes.S n)) with (a + Z.of_nat n + 1) by lia.
    rewrite loop_last by lia. apply Hs; [lia|]. apply IH. lia.
Qed.

(** the value of every cell after a sequence of additive updates *)
Lemma fold_addto_get {A} (l : list A) (idx v : A -> Z) c j :
  fold_left (fun c x => addto c (idx x) (v x)) l c j
  = c j + zsum l (fun x => if idx x =? j then v x else 0).
Proof.
  revert c. induction l as [|x l IH]; cbn; intros c; [lia|].
  rewrite IH, addto_get. lia.
Qed.

Lemma loop_addto_get a b (idx v : Z -> Z) c j :
  loop a b (fun i c => addto c (idx i) (v i)) c j
  = c j + zsum (zrange a b) (fun i => if idx i =? j then v i else 0).
Proof. unfold loop. apply (fold_addto_get (zrange a b) idx v). Qed.

(** a loop each of whose iterations adds a state-independent amount to every cell *)
Lemma fold_additive_get {A} (l : list A) (f : (Z -> Z) -> A -> Z -> Z) (d : A -> Z -> Z) c j :
  (forall c x j, In x l -> f c x j = c j + d x j) ->
  fold_left f l c j = c j + zsum l (fun x => d x j).
Proof.
  revert c. induction l as [|x l IH]; cbn; intros c H; [lia|].
  rewrite IH, H by auto. lia.
Qed.

Lemma loop_additive_get a b (f : Z -> (Z -> Z) -> Z -> Z) (d : Z -> Z -> Z) c j :
  (forall i c j, a <= i < b -> f i c j = c j + d i j) ->
  loop a b f c j = c j + zsum (zrange a b) (fun i => d i j).
Proof.
  intros H. unfold loop. rewrite (fold_additive_get _ _ d); [reflexivity|].
  intros c' x j' Hx. apply H. now apply zrange_in.
Qed.

Lemma NoDup_app_inv {A} (l1 l2 : list A) : NoDup (l1 ++ l2) ->
  NoDup l1 /\ NoDup l2 /\ (forall x, In x l1 -> ~ In x l2).
Proof.
  induction l1 as [|y l1 IH]; cbn; intros H.
  - split; [constructor|]. split; [assumption|tauto].
  - inversion H as [|? ? Hy Hn]; subst. destruct (IH Hn) as (H1 & H2 & H3).
    rewrite in_app_iff in Hy. split; [constructor; tauto|]. split; [assumption|].
    intros x [->|Hx]; [tauto|]. now apply H3.
Qed.
