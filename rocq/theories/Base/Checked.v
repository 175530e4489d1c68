(** Checked array accesses: an access outside the bounds of a C array is the distinct outcome [None].
    Nothing here models code of the repository. *)
From Coq Require Import ZArith List Bool Lia.
From Verif Require Import Base.ZLoop.
Import ListNotations.
Local Open Scope Z_scope.

Definition bind {A B} (o : option A) (k : A -> option B) : option B :=
  match o with Some a => k a | None => None end.
Notation "x <- e ;; k" := (bind e (fun x => k)) (at level 61, e at next level, right associativity).

Definition inb (n i : Z) : bool := (0 <=? i) && (i <? n).

(** read a[i] of an array with n cells *)
Definition rd {V} (n : Z) (a : Z -> V) (i : Z) : option V := if inb n i then Some (a i) else None.
(** write a[i] = v *)
Definition wr {V} (n : Z) (a : Z -> V) (i : Z) (v : V) : option (Z -> V) :=
  if inb n i then Some (upd a i v) else None.
(** a[i] += v *)
Definition inc (n : Z) (a : Z -> Z) (i v : Z) : option (Z -> Z) :=
  if inb n i then Some (addto a i v) else None.

(** for (i=a; i<b; i++), stopping at the first undefined iteration *)
Definition loopM {S : Type} (a b : Z) (f : Z -> S -> option S) (s : S) : option S :=
  fold_left (fun o i => bind o (f i)) (zrange a b) (Some s).

Lemma inb_true n i : 0 <= i < n -> inb n i = true.
Proof. unfold inb. lia. Qed.

Lemma rd_ok {V} n (a : Z -> V) i : 0 <= i < n -> rd n a i = Some (a i).
Proof. intros H. unfold rd. now rewrite inb_true. Qed.
Lemma wr_ok {V} n (a : Z -> V) i v : 0 <= i < n -> wr n a i v = Some (upd a i v).
Proof. intros H. unfold wr. now rewrite inb_true. Qed.
Lemma inc_ok n a i v : 0 <= i < n -> inc n a i v = Some (addto a i v).
Proof. intros H. unfold inc. now rewrite inb_true. Qed.

Lemma fold_bind_none {A S} (f : A -> S -> option S) (l : list A) :
  fold_left (fun o i => bind o (f i)) l None = None.
Proof. induction l; cbn; auto. Qed.

Lemma loopM_nil {S} a b (f : Z -> S -> option S) s : b <= a -> loopM a b f s = Some s.
Proof. intros H. unfold loopM. now rewrite zrange_nil. Qed.

Lemma loopM_first {S} a b (f : Z -> S -> option S) s : a < b ->
  loopM a b f s = bind (f a s) (loopM (a + 1) b f).
Proof.
  intros H. unfold loopM. rewrite zrange_cons by assumption. cbn [fold_left].
  change (bind (Some s) (f a)) with (f a s).
  destruct (f a s) as [s'|]; cbn [bind]; [reflexivity|].
  apply fold_bind_none.
Qed.

Lemma loopM_last {S} a b (f : Z -> S -> option S) s : a <= b ->
  loopM a (b + 1) f s = bind (loopM a b f s) (f b).
Proof. intros H. unfold loopM. rewrite zrange_snoc by assumption. now rewrite fold_left_app. Qed.

(** a loop all of whose iterations are defined is the plain loop *)
Lemma loopM_pure {S} a b (f : Z -> S -> option S) (g : Z -> S -> S) s :
  (forall i s, a <= i < b -> f i s = Some (g i s)) -> loopM a b f s = Some (loop a b g s).
Proof.
  intros H. unfold loopM, loop.
  assert (Hl : forall x, In x (zrange a b) -> forall s, f x s = Some (g x s))
    by (intros x Hx s0; apply H; now apply zrange_in).
  revert s. induction (zrange a b) as [|x l IH]; intros s; [reflexivity|].
  cbn [fold_left]. change (bind (Some s) (f x)) with (f x s).
  rewrite Hl by (left; reflexivity). apply IH. intros; apply Hl; now right.
Qed.

Lemma loopM_pure_inv {S} (I : S -> Prop) a b (f : Z -> S -> option S) (g : Z -> S -> S) s :
  I s -> (forall i s, a <= i < b -> I s -> f i s = Some (g i s) /\ I (g i s)) ->
  loopM a b f s = Some (loop a b g s) /\ I (loop a b g s).
Proof.
  intros H0 H. unfold loopM, loop.
  assert (Hl : forall x, In x (zrange a b) -> forall s, I s -> f x s = Some (g x s) /\ I (g x s))
    by (intros x Hx s0; apply H; now apply zrange_in).
  clear H. revert s H0. induction (zrange a b) as [|x l IH]; intros s H0; [split; [reflexivity|assumption]|].
  cbn [fold_left]. change (bind (Some s) (f x)) with (f x s).
  destruct (Hl x (or_introl eq_refl) s H0) as (E & HI). rewrite E.
  apply IH; [|assumption]. intros; apply Hl; [now right|assumption].
Qed.

(** an invariant of the defined executions of a loop *)
Lemma loopM_inv {S} (P : Z -> S -> Prop) a b (f : Z -> S -> option S) s s' :
  a <= b -> P a s -> (forall i s s', a <= i < b -> P i s -> f i s = Some s' -> P (i + 1) s') ->
  loopM a b f s = Some s' -> P b s'.
Proof.
  intros Hab H0 Hs. revert s'.
  replace b with (a + Z.of_nat (Z.to_nat (b - a))) by lia.
  assert (Hle : a + Z.of_nat (Z.to_nat (b - a)) <= b) by lia.
  revert Hle. induction (Z.to_nat (b - a)) as [|n IH]; intros Hle s' E.
  - rewrite Z.add_0_r in *. rewrite loopM_nil in E by lia. now injection E as <-.
  - replace (a + Z.of_nat (Datatypes.S n)) with (a + Z.of_nat n + 1) in * by lia.
    rewrite loopM_last in E by lia.
    destruct (loopM a (a + Z.of_nat n) f s) as [s1|] eqn:E1; [|discriminate].
    cbn [bind] in E. eapply Hs; [|apply IH|exact E]; [lia|lia|reflexivity].
Qed.
