(** The Pfaffian of a skew-symmetric complex matrix over a list of indices, and its theory (no code is modelled here). *)
From Coq Require Import ZArith List Bool Reals Lia Lra.
From Coquelicot Require Import Complex.
From Verif Require Import Base.ZLoop Base.RSum.
Import ListNotations.
Local Open Scope C_scope.
Local Notation "0" := (RtoC 0) : C_scope.
Local Notation "1" := (RtoC 1) : C_scope.

(** alternating sum over the ways to take one element z out of l, leaving r: + for the first, - for the second, ... *)
Fixpoint psum (l : list Z) (f : Z -> list Z -> C) : C :=
  match l with
  | [] => 0
  | y :: l' => f y l' - psum l' (fun z r => f z (y :: r))
  end.
(** expansion along the first row: pf(x,l) = sum_z +- A(x,z) pf(l without z) *)
Fixpoint pfn (n : nat) (A : Z -> Z -> C) (l : list Z) : C :=
  match n, l with
  | S n', x :: l' => psum l' (fun z r => A x z * pfn n' A r)
  | _, _ => 1
  end.
Definition pf (A : Z -> Z -> C) (l : list Z) : C := pfn (length l) A l.

Lemma psum_ext l : forall f g, (forall z r, In z l -> (forall y, In y r -> In y l) -> length r = pred (length l) -> f z r = g z r) -> psum l f = psum l g.
Proof.
  induction l as [|y l IH]; intros f g H; cbn; [reflexivity|].
  rewrite (H y l); [|now left|intros; now right|reflexivity].
  rewrite (IH (fun z r => f z (y :: r)) (fun z r => g z (y :: r))); [reflexivity|].
  intros z r Hz Hr Hl. apply H; [now right| |cbn; destruct l; [destruct Hz|cbn in *; lia]].
  intros y' [->|Hy]; [now left|right; now apply Hr].
Qed.
Lemma psum_plus l : forall f g, psum l (fun z r => f z r + g z r) = psum l f + psum l g.
Proof. induction l as [|y l IH]; intros f g; cbn; [ring|]. rewrite (IH (fun z r => f z (y :: r)) (fun z r => g z (y :: r))). ring. Qed.
Lemma psum_scal l : forall c f, psum l (fun z r => c * f z r) = c * psum l f.
Proof. induction l as [|y l IH]; intros c f; cbn; [ring|]. rewrite (IH c (fun z r => f z (y :: r))). ring. Qed.
Lemma psum_opp l f : psum l (fun z r => - f z r) = - psum l f.
Proof. rewrite (psum_ext l _ (fun z r => (- (1)) * f z r)) by (intros; ring). rewrite psum_scal. ring. Qed.
Lemma psum_minus l f g : psum l (fun z r => f z r - g z r) = psum l f - psum l g.
Proof. unfold Cminus at 1. rewrite (psum_plus l f (fun z r => - g z r)), psum_opp. reflexivity. Qed.
Lemma psum_zero l : psum l (fun _ _ => 0) = 0.
Proof. rewrite (psum_ext l _ (fun z r => 0 * 0)) by (intros; ring). rewrite psum_scal. ring. Qed.

Lemma pfn_enough A : forall n m l, (length l <= n)%nat -> (length l <= m)%nat -> pfn n A l = pfn m A l.
Proof.
  induction n as [|n IH]; intros m l Hn Hm.
  - destruct l; [destruct m; reflexivity|cbn in Hn; lia].
  - destruct l as [|x l]; [destruct m; reflexivity|]. destruct m as [|m]; [cbn in Hm; lia|]. cbn.
    apply psum_ext. intros z r _ _ Hr. rewrite (IH m r); [reflexivity| |]; cbn in *; lia.
Qed.
Lemma pf_nil A : pf A [] = 1. Proof. reflexivity. Qed.
Lemma pf_cons A x l : pf A (x :: l) = psum l (fun z r => A x z * pf A r).
Proof.
  unfold pf at 1. cbn. apply psum_ext. intros z r _ _ Hr. unfold pf. rewrite (pfn_enough A (length l) (length r) r); [reflexivity|lia|lia].
Qed.

(** ** antisymmetry *)
Lemma psum_swap l1 : forall a b l2 f,
  (forall z r1 r2, (length r1 + length r2 + 3 = length l1 + length l2 + 2)%nat -> f z (r1 ++ a :: b :: r2) = - f z (r1 ++ b :: a :: r2)) ->
  psum (l1 ++ a :: b :: l2) f = - psum (l1 ++ b :: a :: l2) f.
Proof.
  induction l1 as [|y l1 IH]; intros a b l2 f H; cbn.
  - rewrite (psum_ext l2 (fun z r => f z (a :: b :: r)) (fun z r => - f z (b :: a :: r))).
    + rewrite psum_opp. ring.
    + intros z r Hz _ Hr. apply (H z [] r). destruct l2; [destruct Hz|cbn in *; lia].
  - rewrite (IH a b l2 (fun z r => f z (y :: r))).
    + rewrite (H y l1 l2) by (cbn; lia). ring.
    + intros z r1 r2 Hr. apply (H z (y :: r1) r2). cbn. lia.
Qed.
Lemma psum2_anti l : forall (g : Z -> Z -> list Z -> C),
  psum l (fun z r => psum r (g z)) = - psum l (fun z r => psum r (fun z' => g z' z)).
Proof.
  induction l as [|y l IH]; intros g; cbn; [ring|].
  change (psum l (fun z r => g y z r) - psum l (fun z r => g z y r - psum r (fun z' r' => g z z' (y :: r'))) =
          - (psum l (fun z r => g z y r) - psum l (fun z r => g y z r - psum r (fun z' r' => g z' z (y :: r'))))).
  rewrite !psum_minus. 
  pose proof (IH (fun z z' r => g z z' (y :: r))) as T.
  change (psum l (fun z r => psum r (fun z' r' => g z z' (y :: r'))) = - psum l (fun z r => psum r (fun z' r' => g z' z (y :: r')))) in T.
  rewrite T. change (psum l (fun z r => g y z r)) with (psum l (g y)). ring.
Qed.
Lemma pf_swap A a b : A b a = - A a b -> forall n l1 l2, (length l1 + length l2 <= n)%nat ->
  pf A (l1 ++ a :: b :: l2) = - pf A (l1 ++ b :: a :: l2).
Proof.
  intros Hab. induction n as [n IH] using lt_wf_ind. intros l1 l2 Hn. destruct l1 as [|x l1].
  - cbn [app]. rewrite !pf_cons. cbn [psum].
    rewrite (psum_ext l2 (fun z r => A a z * pf A (b :: r)) (fun z r => psum r (fun z' r' => A a z * (A b z' * pf A r')))).
    2:{ intros. rewrite pf_cons, <- psum_scal. reflexivity. }
    rewrite (psum_ext l2 (fun z r => A b z * pf A (a :: r)) (fun z r => psum r (fun z' r' => A b z * (A a z' * pf A r')))).
    2:{ intros. rewrite pf_cons, <- psum_scal. reflexivity. }
    rewrite (psum2_anti l2 (fun z z' r' => A a z * (A b z' * pf A r'))), Hab.
    rewrite (psum_ext l2 (fun z r => psum r (fun z' r' => A b z * (A a z' * pf A r'))) (fun z r => psum r (fun z' r' => A a z' * (A b z * pf A r')))); [ring|].
    intros. apply psum_ext. intros. ring.
  - cbn [app]. rewrite !pf_cons. apply psum_swap. intros z r1 r2 Hr.
    rewrite (IH (length r1 + length r2)%nat) by (cbn in *; lia). ring.
Qed.
Lemma pf_swap' A a b l1 l2 : A b a = - A a b -> pf A (l1 ++ a :: b :: l2) = - pf A (l1 ++ b :: a :: l2).
Proof. intros H. now apply (pf_swap A a b H (length l1 + length l2)). Qed.
Lemma C_self_opp (x : C) : x = - x -> x = 0.
Proof.
  intros H. destruct x as (u, v). unfold Copp in H. cbn in H. injection H as H1 H2. unfold RtoC. f_equal; lra.
Qed.
Definition skewsym (A : Z -> Z -> C) (l : list Z) : Prop := forall i j, In i l -> In j l -> A j i = - A i j.
Lemma pf_dup A a : forall l2 l1 l3, skewsym A (l1 ++ a :: l2 ++ a :: l3) -> pf A (l1 ++ a :: l2 ++ a :: l3) = 0.
Proof.
  induction l2 as [|y l2 IH]; intros l1 l3 H; cbn [app].
  - apply C_self_opp. apply pf_swap'. apply H; rewrite in_app_iff; right; now left.
  - rewrite pf_swap'.
    + replace (l1 ++ y :: a :: l2 ++ a :: l3) with ((l1 ++ [y]) ++ a :: l2 ++ a :: l3) by (rewrite <- app_assoc; reflexivity).
      rewrite IH; [ring|]. intros i j Hi Hj. apply H; revert Hi Hj; cbn [app]; rewrite !in_app_iff; cbn; rewrite !in_app_iff; cbn; tauto.
    + apply H; rewrite in_app_iff; right; cbn; tauto.
Qed.
Fixpoint sgn (n : nat) : C := match n with O => 1 | S n => - sgn n end.
Lemma sgn_sq n : sgn n * sgn n = 1.
Proof. induction n; cbn; [ring|]. transitivity (sgn n * sgn n); [ring|assumption]. Qed.
Lemma pf_front A a : forall l1 l2, (forall y, In y l1 -> A a y = - A y a) -> pf A (l1 ++ a :: l2) = sgn (length l1) * pf A (a :: l1 ++ l2).
Proof.
  assert (G : forall l1 l0 l2, (forall y, In y l1 -> A a y = - A y a) -> pf A (l0 ++ l1 ++ a :: l2) = sgn (length l1) * pf A (l0 ++ a :: l1 ++ l2)).
  { induction l1 as [|y l1 IH]; intros l0 l2 H; cbn [app length sgn]; [ring|].
    rewrite pf_swap'.
    - replace (l0 ++ y :: a :: l1 ++ l2) with ((l0 ++ [y]) ++ a :: l1 ++ l2) by (rewrite <- app_assoc; reflexivity).
      replace (l0 ++ y :: l1 ++ a :: l2) with ((l0 ++ [y]) ++ l1 ++ a :: l2) by (rewrite <- app_assoc; reflexivity).
      rewrite IH by (intros; apply H; now right). ring.
    - rewrite (H y) by now left. ring. }
  intros l1 l2 H. now apply (G l1 [] l2).
Qed.
Lemma pf_ext A B : forall n l, (length l <= n)%nat -> (forall i j, In i l -> In j l -> A i j = B i j) -> pf A l = pf B l.
Proof.
  induction n as [|n IH]; intros l Hn H; destruct l as [|x l]; try reflexivity; [cbn in Hn; lia|].
  rewrite !pf_cons. apply psum_ext. intros z r Hz Hr Hl. rewrite H by (cbn; auto). f_equal. apply IH.
  - cbn in Hn. lia.
  - intros i j Hi Hj. apply H; right; now apply Hr.
Qed.
Lemma psum_map (h : Z -> Z) l : forall f, psum (map h l) f = psum l (fun z r => f (h z) (map h r)).
Proof. induction l as [|y l IH]; intros f; cbn; [reflexivity|]. now rewrite IH. Qed.
Lemma pf_map A (h : Z -> Z) : forall n l, (length l <= n)%nat -> pf A (map h l) = pf (fun i j => A (h i) (h j)) l.
Proof.
  induction n as [|n IH]; intros l Hn; destruct l as [|x l]; try reflexivity; [cbn in Hn; lia|].
  cbn [map]. rewrite !pf_cons, psum_map. apply psum_ext. intros z r _ _ Hl. rewrite IH; [reflexivity|cbn in Hn; lia].
Qed.

(** ** one row (and column) replaced *)
Definition setrow (A : Z -> Z -> C) (a : Z) (v : Z -> C) (i j : Z) : C :=
  if Z.eqb i a then (if Z.eqb j a then 0 else v j) else if Z.eqb j a then - v i else A i j.
Lemma psum_linear (F : list Z -> C) : forall l, NoDup l -> exists c : Z -> C, (forall z, ~ In z l -> c z = 0) /\
  forall v : Z -> C, psum l (fun z r => v z * F r) = csum l (fun z => v z * c z).
Proof.
  intros l. revert F. induction l as [|y l IH]; intros F Hnd; cbn.
  - exists (fun _ => 0). split; reflexivity.
  - inversion Hnd as [|? ? Hy Hl]; subst. destruct (IH (fun r => F (y :: r)) Hl) as (c & Hc0 & Hc).
    exists (fun z => if Z.eqb z y then F l else - c z). split.
    + intros z Hz. destruct (Z.eqb_spec z y); [subst; tauto|]. rewrite Hc0 by tauto. ring.
    + intros v. rewrite Hc, Z.eqb_refl. unfold Cminus. f_equal.
      rewrite (csum_ext l (fun z => v z * (if Z.eqb z y then F l else - c z)) (fun z => (- (1)) * (v z * c z))).
      * rewrite csum_scal. ring.
      * intros z Hz. destruct (Z.eqb_spec z y); [subst; tauto|]. ring.
Qed.
Lemma in_split_nodup (a : Z) l : In a l -> NoDup l -> exists l1 l2, l = l1 ++ a :: l2 /\ ~ In a (l1 ++ l2) /\ NoDup (l1 ++ l2).
Proof.
  intros H Hnd. destruct (in_split a l H) as (l1 & l2 & ->). exists l1, l2. split; [reflexivity|]. split.
  - now apply NoDup_remove_2.
  - now apply NoDup_remove_1 in Hnd.
Qed.
Lemma pf_row_linear A l a : NoDup l -> In a l -> exists c : Z -> C, c a = 0 /\ forall v, pf (setrow A a v) l = csum l (fun z => v z * c z).
Proof.
  intros Hnd Ha. destruct (in_split_nodup a l Ha Hnd) as (l1 & l2 & -> & Hna & Hnd').
  destruct (psum_linear (pf A) (l1 ++ l2) Hnd') as (c & Hc0 & Hc).
  assert (Hca : c a = 0) by now apply Hc0.
  exists (fun z => sgn (length l1) * c z). split; [rewrite Hca; ring|]. intros v.
  rewrite pf_front.
  2:{ intros y Hy. unfold setrow. rewrite Z.eqb_refl. destruct (Z.eqb_spec y a); [subst; exfalso; apply Hna; rewrite in_app_iff; tauto|]. ring. }
  rewrite pf_cons. rewrite (psum_ext _ _ (fun z r => v z * pf A r)).
  - rewrite Hc, <- csum_scal. rewrite !csum_app. cbn [csum]. rewrite Hca.
    rewrite (csum_ext l1 (fun z => v z * (sgn (length l1) * c z)) (fun x => sgn (length l1) * (v x * c x))) by (intros; ring).
    rewrite (csum_ext l2 (fun z => v z * (sgn (length l1) * c z)) (fun x => sgn (length l1) * (v x * c x))) by (intros; ring). ring.
  - intros z r Hz Hr _. unfold setrow at 1. rewrite Z.eqb_refl. destruct (Z.eqb_spec z a); [subst; tauto|]. f_equal. apply (pf_ext _ _ (length r)); [lia|].
    intros i j Hi Hj. unfold setrow. destruct (Z.eqb_spec i a); [subst; exfalso; apply Hna; now apply Hr|].
    destruct (Z.eqb_spec j a); [subst; exfalso; apply Hna; now apply Hr|]. reflexivity.
Qed.
(** two equal rows *)
Lemma pf_row_equal A l a b : skewsym A l -> NoDup l -> In a l -> In b l -> a <> b -> pf (setrow A a (A b)) l = 0.
Proof.
  intros Hs Hnd Ha Hb Hab.
  set (h := fun i => if Z.eqb i a then b else i).
  transitivity (pf A (map h l)).
  - rewrite (pf_map A h (length l)) by lia. apply (pf_ext _ _ (length l)); [lia|]. intros i j Hi Hj. unfold setrow, h.
    destruct (Z.eqb_spec i a) as [->|], (Z.eqb_spec j a) as [->|]; try reflexivity.
    + symmetry. apply C_self_opp. now apply Hs.
    + symmetry. now apply Hs.
  - destruct (in_split_nodup a l Ha Hnd) as (l1 & l2 & -> & Hna & Hnd').
    assert (Hm : forall k, ~ In a k -> map h k = k).
    { induction k as [|y k IH]; intros Hk; [reflexivity|]. cbn. rewrite IH by (intros X; apply Hk; now right). unfold h. destruct (Z.eqb_spec y a); [subst; exfalso; apply Hk; now left|reflexivity]. }
    rewrite map_app. cbn [map]. rewrite !Hm by (intros X; apply Hna; rewrite in_app_iff; tauto).
    assert (Ea : h a = b) by (unfold h; now rewrite Z.eqb_refl). rewrite Ea.
    assert (Hs' : skewsym A (l1 ++ b :: l2)).
    { intros i j Hi Hj. apply Hs; rewrite in_app_iff in *; cbn in *; destruct Hi as [Hi|[<-|Hi]], Hj as [Hj|[<-|Hj]]; try tauto; rewrite in_app_iff in Hb; cbn in Hb; tauto. }
    rewrite in_app_iff in Hb. cbn in Hb. destruct Hb as [Hb|[Hb|Hb]]; [|congruence|].
    + destruct (in_split b l1 Hb) as (m1 & m2 & ->). rewrite <- app_assoc in *. cbn [app] in *. now apply pf_dup.
    + destruct (in_split b l2 Hb) as (m1 & m2 & ->). now apply pf_dup.
Qed.
Lemma setrow_same A l a : skewsym A l -> In a l -> forall i j, In i l -> In j l -> setrow A a (A a) i j = A i j.
Proof.
  intros Hs Ha i j Hi Hj. unfold setrow. destruct (Z.eqb_spec i a) as [->|], (Z.eqb_spec j a) as [->|]; try reflexivity.
  - symmetry. apply C_self_opp. now apply Hs.
  - symmetry. now apply Hs.
Qed.
Lemma setrow_skew A l a v : skewsym A l -> skewsym (setrow A a v) l.
Proof.
  intros Hs i j Hi Hj. unfold setrow. destruct (Z.eqb_spec i a), (Z.eqb_spec j a); try ring. now apply Hs.
Qed.
(** X is a left inverse of A on the indices l *)
Definition delta (i j : Z) : C := if Z.eqb i j then 1 else 0.
Definition left_inverse (l : list Z) (X A : Z -> Z -> C) : Prop :=
  forall i k, In i l -> In k l -> csum l (fun j => X i j * A j k) = delta i k.
Lemma csum_delta (l : list Z) a (f : Z -> C) : NoDup l -> In a l -> csum l (fun j => delta a j * f j) = f a.
Proof.
  induction l as [|y l IH]; intros Hnd Ha; [destruct Ha|]. inversion Hnd as [|? ? Hy Hl]; subst. cbn.
  destruct Ha as [->|Ha].
  - unfold delta at 1. rewrite Z.eqb_refl. rewrite csum_zero; [ring|]. intros j Hj. unfold delta. destruct (Z.eqb_spec a j); [subst; tauto|ring].
  - rewrite IH by assumption. unfold delta. destruct (Z.eqb_spec a y); [subst; tauto|ring].
Qed.
Lemma csum_swap {A B} (l : list A) (m : list B) f : csum l (fun x => csum m (fun y => f x y)) = csum m (fun y => csum l (fun x => f x y)).
Proof.
  induction l as [|x l IH]; cbn.
  - symmetry. apply csum_zero. reflexivity.
  - now rewrite IH, csum_add.
Qed.
Lemma csum_scal_r {A} (l : list A) c f : csum l (fun x => f x * c) = csum l f * c.
Proof. rewrite (csum_ext l _ (fun x => c * f x)) by (intros; ring). rewrite csum_scal. ring. Qed.
Lemma csum_opp {A} (l : list A) f : csum l (fun x => - f x) = - csum l f.
Proof. rewrite (csum_ext l _ (fun x => (- (1)) * f x)) by (intros; ring). rewrite csum_scal. ring. Qed.
Lemma csum_sub {A} (l : list A) f g : csum l (fun x => f x - g x) = csum l f - csum l g.
Proof. rewrite (csum_ext l _ (fun x => f x + (- g x))) by (intros; ring). rewrite csum_add, csum_opp. ring. Qed.

Lemma pf_row A X l a v : skewsym A l -> NoDup l -> In a l -> left_inverse l X A ->
  pf (setrow A a v) l = pf A l * csum l (fun k => v k * X k a).
Proof.
  intros Hs Hnd Ha HX. destruct (pf_row_linear A l a Hnd Ha) as (c & Hca & Hc).
  assert (E : forall b, In b l -> csum l (fun z => A b z * c z) = delta a b * pf A l).
  { intros b Hb. rewrite <- (Hc (A b)). unfold delta. destruct (Z.eqb_spec a b) as [<-|Hab].
    - rewrite (pf_ext (setrow A a (A a)) A (length l)); [ring|lia|]. intros. now apply (setrow_same A l).
    - rewrite pf_row_equal by assumption. ring. }
  assert (Ck : forall k, In k l -> c k = X k a * pf A l).
  { intros k Hk.
    transitivity (csum l (fun b => X k b * csum l (fun z => A b z * c z))).
    - rewrite (csum_ext l (fun b => X k b * csum l (fun z => A b z * c z)) (fun b => csum l (fun z => X k b * A b z * c z))).
      2:{ intros. rewrite <- csum_scal. apply csum_ext. intros. ring. }
      rewrite csum_swap. rewrite (csum_ext l _ (fun z => delta k z * c z)).
      + now rewrite csum_delta.
      + intros z Hz. rewrite csum_scal_r, HX by assumption. reflexivity.
    - rewrite (csum_ext l _ (fun b => delta a b * (X k b * pf A l))).
      + now rewrite csum_delta.
      + intros b Hb. rewrite E by assumption. ring. }
  rewrite Hc, <- csum_scal. apply csum_ext. intros k Hk. rewrite Ck by assumption. ring.
Qed.
