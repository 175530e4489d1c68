(** Finite sums of reals and complex numbers over lists. *)
From Coq Require Import ZArith List Bool Lia Reals Lra Permutation.
From Coquelicot Require Import Complex.
From Verif Require Import Base.ZLoop.
Import ListNotations.
Local Open Scope R_scope.

Fixpoint rsum {A : Type} (l : list A) (f : A -> R) : R := match l with [] => 0 | x :: l => f x + rsum l f end.
Fixpoint csum {A : Type} (l : list A) (f : A -> C) : C := match l with [] => RtoC 0 | x :: l => Cplus (f x) (csum l f) end.

Lemma rsum_app {A} (l m : list A) f : rsum (l ++ m) f = rsum l f + rsum m f.
Proof. induction l as [|x l IH]; cbn [rsum app]; [lra|rewrite IH; lra]. Qed.
Lemma rsum_ext {A} (l : list A) f g : (forall x, In x l -> f x = g x) -> rsum l f = rsum l g.
Proof. induction l as [|x l IH]; intros H; cbn [rsum]; [reflexivity|]. rewrite H by now left. rewrite IH; [reflexivity|]. intros; apply H; now right. Qed.
Lemma rsum_add {A} (l : list A) f g : rsum l (fun x => f x + g x) = rsum l f + rsum l g.
Proof. induction l as [|x l IH]; cbn [rsum]; [lra|rewrite IH; lra]. Qed.
Lemma rsum_sub {A} (l : list A) f g : rsum l (fun x => f x - g x) = rsum l f - rsum l g.
Proof. induction l as [|x l IH]; cbn [rsum]; [lra|rewrite IH; lra]. Qed.
Lemma rsum_scal {A} (l : list A) c f : rsum l (fun x => c * f x) = c * rsum l f.
Proof. induction l as [|x l IH]; cbn [rsum]; [lra|rewrite IH; lra]. Qed.
Lemma rsum_scal_r {A} (l : list A) c f : rsum l (fun x => f x * c) = rsum l f * c.
Proof. induction l as [|x l IH]; cbn [rsum]; [lra|rewrite IH; lra]. Qed.
Lemma rsum_zero {A} (l : list A) f : (forall x, In x l -> f x = 0) -> rsum l f = 0.
Proof. induction l as [|x l IH]; intros H; cbn [rsum]; [reflexivity|]. rewrite H by now left. rewrite IH; [lra|]. intros; apply H; now right. Qed.
Lemma rsum_const {A} (l : list A) c : rsum l (fun _ => c) = c * INR (length l).
Proof. induction l as [|x l IH]; cbn [rsum length]; [cbn; lra|]. rewrite S_INR, IH. lra. Qed.
Lemma rsum_nonneg {A} (l : list A) f : (forall x, In x l -> 0 <= f x) -> 0 <= rsum l f.
Proof. induction l as [|x l IH]; intros H; cbn [rsum]; [lra|]. pose proof (H x (or_introl eq_refl)). specialize (IH (fun y Hy => H y (or_intror Hy))). lra. Qed.
Lemma rsum_le {A} (l : list A) f g : (forall x, In x l -> f x <= g x) -> rsum l f <= rsum l g.
Proof. induction l as [|x l IH]; intros H; cbn [rsum]; [lra|]. pose proof (H x (or_introl eq_refl)). specialize (IH (fun y Hy => H y (or_intror Hy))). lra. Qed.
Lemma rsum_map {A B} (g : A -> B) (l : list A) f : rsum (map g l) f = rsum l (fun x => f (g x)).
Proof. induction l as [|x l IH]; cbn [rsum map]; [reflexivity|now rewrite IH]. Qed.
Lemma rsum_swap {A B} (l : list A) (m : list B) f : rsum l (fun x => rsum m (fun y => f x y)) = rsum m (fun y => rsum l (fun x => f x y)).
Proof.
  induction l as [|x l IH]; cbn [rsum]; [symmetry; now apply rsum_zero|]. rewrite IH, rsum_add. reflexivity.
Qed.
Lemma rsum_perm {A} (l m : list A) f : Permutation l m -> rsum l f = rsum m f.
Proof. induction 1; cbn [rsum]; lra. Qed.
Lemma rsum_flat_map {A B} (g : A -> list B) (l : list A) f : rsum (flat_map g l) f = rsum l (fun x => rsum (g x) f).
Proof. induction l as [|x l IH]; cbn [flat_map rsum]; [reflexivity|]. now rewrite rsum_app, IH. Qed.
Lemma rsum_IZR {A} (l : list A) f : rsum l (fun x => IZR (f x)) = IZR (zsum l f).
Proof. induction l as [|x l IH]; cbn [rsum zsum]; [reflexivity|]. now rewrite IH, plus_IZR. Qed.
Lemma rsum_delta (l : list Z) k (f : Z -> R) : NoDup l -> In k l -> rsum l (fun j => if Z.eqb j k then f j else 0) = f k.
Proof.
  induction l as [|x l IH]; intros Hn Hi; [destruct Hi|]. inversion Hn as [|? ? Hx Hl]; subst. cbn [rsum].
  destruct Hi as [->|Hi].
  - rewrite Z.eqb_refl. rewrite rsum_zero; [lra|]. intros y Hy. destruct (Z.eqb_spec y k) as [->|]; [now elim Hx|reflexivity].
  - destruct (Z.eqb_spec x k) as [->|]; [now elim Hx|]. rewrite IH by assumption. lra.
Qed.
Lemma rsum_upd (l : list Z) k (F : Z -> R -> R) (p : Z -> R) v : NoDup l -> In k l ->
  rsum l (fun j => F j (upd p k v j)) = rsum l (fun j => F j (p j)) + (F k v - F k (p k)).
Proof.
  intros Hn Hi.
  assert (E : rsum l (fun j => F j (upd p k v j)) - rsum l (fun j => F j (p j)) = F k v - F k (p k)); [|lra].
  rewrite <- rsum_sub. rewrite <- (rsum_delta l k (fun j => F j v - F j (p j)) Hn Hi).
  apply rsum_ext. intros j _. rewrite upd_get. destruct (Z.eqb_spec j k) as [->|]; lra.
Qed.

Lemma csum_re {A} (l : list A) f : fst (csum l f) = rsum l (fun x => fst (f x)).
Proof. induction l as [|x l IH]; cbn [csum rsum]; [reflexivity|]. now rewrite <- IH. Qed.
Lemma csum_im {A} (l : list A) f : snd (csum l f) = rsum l (fun x => snd (f x)).
Proof. induction l as [|x l IH]; cbn [csum rsum]; [reflexivity|]. now rewrite <- IH. Qed.
Lemma csum_ext {A} (l : list A) f g : (forall x, In x l -> f x = g x) -> csum l f = csum l g.
Proof. induction l as [|x l IH]; intros H; cbn [csum]; [reflexivity|]. rewrite H by now left. rewrite IH; [reflexivity|]. intros; apply H; now right. Qed.
Lemma csum_app {A} (l m : list A) f : csum (l ++ m) f = Cplus (csum l f) (csum m f).
Proof. induction l as [|x l IH]; cbn [csum app]; [ring|rewrite IH; ring]. Qed.
Lemma csum_add {A} (l : list A) f g : csum l (fun x => Cplus (f x) (g x)) = Cplus (csum l f) (csum l g).
Proof. induction l as [|x l IH]; cbn [csum]; [ring|rewrite IH; ring]. Qed.
Lemma csum_scal {A} (l : list A) c f : csum l (fun x => Cmult c (f x)) = Cmult c (csum l f).
Proof. induction l as [|x l IH]; cbn [csum]; [ring|rewrite IH; ring]. Qed.
Lemma csum_zero {A} (l : list A) f : (forall x, In x l -> f x = RtoC 0) -> csum l f = RtoC 0.
Proof. induction l as [|x l IH]; intros H; cbn [csum]; [reflexivity|]. rewrite H by now left. rewrite IH; [ring|]. intros; apply H; now right. Qed.
Lemma csum_perm {A} (l m : list A) f : Permutation l m -> csum l f = csum m f.
Proof. induction 1; cbn [csum]; try reflexivity; [now rewrite IHPermutation|ring|congruence]. Qed.
