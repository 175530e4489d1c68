(** Pfaffians of sums of products of orbitals are determinants (no code is modelled here). *)
From Coq Require Import ZArith List Bool Reals Lia FunctionalExtensionality.
From Coquelicot Require Import Complex.
From Verif Require Import Base.ZLoop Base.RSum Pf.Pfaffian Orb.Spec.
Import ListNotations.
Local Open Scope C_scope.
Local Notation "0" := (RtoC 0) : C_scope.
Local Notation "1" := (RtoC 1) : C_scope.

Notation D := first_orbital.
Lemma D_nil u f : D u f [] = 0. Proof. reflexivity. Qed.
Lemma D_cons u f x l : D u f (x :: l) = u x * f l - D u (fun r => f (x :: r)) l. Proof. reflexivity. Qed.
Lemma D_plus u f g l : D u (fun r => f r + g r) l = D u f l + D u g l.
Proof. unfold D. rewrite <- psum_plus. apply psum_ext. intros. ring. Qed.
Lemma D_scal u c f l : D u (fun r => c * f r) l = c * D u f l.
Proof. unfold D. rewrite <- psum_scal. apply psum_ext. intros. ring. Qed.
Lemma D_opp u f l : D u (fun r => - f r) l = - D u f l.
Proof. unfold D. rewrite <- psum_opp. apply psum_ext. intros. ring. Qed.
Lemma D_zero u l : D u (fun _ => 0) l = 0.
Proof. unfold D. rewrite (psum_ext l _ (fun _ _ => 0)) by (intros; ring). apply psum_zero. Qed.
Lemma D_ext u f g l : (forall r, S (length r) = length l -> f r = g r) -> D u f l = D u g l.
Proof. intros H. unfold D. apply psum_ext. intros z r Hz _ Hr. rewrite H; [reflexivity|]. destruct l; [destruct Hz|cbn in *; lia]. Qed.
Lemma D_anti u v f l : D u (D v f) l = - D v (D u f) l.
Proof.
  unfold D. transitivity (psum l (fun z r => psum r (fun z' r' => u z * (v z' * f r')))).
  { apply psum_ext. intros. now rewrite psum_scal. }
  rewrite (psum2_anti l (fun z z' r => u z * (v z' * f r))). f_equal. apply psum_ext. intros z r _ _ _. rewrite <- psum_scal. apply psum_ext. intros. ring.
Qed.
Lemma D_twice u f l : D u (D u f) l = 0.
Proof. apply C_self_opp. apply D_anti. Qed.

Definition St (p : (Z -> C) * (Z -> C)) (f : list Z -> C) : list Z -> C := fun l => f l + D (fst p) (D (snd p) f) l.
Fixpoint W (ps : list ((Z -> C) * (Z -> C))) : list Z -> C := match ps with [] => vacuum | p :: ps => St p (W ps) end.
Definition geminal (ps : list ((Z -> C) * (Z -> C))) (x y : Z) : C := csum ps (fun p => fst p x * snd p y - snd p x * fst p y).
Lemma St_D w p f : D w (St p f) = St p (D w f).
Proof.
  apply functional_extensionality; intros l. unfold St at 1. rewrite D_plus. unfold St. f_equal.
  rewrite D_anti. rewrite (D_ext (fst p) (D w (D (snd p) f)) (fun r => - D (snd p) (D w f) r)) by (intros; apply D_anti). rewrite D_opp. ring.
Qed.
Lemma St_plus p f g : St p (fun l => f l + g l) = fun l => St p f l + St p g l.
Proof. apply functional_extensionality; intros l. unfold St. rewrite (D_ext _ (D (snd p) (fun r => f r + g r)) (fun r => D (snd p) f r + D (snd p) g r)) by (intros; apply D_plus). rewrite D_plus. ring. Qed.
Lemma St_scal p c f l : St p (fun r => c * f r) l = c * St p f l.
Proof. unfold St. rewrite (D_ext _ (D (snd p) (fun r => c * f r)) (fun r => c * D (snd p) f r)) by (intros; apply D_scal). rewrite D_scal. ring. Qed.
Lemma St_zero p l : St p (fun _ => 0) l = 0.
Proof. unfold St. rewrite (D_ext _ (D (snd p) (fun _ => 0)) (fun _ => 0)) by (intros; apply D_zero). rewrite D_zero. ring. Qed.
Lemma St_csum {A} p (ks : list A) (f : A -> list Z -> C) l : St p (fun r => csum ks (fun k => f k r)) l = csum ks (fun k => St p (f k) l).
Proof.
  revert l. induction ks as [|k ks IH]; intros l; cbn [csum]; [apply St_zero|].
  rewrite (St_plus p (f k) (fun r => csum ks (fun k => f k r))). now rewrite IH.
Qed.
Lemma D_own p f l : D (snd p) (St p f) l = D (snd p) f l /\ D (fst p) (St p f) l = D (fst p) f l.
Proof.
  rewrite !St_D. unfold St. split.
  - rewrite (D_ext (fst p) (D (snd p) (D (snd p) f)) (fun _ => 0)) by (intros; apply D_twice). rewrite D_zero. ring.
  - rewrite (D_ext (fst p) (D (snd p) (D (fst p) f)) (fun r => - D (fst p) (D (snd p) f) r)) by (intros; apply D_anti).
    rewrite D_opp, D_twice. ring.
Qed.
Lemma W_cons ps x l : W ps (x :: l) = csum ps (fun p => fst p x * D (snd p) (W ps) l - snd p x * D (fst p) (W ps) l).
Proof.
  revert l. induction ps as [|p ps IH]; intros l; [reflexivity|]. cbn [W csum].
  destruct (D_own p (W ps) l) as (E1 & E2). rewrite E1, E2.
  rewrite (csum_ext ps _ (fun q => St p (fun r => fst q x * D (snd q) (W ps) r - snd q x * D (fst q) (W ps) r) l)).
  2:{ intros q _. rewrite !St_D. transitivity (St p (fun r => fst q x * D (snd q) (W ps) r + (- snd q x) * D (fst q) (W ps) r) l).
      { rewrite (St_plus p (fun r => fst q x * D (snd q) (W ps) r) (fun r => (- snd q x) * D (fst q) (W ps) r)). rewrite !St_scal. ring. }
      f_equal. apply functional_extensionality; intros r. ring. }
  rewrite <- St_csum. replace (fun r => csum ps (fun q => fst q x * D (snd q) (W ps) r - snd q x * D (fst q) (W ps) r)) with (fun r => W ps (x :: r)) by (apply functional_extensionality; intros r; apply IH).
  unfold St. rewrite D_cons.
  rewrite (D_ext (fst p) (fun r => D (snd p) (W ps) (x :: r)) (fun r => snd p x * W ps r + - D (snd p) (fun r' => W ps (x :: r')) r)) by (intros; rewrite D_cons; ring).
  rewrite D_plus, D_scal, D_opp. ring.
Qed.
Lemma W_nil ps : W ps [] = 1.
Proof. induction ps as [|p ps IH]; [reflexivity|]. cbn [W]. unfold St. rewrite D_nil, IH. ring. Qed.
Lemma D_csum {A} (ks : list A) (c : A -> C) (u : A -> Z -> C) f l : psum l (fun z r => csum ks (fun k => c k * u k z) * f r) = csum ks (fun k => c k * D (u k) f l).
Proof.
  induction ks as [|k ks IH]; cbn [csum].
  - rewrite (psum_ext l _ (fun _ _ => 0)) by (intros; ring). apply psum_zero.
  - rewrite <- IH. unfold D. rewrite <- psum_scal, <- psum_plus. apply psum_ext. intros. ring.
Qed.
Lemma pf_W ps : forall n l, (length l <= n)%nat -> pf (geminal ps) l = W ps l.
Proof.
  induction n as [|n IH]; intros [|x l] Hl; try (cbn in Hl; lia); try (now rewrite W_nil).
  rewrite pf_cons, W_cons.
  transitivity (psum l (fun z r => csum ps (fun p => fst p x * snd p z) * W ps r + csum ps (fun p => (- snd p x) * fst p z) * W ps r)).
  - apply psum_ext. intros z r _ _ Hr. rewrite IH by (cbn in Hl; lia). unfold geminal.
    rewrite csum_sub. rewrite (csum_ext ps (fun p => - snd p x * fst p z) (fun p => - (snd p x * fst p z))) by (intros; ring). rewrite csum_opp. ring.
  - rewrite psum_plus, (D_csum ps (fun p => fst p x) (fun p => snd p)), (D_csum ps (fun p => - snd p x) (fun p => fst p)).
    rewrite csum_sub. rewrite (csum_ext ps (fun p => - snd p x * D (fst p) (W ps) l) (fun p => - (snd p x * D (fst p) (W ps) l))) by (intros; ring). rewrite csum_opp. ring.
Qed.
Lemma determinant_length phis : forall l, length l <> length phis -> determinant phis l = 0.
Proof.
  induction phis as [|p phis IH]; intros l Hl; cbn [determinant]; [destruct l; [cbn in Hl; lia|reflexivity]|].
  rewrite (D_ext p _ (fun _ => 0)); [apply D_zero|]. intros r Hr. apply IH. cbn in Hl. lia.
Qed.
Definition both (ps : list ((Z -> C) * (Z -> C))) : list (Z -> C) := flat_map (fun p => [fst p; snd p]) ps.
Lemma both_length ps : length (both ps) = (2 * length ps)%nat. Proof. unfold both. induction ps; cbn; lia. Qed.
Lemma W_determinant ps : forall l, (2 * length ps <= length l)%nat -> W ps l = determinant (both ps) l.
Proof.
  induction ps as [|p ps IH]; intros l Hl; [reflexivity|]. cbn [W both flat_map app determinant]. unfold St.
  rewrite IH by (cbn in Hl; lia). rewrite determinant_length by (rewrite both_length; cbn in Hl; lia).
  transitivity (D (fst p) (D (snd p) (W ps)) l); [ring|]. apply D_ext. intros r Hr. apply D_ext. intros r' Hr'. apply IH. cbn in Hl. lia.
Qed.
Theorem pf_geminal ps l : (2 * length ps <= length l)%nat -> pf (geminal ps) l = determinant (both ps) l.
Proof. intros Hl. rewrite (pf_W ps (length l) l (le_n _)). now apply W_determinant. Qed.
Lemma pf_scale (c : R) A : forall n l, length l = (2 * n)%nat -> pf (fun x y => RtoC c * A x y) l = RtoC (c ^ n)%R * pf A l.
Proof.
  induction n as [|n IH]; intros l Hl.
  - destruct l; [|cbn in Hl; lia]. change (pf (fun x y => RtoC c * A x y) []) with 1. change (pf A []) with 1. cbn [pow]. ring.
  - destruct l as [|x l]; [cbn in Hl; lia|]. rewrite !pf_cons. rewrite <- psum_scal. apply psum_ext. intros z r Hz _ Hr.
    rewrite IH by (cbn in Hl; lia). cbn [pow]. rewrite RtoC_mult. ring.
Qed.
