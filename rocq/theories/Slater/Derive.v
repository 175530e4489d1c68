(** Derivative of a Pfaffian along a line of skew-symmetric matrices. *)
From Coq Require Import ZArith List Bool Reals Lia Lra.
From Coquelicot Require Import Coquelicot.
From Verif Require Import Base.ZLoop Base.RSum Pf.Pfaffian.
Import ListNotations.
Local Open Scope C_scope.
Local Notation "0" := (RtoC 0) : C_scope.
Local Notation "1" := (RtoC 1) : C_scope.

(** d is the derivative of the complex function F of a real variable at 0, component by component *)
Definition cderive (F : R -> C) (d : C) : Prop :=
  is_derive (fun t => fst (F t)) R0 (fst d) /\ is_derive (fun t => snd (F t)) R0 (snd d).

Lemma cderive_ext F G d : (forall t, F t = G t) -> cderive F d -> cderive G d.
Proof. intros H [A B]. split; [apply (is_derive_ext (fun t => fst (F t)))|apply (is_derive_ext (fun t => snd (F t)))]; auto; intros; now rewrite H. Qed.
Lemma cderive_const c : cderive (fun _ => c) 0.
Proof. split; cbn; apply (@is_derive_const R_AbsRing R_NormedModule). Qed.
Lemma cderive_plus F G d e : cderive F d -> cderive G e -> cderive (fun t => F t + G t) (d + e).
Proof. intros [A B] [A' B']. split; cbn; now apply (@is_derive_plus R_AbsRing R_NormedModule). Qed.
Lemma cderive_minus F G d e : cderive F d -> cderive G e -> cderive (fun t => F t - G t) (d - e).
Proof.
  intros [A B] [A' B']. split; cbn.
  - apply (is_derive_ext (fun t => (fst (F t) - fst (G t))%R)); [intros; reflexivity|]. now apply (@is_derive_minus R_AbsRing R_NormedModule).
  - apply (is_derive_ext (fun t => (snd (F t) - snd (G t))%R)); [intros; reflexivity|]. now apply (@is_derive_minus R_AbsRing R_NormedModule).
Qed.
Lemma cderive_mult F G d e : cderive F d -> cderive G e -> cderive (fun t => F t * G t) (d * G R0 + F R0 * e).
Proof.
  intros [A B] [A' B']. split; cbn.
  - replace (fst d * fst (G R0) - snd d * snd (G R0) + (fst (F R0) * fst e - snd (F R0) * snd e))%R
      with ((fst d * fst (G R0) + fst (F R0) * fst e) - (snd d * snd (G R0) + snd (F R0) * snd e))%R by ring.
    apply (@is_derive_minus R_AbsRing R_NormedModule); apply is_derive_Reals; apply derivable_pt_lim_mult; now apply is_derive_Reals.
  - replace (fst d * snd (G R0) + snd d * fst (G R0) + (fst (F R0) * snd e + snd (F R0) * fst e))%R
      with ((fst d * snd (G R0) + fst (F R0) * snd e) + (snd d * fst (G R0) + snd (F R0) * fst e))%R by ring.
    apply (@is_derive_plus R_AbsRing R_NormedModule); apply is_derive_Reals; apply derivable_pt_lim_mult; now apply is_derive_Reals.
Qed.
Lemma cderive_unique F d e : cderive F d -> cderive F e -> d = e.
Proof.
  intros [A B] [A' B']. rewrite (surjective_pairing d), (surjective_pairing e).
  f_equal; [rewrite <- (is_derive_unique _ _ _ A); now apply is_derive_unique|rewrite <- (is_derive_unique _ _ _ B); now apply is_derive_unique].
Qed.
Lemma cderive_id_scal c : cderive (fun t => RtoC t * c) c.
Proof.
  split; cbn.
  - apply (is_derive_ext (fun t => (t * fst c)%R)); [intros; match goal with |- @eq _ ?a ?b => change (@eq R a b) end; ring|]. auto_derive; [trivial|ring].
  - apply (is_derive_ext (fun t => (t * snd c)%R)); [intros; match goal with |- @eq _ ?a ?b => change (@eq R a b) end; ring|]. auto_derive; [trivial|ring].
Qed.
Lemma cderive_affine c d : cderive (fun t => c + RtoC t * d) d.
Proof.
  assert (H := cderive_plus (fun _ => c) (fun t => RtoC t * d) 0 d (cderive_const c) (cderive_id_scal d)).
  replace (0 + d) with d in H by ring. exact H.
Qed.
Lemma cderive_csum {A} (l : list A) F d : (forall x, In x l -> cderive (fun t => F t x) (d x)) -> cderive (fun t => csum l (F t)) (csum l d).
Proof.
  induction l as [|x l IH]; intros H; cbn; [apply cderive_const|].
  apply (cderive_plus (fun t => F t x) (fun t => csum l (F t))); [apply H; now left|apply IH; intros; apply H; now right].
Qed.
Lemma cderive_psum l : forall F d, (forall z r, cderive (fun t => F t z r) (d z r)) -> cderive (fun t => psum l (F t)) (psum l d).
Proof.
  induction l as [|y l IH]; intros F d H; cbn; [apply cderive_const|].
  apply (cderive_minus (fun t => F t y l) (fun t => psum l (fun z r => F t z (y :: r)))); [apply H|].
  apply (IH (fun t z r => F t z (y :: r)) (fun z r => d z (y :: r))). intros. apply H.
Qed.

Fixpoint dpfn (n : nat) (A B : Z -> Z -> C) (l : list Z) : C :=
  match n, l with
  | S n', x :: l' => psum l' (fun z r => B x z * pfn n' A r + A x z * dpfn n' A B r)
  | _, _ => 0
  end.
Definition line (A B : Z -> Z -> C) (t : R) (i j : Z) : C := A i j + RtoC t * B i j.
Lemma line0 A B i j : line A B 0 i j = A i j. Proof. unfold line. ring. Qed.
Lemma pfn_ext n A B l : (forall i j, A i j = B i j) -> pfn n A l = pfn n B l.
Proof. intros H. revert l. induction n as [|n IH]; intros [|x l]; cbn; try reflexivity. apply psum_ext. intros. now rewrite H, IH. Qed.
Lemma dpfn_derive n A B : forall l, cderive (fun t => pfn n (line A B t) l) (dpfn n A B l).
Proof.
  induction n as [|n IH]; intros l; [exact (cderive_const 1)|]. destruct l as [|x l]; [exact (cderive_const 1)|]. cbn.
  apply (cderive_psum l (fun t z r => line A B t x z * pfn n (line A B t) r)). intros z r.
  rewrite <- (pfn_ext n (line A B 0) A r) by apply line0. rewrite <- (line0 A B x z).
  apply (cderive_mult (fun t => line A B t x z) (fun t => pfn n (line A B t) r)); [|apply IH].
  apply cderive_affine.
Qed.
Lemma dpfn_ext n A B B' : forall l, (forall i j, In i l -> In j l -> B i j = B' i j) -> dpfn n A B l = dpfn n A B' l.
Proof.
  induction n as [|n IH]; intros [|x l] H; cbn; try reflexivity. apply psum_ext. intros z r Hz Hr _.
  rewrite (H x z); [|now left|now right]. rewrite IH; [reflexivity|]. intros. apply H; right; auto.
Qed.
Lemma dpfn_plus n A B B' : forall l, dpfn n A (fun i j => B i j + B' i j) l = dpfn n A B l + dpfn n A B' l.
Proof.
  induction n as [|n IH]; intros [|x l]; cbn; try ring. rewrite <- psum_plus. apply psum_ext. intros. rewrite IH. ring.
Qed.
Lemma dpfn_zero n A : forall l, dpfn n A (fun _ _ => 0) l = 0.
Proof.
  induction n as [|n IH]; intros [|x l]; cbn; try ring. transitivity (psum l (fun _ _ => 0)); [|apply psum_zero]. apply psum_ext. intros. rewrite IH. ring.
Qed.
Lemma dpfn_csum {K} n A (m : list K) R l : dpfn n A (fun i j => csum m (fun a => R a i j)) l = csum m (fun a => dpfn n A (R a) l).
Proof.
  induction m as [|a m IH]; cbn; [apply dpfn_zero|]. rewrite (dpfn_plus n A (R a) (fun i j => csum m (fun a => R a i j))). now rewrite IH.
Qed.

Section Inverse.
Variables (l : list Z) (A X B : Z -> Z -> C).
Hypothesis Hnd : NoDup l.
Hypothesis HA : skewsym A l.
Hypothesis HB : skewsym B l.
Hypothesis Hinv : left_inverse l X A.
Definition rowpart (a i j : Z) : C := if Z.eqb i a then B i j else if Z.eqb j a then B i j else 0.
Lemma B_diag i : In i l -> B i i = 0.
Proof. intros. apply C_self_opp. now apply HB. Qed.
Lemma A_diag i : In i l -> A i i = 0.
Proof. intros. apply C_self_opp. now apply HA. Qed.
Lemma row_line a t i j : In a l -> In i l -> In j l -> line A (rowpart a) t i j = setrow A a (fun k => A a k + RtoC t * B a k) i j.
Proof.
  intros Ha Hi Hj. unfold line, rowpart, setrow. destruct (Z.eqb_spec i a) as [->|Hia].
  - destruct (Z.eqb_spec j a) as [->|Hja]; [rewrite A_diag, B_diag by assumption; ring|reflexivity].
  - destruct (Z.eqb_spec j a) as [->|Hja]; [rewrite (HA a i), (HB a i) by assumption; ring|ring].
Qed.
Lemma row_derive a : In a l -> dpfn (length l) A (rowpart a) l = pf A l * csum l (fun k => B a k * X k a).
Proof.
  intros Ha. apply (cderive_unique (fun t => pfn (length l) (line A (rowpart a) t) l)); [apply dpfn_derive|].
  apply (cderive_ext (fun t => pf A l * csum l (fun k => A a k * X k a) + RtoC t * (pf A l * csum l (fun k => B a k * X k a)))).
  - intros t. change (pfn (length l) (line A (rowpart a) t) l) with (pf (line A (rowpart a) t) l).
    rewrite (pf_ext (line A (rowpart a) t) (setrow A a (fun k => A a k + RtoC t * B a k)) (length l)); [|lia|intros; now apply row_line].
    rewrite (pf_row A X l a) by assumption.
    rewrite (csum_ext l (fun k => (A a k + RtoC t * B a k) * X k a) (fun k => A a k * X k a + RtoC t * (B a k * X k a))) by (intros; ring).
    rewrite csum_add, csum_scal. ring.
  - apply cderive_affine.
Qed.
Lemma rowparts i j : In i l -> In j l -> csum l (fun a => rowpart a i j) = B i j + B i j.
Proof.
  intros Hi Hj. destruct (Z.eq_dec i j) as [<-|Hne].
  - rewrite B_diag by assumption. rewrite csum_zero; [ring|]. intros a _. unfold rowpart. rewrite B_diag by assumption. now destruct (Z.eqb i a).
  - rewrite (csum_ext l _ (fun a => delta i a * B i j + delta j a * B i j)).
    + rewrite csum_add. rewrite (csum_delta l i (fun _ => B i j)), (csum_delta l j (fun _ => B i j)) by assumption. reflexivity.
    + intros a Ha. unfold rowpart, delta. destruct (Z.eqb_spec i a), (Z.eqb_spec j a); subst; try tauto; ring.
Qed.
(** the logarithmic derivative is half the trace of dA A^-1 *)
Lemma pf_derive : exists d, cderive (fun t => pf (line A B t) l) d /\ d + d = pf A l * csum l (fun a => csum l (fun k => B a k * X k a)).
Proof.
  exists (dpfn (length l) A B l). split; [apply dpfn_derive|].
  rewrite <- dpfn_plus, <- csum_scal.
  rewrite (dpfn_ext _ A _ (fun i j => csum l (fun a => rowpart a i j))) by (intros; now rewrite rowparts).
  rewrite dpfn_csum. apply csum_ext. intros a Ha. now apply row_derive.
Qed.
End Inverse.
