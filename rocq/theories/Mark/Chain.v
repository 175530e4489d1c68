(** From undoing proposals to detailed balance and the stationary distribution. *)
From Coq Require Import ZArith List Bool Lia Reals Lra.
From Verif Require Import Base.ZLoop Base.RSum Mark.Spec Mark.Words.
Import ListNotations.
Local Open Scope Z_scope.

Lemma size_pos n : (0 < IZR wordsize ^ n)%R.
Proof. apply pow_lt. apply IZR_lt. reflexivity. Qed.
Lemma min_swap dx dy : (0 < dx)%R -> (0 < dy)%R -> (dx * Rmin 1 (dy / dx) = dy * Rmin 1 (dx / dy))%R.
Proof.
  intros Hx Hy. destruct (Rle_dec dx dy) as [L|L].
  - rewrite Rmin_left, Rmin_right; [field; lra| |].
    + apply Rmult_le_reg_r with (r := dy); [exact Hy|]. unfold Rdiv. rewrite Rmult_assoc, Rinv_l; lra.
    + apply Rmult_le_reg_r with (r := dx); [exact Hx|]. unfold Rdiv. rewrite Rmult_assoc, Rinv_l; lra.
  - rewrite Rmin_right, Rmin_left; [field; lra| |].
    + apply Rmult_le_reg_r with (r := dy); [exact Hy|]. unfold Rdiv. rewrite Rmult_assoc, Rinv_l; lra.
    + apply Rmult_le_reg_r with (r := dx); [exact Hx|]. unfold Rdiv. rewrite Rmult_assoc, Rinv_l; lra.
Qed.
Lemma rsum_single {A} (l : list A) s f : NoDup l -> In s l -> (forall x, In x l -> x <> s -> f x = 0%R) -> rsum l f = f s.
Proof.
  intros H. induction H as [|y l Hy Hl IH]; intros Hs H0; [destruct Hs|]. cbn [rsum]. destruct Hs as [->|Hs].
  - rewrite rsum_zero; [ring|]. intros x Hx. apply H0; [now right|]. intros ->. contradiction.
  - rewrite IH; [|exact Hs|intros x Hx; apply H0; now right]. rewrite H0; [ring|now left|]. intros ->. contradiction.
Qed.
Lemma bias_ge n N : 0 < N -> (rsum (words wordsize n) (bad wordsize N) / IZR wordsize ^ n <= bias n N)%R.
Proof.
  intros HN. assert (P := size_pos n). assert (Q : (0 < IZR wordsize)%R) by (apply IZR_lt; reflexivity).
  assert (H := bad_le wordsize N HN eq_refl (Z.lt_le_incl 0 wordsize eq_refl) n). unfold bias.
  apply Rmult_le_reg_r with (r := (IZR wordsize * IZR wordsize ^ n)%R); [now apply Rmult_lt_0_compat|].
  replace (rsum (words wordsize n) (bad wordsize N) / IZR wordsize ^ n * (IZR wordsize * IZR wordsize ^ n))%R with (IZR wordsize * rsum (words wordsize n) (bad wordsize N))%R by (field; lra).
  replace (INR n * IZR (wordsize mod N) / IZR wordsize * (IZR wordsize * IZR wordsize ^ n))%R with (INR n * IZR (wordsize mod N) * IZR wordsize ^ n)%R by (field; lra). exact H.
Qed.
Lemma bias_0 n N : wordsize mod N = 0 -> bias n N = 0%R.
Proof. intros H. unfold bias. rewrite H. unfold Rdiv. ring. Qed.
Lemma bias_nonneg n N : 0 < N -> (0 <= bias n N)%R.
Proof.
  intros HN. unfold bias. apply Rmult_le_pos; [apply Rmult_le_pos; [apply pos_INR|apply IZR_le; apply Z.mod_pos_bound; exact HN]|]. left. apply Rinv_0_lt_compat. apply IZR_lt. reflexivity.
Qed.
Lemma rsum_abs_le {A} (l : list A) f g : (forall x, In x l -> (Rabs (f x) <= g x)%R) -> (Rabs (rsum l f) <= rsum l g)%R.
Proof.
  induction l as [|a l IH]; intros H; cbn [rsum]; [rewrite Rabs_R0; lra|]. eapply Rle_trans; [apply Rabs_triang|]. apply Rplus_le_compat; [apply H; now left|apply IH; intros x Hx; apply H; now right].
Qed.
Section Core.
Context {X : Type}.
Variable same : X -> X -> bool.
Variable n : nat.
Notation W := (words wordsize n).
Section Half.
Variables (fx fy : (Z -> Z) -> option (Z * option (X * R))) (x y : X) (bk : list Z -> list Z) (dx dy a1 a2 : R).
Variable N : Z.
Hypothesis HN : 0 < N.
Hypothesis Hbk : forall l, In l W -> In (bk l) W /\ bk (bk l) = l.
Hypothesis Hxy : forall l p x' a, In l W -> good N l -> fx (word_at l) = Some (p, Some (x', a)) -> p <= Z.of_nat n -> same x' y = true ->
  a = a1 /\ exists x'', fy (word_at (bk l)) = Some (p, Some (x'', a2)) /\ same x'' x = true.
Hypothesis Hd : (dx * Rmin 1 a1 = dy * Rmin 1 a2)%R.
Hypothesis Hx : (0 <= dx)%R.
Hypothesis Hy : (0 <= dy)%R.
Hypothesis Ha : forall l p x' a, In l W -> fy (word_at l) = Some (p, Some (x', a)) -> (0 <= a)%R.
Lemma chance_le : (dx * chance same n fx y <= dy * chance same n fy x + dx * bias n N)%R.
Proof.
  assert (PB := bias_ge n N HN). set (bd := (rsum W (bad wordsize N) / IZR wordsize ^ n)%R) in PB.
  apply Rle_trans with (dy * chance same n fy x + dx * bd)%R; [|apply Rplus_le_compat_l; now apply Rmult_le_compat_l].
  unfold bd, chance, Rdiv. rewrite <- !Rmult_assoc. rewrite <- Rmult_plus_distr_r. apply Rmult_le_compat_r; [left; apply Rinv_0_lt_compat, size_pos|]. rewrite <- !rsum_scal.
  match goal with |- (?a <= ?b + ?c)%R => assert (a - c <= b)%R; [|lra] end. rewrite <- rsum_sub.
  apply (half wordsize n bk); [exact Hbk|]. intros l Hl.
  assert (P : (0 <= dy * match fy (word_at (bk l)) with Some (p, Some (x', a)) => if (p <=? Z.of_nat n) && same x' x then Rmin 1 a else 0 | _ => 0 end)%R).
  { apply Rmult_le_pos; [exact Hy|]. destruct (fy (word_at (bk l))) as [(p, [(x', a)|])|] eqn:E; try lra. destruct (_ && _); [|lra]. apply Rmin_glb; [lra|]. apply (Ha (bk l) p x' a); [now apply Hbk|exact E]. }
  unfold bad. destruct (forallb (fun x => x <? top wordsize N) l) eqn:G.
  2:{ rewrite Rmult_1_r. match goal with |- (dx * ?m - dx <= ?r)%R => assert (m <= 1)%R end.
      { destruct (fx (word_at l)) as [(p, [(x', a)|])|]; try lra. destruct (_ && _); [|lra]. apply Rmin_l. }
      eapply Rle_trans; [|exact P]. apply Rle_trans with (dx * 1 - dx)%R; [|lra]. apply Rplus_le_compat_r. now apply Rmult_le_compat_l. }
  rewrite Rmult_0_r, Rminus_0_r.
  destruct (fx (word_at l)) as [(p, [(x', a)|])|] eqn:E; try (rewrite Rmult_0_r; exact P).
  destruct (Z.leb_spec p (Z.of_nat n)) as [Hp|Hp]; cbn [andb]; [|rewrite Rmult_0_r; exact P].
  destruct (same x' y) eqn:Es; [|rewrite Rmult_0_r; exact P].
  destruct (Hxy l p x' a Hl (good_of N l G) E Hp Es) as (-> & x'' & -> & ->). replace (p <=? Z.of_nat n) with true by (symmetry; now apply Z.leb_le). cbn [andb]. rewrite Hd. lra.
Qed.
End Half.
(** the targets of f are, up to [same], those of a list *)
Lemma leaving_sum {S : Type} (of : S -> X) (L : list S) f :
  (forall l p x' a, In l W -> f (word_at l) = Some (p, Some (x', a)) -> p <= Z.of_nat n -> (0 <= a)%R) ->
  (forall a b, In a L -> In b L -> forall x, same x (of a) = true -> same x (of b) = true -> a = b) -> NoDup L ->
  (forall l p x' a, In l W -> f (word_at l) = Some (p, Some (x', a)) -> p <= Z.of_nat n -> (0 < a)%R -> exists s, In s L /\ same x' (of s) = true) ->
  rsum L (fun s => chance same n f (of s)) = leaving n f.
Proof.
  intros Ha Hin Hnd Hcov. unfold chance, leaving, Rdiv. rewrite rsum_scal_r. f_equal. rewrite rsum_swap. apply rsum_ext. intros l Hl.
  destruct (f (word_at l)) as [(p, [(x', a)|])|] eqn:E; try (apply rsum_zero; reflexivity).
  destruct (Z.leb_spec p (Z.of_nat n)) as [Hp|Hp]; cbn [andb]; [|apply rsum_zero; reflexivity].
  destruct (Ha l p x' a Hl E Hp) as [Hpos|<-].
  - destruct (Hcov l p x' a Hl E Hp Hpos) as (s & Hs & Es). rewrite (rsum_single L s); [now rewrite Es|exact Hnd|exact Hs|].
    intros s' Hs' Hne. destruct (same x' (of s')) eqn:E'; [|reflexivity]. exfalso. apply Hne. now apply (Hin s' s Hs' Hs x').
  - rewrite Rmin_right by lra. apply rsum_zero. intros s _. now destruct (same x' (of s)).
Qed.
End Core.
