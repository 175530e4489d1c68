(** Antisymmetric functions of configurations and the action of operator strings on them. *)
From Coq Require Import ZArith List Bool Lia Reals Lra FunctionalExtensionality Permutation.
From Coquelicot Require Import Complex.
From Verif Require Import Base.ZLoop Base.Checked Base.RSum Proj.Model Proj.Spec Pf.Pfaffian Pf.Spec Slater.Model Slater.Spec Slater.ProofsElm Rbm.Model Rbm.Spec Samp.Model Samp.Spec Green.Model Green.Spec.
Import ListNotations.
Local Open Scope Z_scope.

Definition tr (m1 m2 i : Z) : Z := if i =? m1 then m2 else if i =? m2 then m1 else i.
Lemma tr_invol m1 m2 i : tr m1 m2 (tr m1 m2 i) = i.
Proof. unfold tr. destruct (Z.eqb_spec i m1) as [->|H1]; [rewrite Z.eqb_refl; destruct (Z.eqb_spec m2 m1); congruence|]. destruct (Z.eqb_spec i m2) as [->|H2]; [now rewrite Z.eqb_refl|].
  destruct (Z.eqb_spec i m1), (Z.eqb_spec i m2); congruence. Qed.
Lemma tr_l m1 m2 : tr m1 m2 m1 = m2. Proof. unfold tr. now rewrite Z.eqb_refl. Qed.
Lemma tr_r m1 m2 : tr m1 m2 m2 = m1. Proof. unfold tr. rewrite Z.eqb_refl. destruct (Z.eqb_spec m2 m1); congruence. Qed.
Lemma tr_o m1 m2 i : i <> m1 -> i <> m2 -> tr m1 m2 i = i.
Proof. intros. unfold tr. destruct (Z.eqb_spec i m1), (Z.eqb_spec i m2); congruence. Qed.
Lemma tr_inj m1 m2 i j : tr m1 m2 i = tr m1 m2 j -> i = j.
Proof. intros H. rewrite <- (tr_invol m1 m2 i), <- (tr_invol m1 m2 j). now rewrite H. Qed.
Lemma tr_map_out m1 m2 l : ~ In m1 l -> ~ In m2 l -> map (tr m1 m2) l = l.
Proof. intros H1 H2. rewrite <- (map_id l) at 2. apply map_ext_in. intros i Hi. apply tr_o; intros ->; auto. Qed.

(** ** Pfaffians *)
Ltac members y := repeat (rewrite in_app_iff in * || cbn [In] in * ); tauto.
Lemma skew_incl A l l' : skewsym A l -> (forall i, In i l' -> In i l) -> skewsym A l'.
Proof. intros H Hi i j Ii Ij. apply H; now apply Hi. Qed.
Lemma pf_exchange A a b : forall l2 l1 l3, skewsym A (l1 ++ a :: l2 ++ b :: l3) ->
  pf A (l1 ++ a :: l2 ++ b :: l3) = Copp (pf A (l1 ++ b :: l2 ++ a :: l3)).
Proof.
  induction l2 as [|y l2 IH]; intros l1 l3 H; cbn [app].
  - apply pf_swap'. apply H; rewrite in_app_iff; right; cbn; auto.
  - assert (In a (l1 ++ a :: (y :: l2) ++ b :: l3)) as Ia by (rewrite in_app_iff; right; now left).
    assert (In y (l1 ++ a :: (y :: l2) ++ b :: l3)) as Iy by (rewrite in_app_iff; right; right; now left).
    assert (In b (l1 ++ a :: (y :: l2) ++ b :: l3)) as Ib by (rewrite in_app_iff; right; right; right; rewrite in_app_iff; right; now left).
    rewrite (pf_swap' A a y l1) by now apply H.
    assert (E := IH (l1 ++ [y]) l3). rewrite <- !app_assoc in E. cbn [app] in E. rewrite E.
    + rewrite (pf_swap' A y b l1) by now apply H. ring.
    + apply (skew_incl A _ _ H). intros i Hi. members i.
Qed.
Lemma split_two (m1 m2 : Z) l : NoDup l -> In m1 l -> In m2 l -> m1 <> m2 ->
  exists l1 l2 l3, (l = l1 ++ m1 :: l2 ++ m2 :: l3 \/ l = l1 ++ m2 :: l2 ++ m1 :: l3) /\ (forall y, In y (l1 ++ l2 ++ l3) -> y <> m1 /\ y <> m2).
Proof.
  intros Hnd H1 H2 Hne. destruct (in_split m1 l H1) as (u & v & ->).
  assert (Hnd' := NoDup_remove_2 _ _ _ Hnd).
  rewrite in_app_iff in H2. destruct H2 as [H2|[H2|H2]]; [|congruence|].
  - destruct (in_split m2 u H2) as (u1 & u2 & ->). exists u1, u2, v. split; [right; now rewrite <- app_assoc|].
    rewrite <- app_assoc in Hnd. cbn in Hnd. assert (Hnd2 := NoDup_remove_2 _ _ _ Hnd).
    intros y Hy. split; intros ->; [apply Hnd'; clear -Hy; members m1|apply Hnd2; clear -Hy; members m2].
  - destruct (in_split m2 v H2) as (v1 & v2 & ->). exists u, v1, v2. split; [now left|].
    assert (Hnd2 : NoDup ((u ++ m1 :: v1) ++ m2 :: v2)) by now rewrite <- app_assoc. apply NoDup_remove_2 in Hnd2. rewrite <- app_assoc in Hnd2.
    intros y Hy. split; intros ->; [apply Hnd'; clear -Hy; members m1|apply Hnd2; clear -Hy; members m2].
Qed.
Lemma pf_tr A l m1 m2 : skewsym A l -> NoDup l -> In m1 l -> In m2 l -> m1 <> m2 -> pf (fun i j => A (tr m1 m2 i) (tr m1 m2 j)) l = Copp (pf A l).
Proof.
  intros Hs Hnd H1 H2 Hne. rewrite <- (pf_map A (tr m1 m2) (length l)) by lia.
  destruct (split_two m1 m2 l Hnd H1 H2 Hne) as (l1 & l2 & l3 & [E|E] & Hy); subst l.
  - assert (O : forall l, (forall y, In y l -> In y (l1 ++ l2 ++ l3)) -> map (tr m1 m2) l = l) by (intros l Hl; apply tr_map_out; intros Hi; destruct (Hy _ (Hl _ Hi)); congruence).
    rewrite map_app; cbn [map]; rewrite map_app; cbn [map]. rewrite tr_l, tr_r, !O by (intros y Hi; members y).
    rewrite (pf_exchange A m1 m2 l2 l1 l3) by exact Hs. ring.
  - assert (O : forall l, (forall y, In y l -> In y (l1 ++ l2 ++ l3)) -> map (tr m1 m2) l = l) by (intros l Hl; apply tr_map_out; intros Hi; destruct (Hy _ (Hl _ Hi)); congruence).
    rewrite map_app; cbn [map]; rewrite map_app; cbn [map]. rewrite tr_l, tr_r, !O by (intros y Hi; members y).
    rewrite (pf_exchange A m2 m1 l2 l1 l3) by exact Hs. ring.
Qed.

Section Anti.
Variable V : wave.
Let N := sites V.
Let Ne := Slater.Model.Ne (vS V).
Hypothesis HN : 0 < N.
Hypothesis HNe : 0 < Ne.
Notation label m := (In m (labels V)).

Definition anti (f : (Z -> Z) -> C) : Prop :=
  forall m1 m2 x, label m1 -> label m2 -> m1 <> m2 -> m1 / Ne = m2 / Ne -> f (fun i => x (tr m1 m2 i)) = Copp (f x).

Lemma labels_nodup : NoDup (labels V). Proof. apply zrange_NoDup. Qed.
Lemma tr_label m1 m2 m : label m1 -> label m2 -> label m -> label (tr m1 m2 m).
Proof. intros. unfold tr. destruct (m =? m1); [assumption|]. now destruct (m =? m2). Qed.
Lemma tr_spin m1 m2 m : m1 / Ne = m2 / Ne -> tr m1 m2 m / Ne = m / Ne.
Proof. intros. unfold tr. destruct (Z.eqb_spec m m1); [congruence|]. destruct (Z.eqb_spec m m2); congruence. Qed.
Lemma tr_perm m1 m2 : label m1 -> label m2 -> Permutation (map (tr m1 m2) (labels V)) (labels V).
Proof.
  intros H1 H2. apply NoDup_Permutation.
  - apply FinFun.Injective_map_NoDup; [|apply labels_nodup]. intros i j. apply tr_inj.
  - apply labels_nodup.
  - intros m. rewrite in_map_iff. split.
    + intros (i & <- & Hi). now apply tr_label.
    + intros Hm. exists (tr m1 m2 m). split; [apply tr_invol|now apply tr_label].
Qed.
Lemma csum_map {A B} (g : A -> B) (l : list A) f : csum (map g l) f = csum l (fun x => f (g x)).
Proof. induction l as [|x l IH]; cbn; [reflexivity|now rewrite IH]. Qed.
Lemma orb_tr m1 m2 x m : m1 / Ne = m2 / Ne -> orb V (fun i => x (tr m1 m2 i)) m = orb V x (tr m1 m2 m).
Proof. intros H. unfold orb, orbital. fold Ne. now rewrite tr_spin. Qed.
Lemma upd_tr (x : Z -> Z) m1 m2 m a : upd (fun i => x (tr m1 m2 i)) m a = fun i => upd x (tr m1 m2 m) a (tr m1 m2 i).
Proof.
  apply functional_extensionality. intros i. unfold upd. destruct (Z.eqb_spec i m) as [->|H]; [now rewrite Z.eqb_refl|].
  destruct (Z.eqb_spec (tr m1 m2 i) (tr m1 m2 m)) as [E|E]; [|reflexivity]. apply tr_inj in E. congruence.
Qed.
Lemma act_anti o f : anti f -> anti (act V o f).
Proof.
  intros Hf m1 m2 x H1 H2 Hne Hsp. unfold act.
  rewrite <- (csum_perm _ _ (fun m => if orb V x m =? snd o then f (upd x m (fst o mod sites V)) else RtoC 0) (tr_perm m1 m2 H1 H2)).
  rewrite csum_map, <- csum_opp. apply csum_ext. intros m _. rewrite orb_tr by assumption.
  destruct (orb V x (tr m1 m2 m) =? snd o); [|ring]. rewrite upd_tr. now apply Hf.
Qed.
Lemma string_anti ops : forall f, anti f -> anti (string V ops f).
Proof. induction ops as [|o ops IH]; intros f Hf; cbn; [assumption|]. apply IH. now apply act_anti. Qed.
Lemma string_app p : forall q f, string V (p ++ q) f = string V q (string V p f).
Proof. induction p as [|o p IH]; intros q f; cbn; [reflexivity|apply IH]. Qed.

(** sites are on the lattice *)
Definition lattice (x : Z -> Z) : Prop := forall m, label m -> 0 <= x m < N.
Lemma label_in m : label m <-> 0 <= m < 2 * Ne. Proof. apply zrange_in. Qed.
Lemma orb_div x m : lattice x -> label m -> orb V x m / N = m / Ne /\ orb V x m mod N = x m /\ 0 <= orb V x m < 2 * N.
Proof.
  intros Hx Hm. assert (H := Hx m Hm). apply label_in in Hm. unfold orb, orbital. fold N Ne.
  split; [rewrite Z.div_add, Z.div_small by lia; lia|]. split; [rewrite Z_mod_plus_full; now apply Z.mod_small|].
  assert (0 <= m / Ne < 2) by (split; [apply Z.div_pos; lia|apply Z.div_lt_upper_bound; lia]). nia.
Qed.
(** two electrons on one spin-orbital *)
Lemma anti_dup f x m1 m2 : anti f -> lattice x -> label m1 -> label m2 -> m1 <> m2 -> orb V x m1 = orb V x m2 -> f x = RtoC 0.
Proof.
  intros Hf Hx H1 H2 Hne E. destruct (orb_div x m1 Hx H1) as (D1 & M1 & _), (orb_div x m2 Hx H2) as (D2 & M2 & _).
  apply C_self_opp. rewrite <- (Hf m1 m2 x H1 H2 Hne) by congruence. f_equal. apply functional_extensionality. intros i. unfold tr.
  destruct (Z.eqb_spec i m1) as [->|]; [congruence|]. destruct (Z.eqb_spec i m2) as [->|]; congruence.
Qed.

(** ** the wave function is antisymmetric *)
Lemma occupation_tr m1 m2 x : label m1 -> label m2 -> m1 / Ne = m2 / Ne -> occupation V (fun i => x (tr m1 m2 i)) = occupation V x.
Proof.
  intros H1 H2 Hs. apply functional_extensionality. intros rs. unfold occupation.
  assert (E : existsb (fun m => orb V (fun i => x (tr m1 m2 i)) m =? rs) (labels V) = existsb (fun m => orb V x m =? rs) (labels V)).
  { apply eq_true_iff_eq. rewrite !existsb_exists. split; intros (m & Hm & E).
    - exists (tr m1 m2 m). split; [now apply tr_label|]. now rewrite <- orb_tr.
    - exists (tr m1 m2 m). split; [now apply tr_label|]. now rewrite orb_tr, tr_invol. }
  now rewrite E.
Qed.
Lemma psi_anti : anti (psi V).
Proof.
  intros m1 m2 x H1 H2 Hne Hsp. unfold psi. rewrite occupation_tr by assumption.
  replace (pairs V (fun i => x (tr m1 m2 i))) with (Copp (pairs V x)); [ring|].
  unfold pairs, amplitude. rewrite <- csum_opp. apply csum_ext. intros o _. rewrite <- csum_opp. apply csum_ext. intros m _. rewrite <- csum_opp. apply csum_ext. intros s _.
  replace (pfaffian (vS V) (vQ V) (vbeta V) (vsl V) (fun i => x (tr m1 m2 i)) o m s) with (Copp (pfaffian (vS V) (vQ V) (vbeta V) (vsl V) x o m s)); [ring|].
  unfold pfaffian. rewrite <- (pf_tr _ _ m1 m2).
  - apply (pf_ext _ _ (length (labels V))); [reflexivity|]. intros i j _ _.
    change (orbital (Slater.Model.Nsite (vS V)) (Slater.Model.Ne (vS V)) ?y) with (orb V y).
    now rewrite <- !orb_tr.
  - intros i j _ _. apply element_skew.
  - apply labels_nodup.
  - exact H1.
  - exact H2.
  - exact Hne.
Qed.

(** ** single operators *)
Lemma act_none a b f y : (forall m, label m -> orb V y m <> b) -> act V (a, b) f y = RtoC 0.
Proof. intros H. unfold act. apply csum_zero. intros m Hm. cbn. destruct (Z.eqb_spec (orb V y m) b); [exfalso; now apply (H m)|reflexivity]. Qed.
Lemma act_unique a b f y m : label m -> orb V y m = b -> (forall m', label m' -> orb V y m' = b -> m' = m) -> act V (a, b) f y = f (upd y m (a mod N)).
Proof.
  intros Hm E Hu. unfold act. cbn [fst snd].
  assert (G : forall l, NoDup l -> (forall i, In i l -> label i) -> csum l (fun i => if orb V y i =? b then f (upd y i (a mod sites V)) else RtoC 0) = if existsb (Z.eqb m) l then f (upd y m (a mod N)) else RtoC 0).
  { induction l as [|i l IH]; intros Hnd Hl; [reflexivity|]. inversion Hnd as [|? ? Hi Hnd']; subst. cbn [csum existsb]. rewrite IH by (auto; intros; apply Hl; now right).
    destruct (Z.eqb_spec (orb V y i) (orb V y m)) as [E'|E'].
    - apply Hu in E'; [|apply Hl; now left]. subst i. rewrite Z.eqb_refl. cbn.
      destruct (existsb (Z.eqb m) l) eqn:X; [|now ring_simplify]. apply existsb_exists in X. destruct X as (j & Hj & X). apply Z.eqb_eq in X. subst. contradiction.
    - destruct (Z.eqb_spec m i) as [->|]; [congruence|]. cbn. ring. }
  rewrite G; [|apply labels_nodup|auto]. destruct (existsb (Z.eqb m) (labels V)) eqn:X; [reflexivity|].
  assert (X' : existsb (Z.eqb m) (labels V) = true) by (apply existsb_exists; exists m; split; [assumption|apply Z.eqb_refl]). congruence.
Qed.
End Anti.
