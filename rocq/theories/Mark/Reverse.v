(** Every proposal can be undone: the streams that lead back. *)
From Coq Require Import ZArith List Bool Lia Reals.
From Verif Require Import Base.ZLoop Base.Checked Proj.Model Proj.Spec Samp.Prog Samp.Model Samp.Spec Samp.Hoare Samp.Config Samp.Exch Mark.Model Mark.Spec Mark.Words.
Import ListNotations.
Local Open Scope Z_scope.

(** ** programs that only compute *)
Section Pure.
Context {K E : Type}.
Lemma eval_bind {A B} (p : Prog.prog K E A) (f : A -> Prog.prog K E B) : eval (bindP p f) = (a <- eval p;; eval (f a)).
Proof. destruct p; reflexivity. Qed.
Lemma eval_some {A} (p : Prog.prog K E A) a : eval p = Some a -> p = Ret a.
Proof. destruct p; cbn; congruence. Qed.
Lemma bind_ret {A B} (p : Prog.prog K E A) (f : A -> Prog.prog K E B) b : bindP p f = Ret b -> exists a, p = Ret a /\ f a = Ret b.
Proof. destruct p; cbn; try discriminate. intros H. eauto. Qed.
End Pure.
Lemma search_sim {K E K2 F2 A B} (b1 : Z -> Prog.prog K E (Z * option A)) (b2 : Z -> Prog.prog K2 F2 (Z * option B)) (g : A -> B) fuel p p0 a :
  (forall q q' o, b1 q = Ret (q', o) -> q < q') -> search fuel b1 p = Ret (p0, a) ->
  (forall q q' o, p <= q -> q' <= p0 -> b1 q = Ret (q', o) -> b2 q = Ret (q', option_map g o)) ->
  p < p0 /\ search fuel b2 p = Ret (p0, g a).
Proof.
  intros Hm. revert p. induction fuel as [|fuel IH]; intros p H S; cbn [search] in *; [discriminate|].
  apply bind_ret in H. destruct H as ((q, o) & E1 & E2). cbn [fst snd] in E2. assert (Hq := Hm _ _ _ E1). destruct o as [x|].
  - injection E2 as -> ->. split; [exact Hq|]. rewrite (S p p0 (Some a)) by (lia || exact E1). reflexivity.
  - destruct (IH q E2) as (H1 & H2); [intros; apply S; try lia; assumption|]. split; [lia|]. rewrite (S p q None) by (lia || exact E1). cbn [option_map bindP fst snd]. exact H2.
Qed.
Section Pure2.
Context {K E : Type}.
Lemma search_pos {A} (b : Z -> Prog.prog K E (Z * option A)) fuel p p0 a : (forall q q' o, b q = Ret (q', o) -> q < q') -> search fuel b p = Ret (p0, a) -> p < p0.
Proof. intros Hm H. apply (search_sim b b (fun x => x) fuel p p0 a Hm H). intros q q' o _ _ ->. now destruct o. Qed.
End Pure2.

Section Rep.
Variables N M c : Z.
Section One.
Variables idx cfg num spn : Z -> Z.
Hypothesis H : Cons N M c idx cfg num spn.
Lemma free_iff r s : 0 <= r < N -> 0 <= s <= 1 -> (cfg (r + s * N) = -1 <-> forall y, 0 <= y < M -> ~ (idx y = r /\ spn y = s)).
Proof.
  intros Hr Hs. split.
  - intros E y Hy (E1 & E2). destruct (k_elec _ _ _ _ _ _ _ H y Hy) as (_ & _ & A & B). subst r s. rewrite E in B. lia.
  - intros F. destruct (k_site _ _ _ _ _ _ _ H r s Hr Hs) as [(A & _)|(y & Hy & E1 & E2 & _)]; [exact A|]. destruct (F y Hy). auto.
Qed.
End One.
(** two sets of tables, electron x at another place *)
Variables idx cfg num spn idx' cfg' num' spn' : Z -> Z.
Hypothesis H : Cons N M c idx cfg num spn.
Hypothesis H' : Cons N M c idx' cfg' num' spn'.
Lemma free_eqb r s r' s' : 0 <= r < N -> 0 <= s <= 1 -> 0 <= r' < N -> 0 <= s' <= 1 ->
  ((forall y, 0 <= y < M -> ~ (idx y = r /\ spn y = s)) <-> (forall y, 0 <= y < M -> ~ (idx' y = r' /\ spn' y = s'))) ->
  (cfg (r + s * N) =? -1) = (cfg' (r' + s' * N) =? -1).
Proof.
  intros A1 A2 A3 A4 E. assert (X := free_iff _ _ _ _ H r s A1 A2). assert (Y := free_iff _ _ _ _ H' r' s' A3 A4).
  destruct (Z.eqb_spec (cfg (r + s * N)) (-1)), (Z.eqb_spec (cfg' (r' + s' * N)) (-1)); tauto.
Qed.
Section Hop.
Variables x rj t : Z.
Hypothesis Hx : 0 <= x < M.
Hypothesis Hrj : 0 <= rj < N.
Hypothesis Ht : 0 <= t <= 1.
Hypothesis Hfree : cfg (rj + t * N) = -1.
Hypothesis Ei : forall y, 0 <= y < M -> idx' y = upd idx x rj y.
Hypothesis Es : forall y, 0 <= y < M -> spn' y = upd spn x t y.
Let ri := idx x.
Let s := spn x.
Lemma swap_free r u : 0 <= r < N -> 0 <= u <= 1 ->
  (cfg (r + u * N) =? -1) = (cfg' (fst (swap_place ri rj s t r u) + snd (swap_place ri rj s t r u) * N) =? -1).
Proof.
  intros Hr Hu. destruct (k_elec _ _ _ _ _ _ _ H x Hx) as (B1 & B2 & _ & _). fold ri s in B1, B2.
  assert (R := swap_place_range N ri rj B1 Hrj s t B2 Ht r u Hr Hu). destruct R as (R1 & R2).
  assert (Q : forall y, 0 <= y < M -> ~ (idx y = rj /\ spn y = t)) by (now apply (free_iff _ _ _ _ H)).
  apply free_eqb; try assumption. clear R1 R2.
  assert (D : (r = ri /\ u = s /\ swap_place ri rj s t r u = (rj, t)) \/ (~ (r = ri /\ u = s) /\ r = rj /\ u = t /\ swap_place ri rj s t r u = (ri, s)) \/
    (~ (r = ri /\ u = s) /\ ~ (r = rj /\ u = t) /\ swap_place ri rj s t r u = (r, u))).
  { unfold swap_place. destruct (Z.eqb_spec r ri), (Z.eqb_spec u s), (Z.eqb_spec r rj), (Z.eqb_spec u t); cbn [andb]; tauto. }
  destruct D as [(E1 & E2 & ->)|[(Ne & E1 & E2 & ->)|(N1 & N2 & ->)]]; cbn [fst snd]; split; intros F y Hy (G1 & G2).
  - exact (F x Hx (conj (eq_sym E1) (eq_sym E2))).
  - apply (F x Hx). rewrite Ei, Es by exact Hx. now rewrite !upd_same.
  - rewrite Ei, Es, !upd_get in * by exact Hy. destruct (Z.eqb_spec y x) as [->|Ex]; [apply Ne; split; congruence|].
    apply Ex. apply (Cons_inj _ _ _ _ _ _ _ H); [exact Hy|exact Hx|exact G1|exact G2].
  - apply (Q y Hy). split; congruence.
  - rewrite Ei, Es, !upd_get in * by exact Hy. destruct (Z.eqb_spec y x) as [->|Ex]; [apply N2; split; congruence|]. now apply (F y Hy).
  - apply (F y Hy). rewrite Ei, Es, !upd_get by exact Hy. destruct (Z.eqb_spec y x) as [->|Ex]; [|now split]. exfalso. apply N1. split; [exact (eq_sym G1)|exact (eq_sym G2)].
Qed.
(** the same place with another spin: nobody else is on the site *)
Lemma flip_free y : rj = ri -> t = 1 - s -> 0 <= y < M -> (cfg (idx y + (1 - spn y) * N) =? -1) = (cfg' (idx' y + (1 - spn' y) * N) =? -1).
Proof.
  intros E1 E2 Hy. destruct (k_elec _ _ _ _ _ _ _ H y Hy) as (B1 & B2 & _ & _). destruct (k_elec _ _ _ _ _ _ _ H' y Hy) as (C1 & C2 & _ & _).
  destruct (k_elec _ _ _ _ _ _ _ H x Hx) as (A1 & A2 & _ & _).
  assert (Q : forall y, 0 <= y < M -> ~ (idx y = rj /\ spn y = t)) by (now apply (free_iff _ _ _ _ H)).
  apply free_eqb; try lia. rewrite Ei, Es, !upd_get by exact Hy. destruct (Z.eqb_spec y x) as [->|Ey].
  - split; intros F z Hz (G1 & G2).
    + rewrite Ei, Es, !upd_get in * by exact Hz. destruct (Z.eqb_spec z x) as [->|Ez]; [lia|]. apply Ez. apply (Cons_inj _ _ _ _ _ _ _ H); [exact Hz|exact Hx|fold ri; congruence|fold s; lia].
    + apply (Q z Hz). rewrite E1, E2. split; [exact G1|exact G2].
  - assert (Hne : idx y <> ri).
    { intros K. destruct (Z.eq_dec (spn y) s) as [Ks|Ks]; [apply Ey; apply (Cons_inj _ _ _ _ _ _ _ H); assumption|]. apply (Q y Hy). rewrite E1, E2. split; [exact K|unfold s in *; lia]. }
    split; intros F z Hz (G1 & G2).
    + rewrite Ei, Es, !upd_get in * by exact Hz. destruct (Z.eqb_spec z x) as [->|Ez]; [apply Hne; congruence|]. now apply (F z Hz).
    + apply (F z Hz). rewrite Ei, Es, !upd_get by exact Hz. destruct (Z.eqb_spec z x) as [->|Ez]; [|now split]. exfalso. apply Hne. exact (eq_sym G1).
Qed.
End Hop.
Section Exchange.
Variables x y : Z.
Hypothesis Hx : 0 <= x < M.
Hypothesis Hy : 0 <= y < M.
Hypothesis Hs : spn y = 1 - spn x.
Hypothesis Fx : cfg (idx x + (1 - spn x) * N) = -1.
Hypothesis Fy : cfg (idx y + (1 - spn y) * N) = -1.
Hypothesis Ei : forall z, 0 <= z < M -> idx' z = upd (upd idx x (idx y)) y (idx x) z.
Hypothesis Es : forall z, 0 <= z < M -> spn' z = spn z.
Lemma exch_free z : 0 <= z < M -> (cfg (idx z + (1 - spn z) * N) =? -1) = (cfg' (idx' z + (1 - spn' z) * N) =? -1).
Proof.
  intros Hz. destruct (k_elec _ _ _ _ _ _ _ H z Hz) as (B1 & B2 & _ & _). destruct (k_elec _ _ _ _ _ _ _ H' z Hz) as (C1 & C2 & _ & _).
  destruct (k_elec _ _ _ _ _ _ _ H x Hx) as (A1 & A2 & _ & _). destruct (k_elec _ _ _ _ _ _ _ H y Hy) as (D1 & D2 & _ & _).
  assert (Qx : forall v, 0 <= v < M -> ~ (idx v = idx x /\ spn v = 1 - spn x)) by (apply (free_iff _ _ _ _ H); [exact A1|lia|exact Fx]).
  assert (Qy : forall v, 0 <= v < M -> ~ (idx v = idx y /\ spn v = 1 - spn y)) by (apply (free_iff _ _ _ _ H); [exact D1|lia|exact Fy]).
  assert (Hxy : x <> y) by (intros ->; lia).
  assert (Ox : forall v, 0 <= v < M -> idx v = idx x -> v = x).
  { intros v Hv E. destruct (k_elec _ _ _ _ _ _ _ H v Hv) as (_ & U & _). apply (Cons_inj _ _ _ _ _ _ _ H); try assumption. specialize (Qx v Hv). lia. }
  assert (Oy : forall v, 0 <= v < M -> idx v = idx y -> v = y).
  { intros v Hv E. destruct (k_elec _ _ _ _ _ _ _ H v Hv) as (_ & U & _). apply (Cons_inj _ _ _ _ _ _ _ H); try assumption. specialize (Qy v Hv). lia. }
  apply free_eqb; try lia. rewrite Ei, Es, !upd_get by exact Hz.
  assert (P : forall v, 0 <= v < M -> idx' v = (if v =? y then idx x else if v =? x then idx y else idx v)) by (intros v Hv; now rewrite Ei, !upd_get by exact Hv).
  split; intros F v Hv (G1 & G2).
  - rewrite P, Es in * by exact Hv. destruct (Z.eqb_spec z y) as [->|Ezy]; [|destruct (Z.eqb_spec z x) as [->|Ezx]].
    + destruct (Z.eqb_spec v y) as [->|]; [lia|]. destruct (Z.eqb_spec v x) as [->|]; [|apply n0; now apply Ox].
      apply Hxy. apply (Oy x Hx). congruence.
    + destruct (Z.eqb_spec v y) as [->|]; [|destruct (Z.eqb_spec v x) as [->|]; [lia|apply n; now apply Oy]]. apply Hxy. apply (Oy x Hx). congruence.
    + destruct (Z.eqb_spec v y) as [->|]; [apply Ezx; apply (Ox z Hz); congruence|]. destruct (Z.eqb_spec v x) as [->|]; [apply Ezy; apply (Oy z Hz); congruence|]. now apply (F v Hv).
  - destruct (Z.eqb_spec z y) as [->|Ezy]; [|destruct (Z.eqb_spec z x) as [->|Ezx]].
    + apply (Qy v Hv). now split.
    + apply (Qx v Hv). now split.
    + apply (F v Hv). rewrite P, Es by exact Hv. split; [|exact G2]. destruct (Z.eqb_spec v y) as [->|]; [exfalso; apply Ezy; now apply (Oy z Hz)|]. destruct (Z.eqb_spec v x) as [->|]; [exfalso; apply Ezx; now apply (Ox z Hz)|exact G1].
Qed.
End Exchange.
End Rep.
