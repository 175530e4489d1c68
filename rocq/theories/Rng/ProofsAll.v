(** gen_rand_all: the portable and the SSE2 version compute one step of the recurrence for all elements *)
From Coq Require Import ZArith List Bool Lia.
From Verif Require Import Base.ZLoop Rng.Model Rng.Spec Rng.Proofs.
Import ListNotations.
Local Open Scope Z_scope.

Definition word (a b c d : quad) (k : Z) : Z :=
  Z.lxor (Z.lxor (Z.lxor (Z.lxor (lane a k) (lane (lshift128 a SL2) k)) (Z.land (Z.shiftr (lane b k) SR1) (MSK k))) (lane (rshift128 c SR2) k)) (u32 (Z.shiftl (lane d k) SL1)).
Definition pure (a b c d : quad) : quad := (word a b c d 0, word a b c d 1, word a b c d 2, word a b c d 3).
Lemma pure_q32 a b c d : q32 a -> q32 b -> q32 c -> q32 d -> q32 (pure a b c d).
Proof.
  destruct a as [[[a0 a1] a2] a3], b as [[[b0 b1] b2] b3], c as [[[c0 c1] c2] c3], d as [[[d0 d1] d2] d3].
  intros A B C D. assert (LA := lshift_lanes _ _ _ _ A). assert (RC := rshift_lanes _ _ _ _ C).
  unfold pure, word. rewrite LA, RC. destruct A as (A0 & A1 & A2 & A3), B as (B0 & B1 & B2 & B3), C as (C0 & C1 & C2 & C3). cbn [lane q32].
  assert (G : forall u v, r32 u -> r32 v -> r32 (u / 2 ^ 24 + 2 ^ 8 * (v mod 2 ^ 24))) by (unfold r32; intros; zdm).
  assert (G' : forall u v, r32 u -> r32 v -> r32 (u / 2 ^ 8 + 2 ^ 24 * (v mod 2 ^ 8))) by (unfold r32; intros; zdm).
  assert (L1 : r32 (2 ^ 8 * (a0 mod 2 ^ 24))) by (unfold r32 in *; zdm).
  assert (L2 : r32 (c3 / 2 ^ 8)) by (unfold r32 in *; zdm).
  repeat split; try (apply lxor_r32; [apply lxor_r32; [apply lxor_r32; [apply lxor_r32|apply land_r32; [apply shiftr_r32|]]|]|]; first [assumption | apply u32_r32 | apply G; assumption | apply G'; assumption | unfold SR1; lia | vm_compute; discriminate]).
Qed.
Lemma mul_eq x y k l : 0 <= k < 4 -> 0 <= l < 4 -> (4 * x + k =? 4 * y + l) = (x =? y) && (k =? l).
Proof. intros. destruct (Z.eqb_spec x y), (Z.eqb_spec k l), (Z.eqb_spec (4 * x + k) (4 * y + l)); try reflexivity; lia. Qed.
Lemma load4 m i k : 0 <= k < 4 -> lane (load m i) k = m (4 * i + k).
Proof. intros K. assert (k = 0 \/ k = 1 \/ k = 2 \/ k = 3) as [-> | [-> | [-> | ->]]] by lia; cbn [lane load]; rewrite ?Z.add_0_r; reflexivity. Qed.
Lemma quad_ext (p q : quad) : (forall k, 0 <= k < 4 -> lane p k = lane q k) -> p = q.
Proof. destruct p as [[[p0 p1] p2] p3], q as [[[q0 q1] q2] q3]. intros H. assert (H0 := H 0 ltac:(lia)). assert (H1 := H 1 ltac:(lia)). assert (H2 := H 2 ltac:(lia)). assert (H3 := H 3 ltac:(lia)). cbn in *. now subst. Qed.
Lemma lane_pure a b c d k : 0 <= k < 4 -> lane (pure a b c d) k = word a b c d k.
Proof. intros K. assert (k = 0 \/ k = 1 \/ k = 2 \/ k = 3) as [-> | [-> | [-> | ->]]] by lia; reflexivity. Qed.

(** ** the portable step *)
Lemma do_rec m i b c d j : b <> i -> c <> i -> d <> i -> load (do_recursion m i i b c d) j = if j =? i then pure (load m i) (load m b) (load m c) (load m d) else load m j.
Proof.
  intros B C D. apply quad_ext. intros k K. rewrite load4 by exact K. unfold do_recursion. rewrite !upd_get.
  destruct (Z.eqb_spec j i) as [-> | ne].
  - rewrite lane_pure by exact K. unfold word. rewrite !load4 by exact K.
    assert (k = 0 \/ k = 1 \/ k = 2 \/ k = 3) as [-> | [-> | [-> | ->]]] by lia; repeat match goal with |- context [?a =? ?b] => destruct (Z.eqb_spec a b); [try (exfalso; lia)|try (exfalso; lia)] end; rewrite ?Z.add_0_r; reflexivity.
  - rewrite load4 by exact K.
    repeat match goal with |- context [?a =? ?b] => destruct (Z.eqb_spec a b); [exfalso; lia|] end. reflexivity.
Qed.

(** ** the loops *)
Definition final (m m' : memory) (j : Z) : Prop :=
  load m' j = pure (load m j) (if j <? 34 then load m (j + 122) else load m' (j - 34)) (if j <? 2 then load m (j + 154) else load m' (j - 2)) (if j <? 1 then load m (j + 155) else load m' (j - 1)).
Definition before (m mem : memory) (i : Z) : Prop := (forall j, i <= j < 156 -> load mem j = load m j) /\ (forall j, 0 <= j < i -> final m mem j) /\ (forall k, k < 0 \/ 624 <= k -> mem k = m k).
Definition prev (m mem : memory) (i r : Z) : quad := if i <? r then load m (i + 156 - r) else load mem (i - r).
Lemma before_step m mem mem' i :
  0 <= i < 156 -> before m mem i ->
  (forall j, load mem' j = if j =? i then pure (load mem i) (prev m mem i 34) (prev m mem i 2) (prev m mem i 1) else load mem j) -> (forall k, k < 0 \/ 624 <= k -> mem' k = mem k) -> before m mem' (i + 1).
Proof.
  intros Hi (B1 & B2 & B3) S O.
  assert (S' : forall j, j <> i -> load mem' j = load mem j) by (intros j Hj; rewrite S; destruct (Z.eqb_spec j i); [lia|reflexivity]).
  split; [|split].
  - intros j Hj. rewrite S' by lia. apply B1. lia.
  - intros j Hj. destruct (Z.eq_dec j i) as [-> | ne].
    + unfold final. rewrite (S i), Z.eqb_refl, B1 by lia. unfold prev. rewrite (S' (i - 34)), (S' (i - 2)), (S' (i - 1)) by lia.
      replace (i + 156 - 34) with (i + 122) by lia. replace (i + 156 - 2) with (i + 154) by lia. replace (i + 156 - 1) with (i + 155) by lia. reflexivity.
    + assert (F := B2 j ltac:(lia)). unfold final in *. rewrite !S' by lia. exact F.
  - intros k Hk. rewrite O by exact Hk. now apply B3.
Qed.
Definition inv (m : memory) (i : Z) (s : memory * Z * Z) : Prop :=
  let '(mem, r1, r2) := s in before m mem i /\ r1 = (if i <? 2 then i + 154 else i - 2) /\ r2 = (if i <? 1 then i + 155 else i - 1).
Lemma gen_all m : before m (gen_rand_all m) 156.
Proof.
  unfold gen_rand_all. change (N - POS1) with 34. change (POS1 - N) with (-34). change N with 156. change POS1 with 122. change (156 - 2) with 154. change (156 - 1) with 155.
  assert (step : forall sh i s, 0 <= i < 156 -> sh = (if i <? 34 then 122 else -34) -> inv m i s -> inv m (i + 1) (let '(mem, r1, r2) := s in (do_recursion mem i i (i + sh) r1 r2, r2, i))).
  { intros sh i [[mem r1] r2] Hi Hs (B & R1 & R2). unfold inv. split; [|destruct (Z.ltb_spec (i + 1) 2), (Z.ltb_spec (i + 1) 1), (Z.ltb_spec i 1); lia].
    assert (X1 : load mem (i + sh) = prev m mem i 34) by (unfold prev; rewrite Hs; destruct (Z.ltb_spec i 34); [destruct B as (B & _); rewrite B by lia; f_equal; lia|f_equal; lia]).
    assert (X2 : load mem r1 = prev m mem i 2) by (unfold prev; rewrite R1; destruct (Z.ltb_spec i 2); [destruct B as (B & _); rewrite B by lia; f_equal; lia|f_equal; lia]).
    assert (X3 : load mem r2 = prev m mem i 1) by (unfold prev; rewrite R2; destruct (Z.ltb_spec i 1); [destruct B as (B & _); rewrite B by lia; f_equal; lia|f_equal; lia]).
    apply before_step with mem; [exact Hi|exact B| |].
    - intros j. rewrite do_rec, X1, X2, X3; [reflexivity|destruct (i <? 34); lia|destruct (Z.ltb_spec i 2); lia|destruct (Z.ltb_spec i 1); lia].
    - intros k Hk. unfold do_recursion. rewrite !upd_get. repeat match goal with |- context [?a =? ?b] => destruct (Z.eqb_spec a b); [exfalso; lia|] end. reflexivity. }
  match goal with |- before m (fst (fst ?l)) _ => assert (I : inv m 156 l) end.
  { apply (loop_inv (inv m)); [lia| |].
    - apply (loop_inv (inv m)); [lia| |].
      + split; [|split; reflexivity]. split; [|split]; intros; [reflexivity|lia|reflexivity].
      + intros i s Hi HI. exact (step 122 i s ltac:(lia) ltac:(destruct (Z.ltb_spec i 34); lia) HI).
    - intros i s Hi HI. exact (step (-34) i s ltac:(lia) ltac:(destruct (Z.ltb_spec i 34); lia) HI). }
  match goal with |- before m (fst (fst ?l)) _ => destruct l as [[mem r1] r2] end. exact (proj1 I).
Qed.
