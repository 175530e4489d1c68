(** the SSE2 version computes the same *)
From Coq Require Import ZArith List Bool Lia Btauto.
From Verif Require Import Base.ZLoop Rng.Model Rng.Spec Rng.Proofs Rng.ProofsAll.
Import ListNotations.
Local Open Scope Z_scope.

Lemma bound32 b : r32 b -> 0 <= b < 2 ^ 32.
Proof. auto. Qed.
Lemma lxor_cat k a b a' b' : 0 <= k -> 0 <= a < 2 ^ k -> 0 <= a' < 2 ^ k -> Z.lxor (a + 2 ^ k * b) (a' + 2 ^ k * b') = Z.lxor a a' + 2 ^ k * Z.lxor b b'.
Proof.
  intros K A A'. assert (R : 0 <= Z.lxor a a' < 2 ^ k).
  { assert (0 <= Z.lxor a a') by (apply Z.lxor_nonneg; lia). split; [assumption|]. apply range_bits; [lia|assumption|]. intros n Hn. rewrite Z.lxor_spec, (high_bit k a n), (high_bit k a' n) by lia. reflexivity. }
  apply Z.bits_inj'. intros n Hn. rewrite Z.lxor_spec, !cat_bits, !Z.lxor_spec by assumption. now destruct (n <? k).
Qed.
Lemma land_cat k a b a' b' : 0 <= k -> 0 <= a < 2 ^ k -> 0 <= a' < 2 ^ k -> Z.land (a + 2 ^ k * b) (a' + 2 ^ k * b') = Z.land a a' + 2 ^ k * Z.land b b'.
Proof.
  intros K A A'. assert (R : 0 <= Z.land a a' < 2 ^ k).
  { assert (0 <= Z.land a a') by (apply Z.land_nonneg; lia). split; [assumption|]. apply range_bits; [lia|assumption|]. intros n Hn. rewrite Z.land_spec, (high_bit k a n), (high_bit k a' n) by lia. reflexivity. }
  apply Z.bits_inj'. intros n Hn. rewrite Z.land_spec, !cat_bits, !Z.land_spec by assumption. now destruct (n <? k).
Qed.
Definition zip (f : Z -> Z -> Z) (p q : quad) : quad := let '(p0, p1, p2, p3) := p in let '(q0, q1, q2, q3) := q in (f p0 q0, f p1 q1, f p2 q2, f p3 q3).
Lemma join_lxor p q : q32 p -> q32 q -> Z.lxor (join p) (join q) = join (zip Z.lxor p q).
Proof. destruct p as [[[p0 p1] p2] p3], q as [[[q0 q1] q2] q3]. intros (P0 & P1 & P2 & P3) (Q0 & Q1 & Q2 & Q3). unfold join, zip. rewrite !lxor_cat by (first [lia | assumption]). reflexivity. Qed.
Lemma join_land p q : q32 p -> q32 q -> Z.land (join p) (join q) = join (zip Z.land p q).
Proof. destruct p as [[[p0 p1] p2] p3], q as [[[q0 q1] q2] q3]. intros (P0 & P1 & P2 & P3) (Q0 & Q1 & Q2 & Q3). unfold join, zip. rewrite !land_cat by (first [lia | assumption]). reflexivity. Qed.
Lemma zip_lxor p q : q32 p -> q32 q -> q32 (zip Z.lxor p q).
Proof. destruct p as [[[p0 p1] p2] p3], q as [[[q0 q1] q2] q3]. intros (P0 & P1 & P2 & P3) (Q0 & Q1 & Q2 & Q3). repeat split; apply lxor_r32; assumption. Qed.
Lemma zip_land p q : q32 p -> q32 q -> q32 (zip Z.land p q).
Proof. destruct p as [[[p0 p1] p2] p3], q as [[[q0 q1] q2] q3]. intros (P0 & P1 & P2 & P3) (Q0 & Q1 & Q2 & Q3). repeat split; apply land_r32; first [assumption | match goal with h : r32 ?x |- 0 <= ?x => exact (proj1 h) end]. Qed.
Lemma split_join q : q32 q -> split (join q) = q.
Proof. destruct q as [[[q0 q1] q2] q3]. intros (A & B & C & D). unfold r32 in *. unfold split, join, u32. f_equal; [f_equal; [f_equal|]|]; zdm. Qed.

Lemma lshift_q32 q : q32 q -> q32 (lshift128 q SL2).
Proof. destruct q as [[[u0 u1] u2] u3]. intros Q. rewrite lshift_lanes by exact Q. destruct Q as (A & B & C & D). unfold q32, r32 in *. repeat split; zdm. Qed.
Lemma rshift_q32 q : q32 q -> q32 (rshift128 q SR2).
Proof. destruct q as [[[u0 u1] u2] u3]. intros Q. rewrite rshift_lanes by exact Q. destruct Q as (A & B & C & D). unfold q32, r32 in *. repeat split; zdm. Qed.
Lemma slli_join q : q32 q -> slli_si128 (join q) SL2 = join (lshift128 q SL2).
Proof. destruct q as [[[u0 u1] u2] u3]. intros Q. rewrite lshift_lanes by exact Q. destruct Q as (A & B & C & D). unfold slli_si128, SL2, join, r32 in *. change (8 * 1) with 8. zdm. Qed.
Lemma srli_join q : q32 q -> srli_si128 (join q) SR2 = join (rshift128 q SR2).
Proof. destruct q as [[[u0 u1] u2] u3]. intros Q. rewrite rshift_lanes by exact Q. destruct Q as (A & B & C & D). unfold srli_si128, SR2, join, r32 in *. change (8 * 1) with 8. zdm. Qed.
Lemma lanes_q32 f q : (forall u, r32 u -> r32 (f u)) -> q32 q -> q32 (lanes f q).
Proof. destruct q as [[[u0 u1] u2] u3]. intros F (A & B & C & D). repeat split; now apply F. Qed.
Lemma lx5 y a v x w : Z.lxor (Z.lxor (Z.lxor (Z.lxor y a) v) x) w = Z.lxor (Z.lxor (Z.lxor (Z.lxor a x) w) y) v.
Proof. apply Z.bits_inj'. intros n Hn. rewrite !Z.lxor_spec. btauto. Qed.
Lemma shr_r32 u : r32 u -> r32 (u / 2 ^ SR1).
Proof. unfold r32, SR1. intros. zdm. Qed.
Lemma mask_q32 : q32 (MSK 0, MSK 1, MSK 2, MSK 3).
Proof. cbn. unfold r32. lia. Qed.
Lemma mm_pure a b c d : q32 a -> q32 b -> q32 c -> q32 d -> mm_recursion (join a) (join b) (join c) (join d) (join (MSK 0, MSK 1, MSK 2, MSK 3)) = join (pure a b c d).
Proof.
  intros A B C D. unfold mm_recursion. rewrite slli_join, srli_join by assumption. unfold srli_epi32, slli_epi32. rewrite !split_join by assumption.
  assert (QB := lanes_q32 _ b shr_r32 B). assert (QD := lanes_q32 (fun u => u32 (u * 2 ^ SL1)) d (fun u _ => u32_r32 _) D). assert (QA := lshift_q32 a A). assert (QC := rshift_q32 c C).
  rewrite lx5. rewrite (join_land _ _ QB mask_q32). assert (QM := zip_land _ _ QB mask_q32).
  rewrite (join_lxor a _ A QA). assert (Q1 := zip_lxor _ _ A QA). rewrite (join_lxor _ _ Q1 QM). assert (Q2 := zip_lxor _ _ Q1 QM). rewrite (join_lxor _ _ Q2 QC). assert (Q3 := zip_lxor _ _ Q2 QC). rewrite (join_lxor _ _ Q3 QD).
  f_equal. unfold pure, word. destruct a as [[[a0 a1] a2] a3], b as [[[b0 b1] b2] b3], c as [[[c0 c1] c2] c3], d as [[[d0 d1] d2] d3].
  destruct (lshift128 (a0, a1, a2, a3) SL2) as [[[x0 x1] x2] x3], (rshift128 (c0, c1, c2, c3) SR2) as [[[y0 y1] y2] y3]. cbn [lanes zip lane].
  rewrite !Z.shiftr_div_pow2, !Z.shiftl_mul_pow2 by (unfold SR1, SL1; lia). reflexivity.
Qed.
Lemma load_store m i x j : load (store m i x) j = if j =? i then split x else load m j.
Proof.
  apply quad_ext. intros k K. rewrite load4 by exact K. unfold store. destruct (split x) as [[[u0 u1] u2] u3]. rewrite !upd_get.
  destruct (Z.eqb_spec j i) as [-> | ne].
  - assert (k = 0 \/ k = 1 \/ k = 2 \/ k = 3) as [-> | [-> | [-> | ->]]] by lia; cbn [lane]; repeat match goal with |- context [?a =? ?b] => destruct (Z.eqb_spec a b); [try (exfalso; lia)|try (exfalso; lia)] end; reflexivity.
  - rewrite load4 by exact K. repeat match goal with |- context [?a =? ?b] => destruct (Z.eqb_spec a b); [exfalso; lia|] end. reflexivity.
Qed.
Definition loads32 (m : memory) : Prop := forall j, 0 <= j < 156 -> q32 (load m j).
Lemma in32_loads m : in32 m <-> loads32 m.
Proof.
  split.
  - intros H j Hj. repeat split; apply H; lia.
  - intros H i Hi. assert (Q := H (i / 4) ltac:(zdm)). assert (E := load4 m (i / 4) (i mod 4) ltac:(zdm)). replace (4 * (i / 4) + i mod 4) with i in E by (rewrite <- Z.div_mod; lia). rewrite <- E.
    destruct (load m (i / 4)) as [[[u0 u1] u2] u3]. destruct Q as (Q0 & Q1 & Q2 & Q3). assert (i mod 4 = 0 \/ i mod 4 = 1 \/ i mod 4 = 2 \/ i mod 4 = 3) as [-> | [-> | [-> | ->]]] by zdm; assumption.
Qed.
Lemma before_q32 m mem i : loads32 m -> 0 <= i <= 156 -> before m mem i -> loads32 mem.
Proof.
  intros L Hi (B1 & B2 & _). assert (G : forall n j, 0 <= j < Z.of_nat n -> 0 <= j < i -> q32 (load mem j)).
  { induction n as [|n IH]; intros j Hj Hj'; [lia|]. rewrite (B2 j Hj'). apply pure_q32.
    - apply L. lia.
    - destruct (Z.ltb_spec j 34); [apply L; lia|apply IH; lia].
    - destruct (Z.ltb_spec j 2); [apply L; lia|apply IH; lia].
    - destruct (Z.ltb_spec j 1); [apply L; lia|apply IH; lia]. }
  intros j Hj. destruct (Z_lt_le_dec j i); [apply (G (Z.to_nat i)); lia|]. rewrite B1 by lia. apply L. exact Hj.
Qed.
Lemma gen_in32 m : in32 m -> in32 (gen_rand_all m).
Proof. intros H. apply in32_loads. apply before_q32 with m 156; [now apply in32_loads|lia|apply gen_all]. Qed.
Lemma prev_q32 m mem i r : loads32 m -> loads32 mem -> 0 <= i < 156 -> 0 < r <= 34 -> q32 (prev m mem i r).
Proof. intros L M Hi Hr. unfold prev. destruct (Z.ltb_spec i r); [apply L; lia|apply M; lia]. Qed.
Definition inv2 (m : memory) (i : Z) (s : memory * Z * Z) : Prop :=
  let '(mem, r1, r2) := s in before m mem i /\ r1 = join (prev m mem i 2) /\ r2 = join (prev m mem i 1).
Lemma gen_all_sse2 m : in32 m -> before m (gen_rand_all_sse2 m) 156.
Proof.
  intros H32. apply in32_loads in H32. unfold gen_rand_all_sse2. change (N - POS1) with 34. change (POS1 - N) with (-34). change N with 156. change POS1 with 122. change (156 - 2) with 154. change (156 - 1) with 155.
  set (msk := join (MSK 0, MSK 1, MSK 2, MSK 3)).
  assert (step : forall sh i s, 0 <= i < 156 -> sh = (if i <? 34 then 122 else -34) -> inv2 m i s -> inv2 m (i + 1) (let '(mem, r1, r2) := s in let r := mm_recursion (join (load mem i)) (join (load mem (i + sh))) r1 r2 msk in (store mem i r, r2, r))).
  { intros sh i [[mem r1] r2] Hi Hs (B & R1 & R2). unfold inv2. cbv zeta. assert (L := before_q32 m mem i H32 ltac:(lia) B).
    assert (X1 : load mem (i + sh) = prev m mem i 34) by (unfold prev; rewrite Hs; destruct (Z.ltb_spec i 34); [destruct B as (B & _); rewrite B by lia; f_equal; lia|f_equal; lia]).
    rewrite X1, R1, R2. unfold msk. rewrite mm_pure by (first [apply L; lia | apply prev_q32; first [assumption | lia]]).
    set (v := pure _ _ _ _). assert (V : q32 v) by (apply pure_q32; first [apply L; lia | apply prev_q32; first [assumption | lia]]).
    assert (S : forall j, load (store mem i (join v)) j = if j =? i then v else load mem j) by (intros j; now rewrite load_store, split_join).
    split; [|split].
    - apply before_step with mem; [exact Hi|exact B|exact S|]. intros k Hk. unfold store. destruct (split (join v)) as [[[u0 u1] u2] u3]. rewrite !upd_get. repeat match goal with |- context [?a =? ?b] => destruct (Z.eqb_spec a b); [exfalso; lia|] end. reflexivity.
    - f_equal. unfold prev. destruct (Z.ltb_spec i 1), (Z.ltb_spec (i + 1) 2); try lia; [f_equal; lia|]. rewrite S. destruct (Z.eqb_spec (i + 1 - 2) i); [lia|]. f_equal. lia.
    - f_equal. unfold prev. destruct (Z.ltb_spec (i + 1) 1); [lia|]. rewrite S. destruct (Z.eqb_spec (i + 1 - 1) i); [reflexivity|lia]. }
  match goal with |- before m (fst (fst ?l)) _ => assert (I : inv2 m 156 l) end.
  { apply (loop_inv (inv2 m)); [lia| |].
    - apply (loop_inv (inv2 m)); [lia| |].
      + split; [|split; reflexivity]. split; [|split]; intros; [reflexivity|lia|reflexivity].
      + intros i s Hi HI. exact (step 122 i s ltac:(lia) ltac:(destruct (Z.ltb_spec i 34); lia) HI).
    - intros i s Hi HI. exact (step (-34) i s ltac:(lia) ltac:(destruct (Z.ltb_spec i 34); lia) HI). }
  match goal with |- before m (fst (fst ?l)) _ => destruct l as [[mem r1] r2] end. exact (proj1 I).
Qed.
(** what [before] determines *)
Definition same (m m' : memory) : Prop := forall k, m k = m' k.
Lemma same_loads m m' : (forall k, k < 0 \/ 624 <= k -> m k = m' k) -> (forall j, 0 <= j < 156 -> load m j = load m' j) -> same m m'.
Proof.
  intros O L k. destruct (Z_lt_le_dec k 0); [apply O; lia|]. destruct (Z_lt_le_dec k 624); [|apply O; lia].
  assert (E := load4 m (k / 4) (k mod 4) ltac:(zdm)). assert (E' := load4 m' (k / 4) (k mod 4) ltac:(zdm)). replace (4 * (k / 4) + k mod 4) with k in * by (rewrite <- Z.div_mod; lia). rewrite <- E, <- E', L; [reflexivity|zdm].
Qed.
Lemma determined m m2 mem mem2 : same m m2 -> before m mem 156 -> before m2 mem2 156 -> same mem mem2.
Proof.
  intros E (_ & F & O) (_ & F2 & O2). assert (EL : forall j, load m j = load m2 j) by (intros j; unfold load; now rewrite !E).
  assert (G : forall n j, 0 <= j < Z.of_nat n -> 0 <= j < 156 -> load mem j = load mem2 j).
  { induction n as [|n IH]; intros j Hj Hj'; [lia|]. rewrite (F j Hj'), (F2 j Hj'). rewrite !EL.
    replace (if j <? 34 then load m2 (j + 122) else load mem (j - 34)) with (if j <? 34 then load m2 (j + 122) else load mem2 (j - 34)) by (destruct (Z.ltb_spec j 34); [reflexivity|symmetry; apply IH; lia]).
    replace (if j <? 2 then load m2 (j + 154) else load mem (j - 2)) with (if j <? 2 then load m2 (j + 154) else load mem2 (j - 2)) by (destruct (Z.ltb_spec j 2); [reflexivity|symmetry; apply IH; lia]).
    replace (if j <? 1 then load m2 (j + 155) else load mem (j - 1)) with (if j <? 1 then load m2 (j + 155) else load mem2 (j - 1)) by (destruct (Z.ltb_spec j 1); [reflexivity|symmetry; apply IH; lia]). reflexivity. }
  apply same_loads; [intros k Hk; rewrite O, O2 by exact Hk; apply E|]. intros j Hj. apply (G 156%nat); lia.
Qed.
