From Coq Require Import ZArith List Bool Lia.
From Verif Require Import Base.ZLoop Rng.Model Rng.Spec.
Import ListNotations.
Local Open Scope Z_scope.

Definition r32 (x : Z) : Prop := 0 <= x < 2 ^ 32.
Lemma cat_bits k a b n : 0 <= k -> 0 <= a < 2 ^ k -> 0 <= n -> Z.testbit (a + 2 ^ k * b) n = if n <? k then Z.testbit a n else Z.testbit b (n - k).
Proof.
  intros K A Hn. destruct (Z.ltb_spec n k) as [L|L].
  - rewrite <- (Z.mod_pow2_bits_low (a + 2 ^ k * b) k n L). rewrite (Z.mul_comm (2 ^ k)), Z.mod_add, Z.mod_small by lia. reflexivity.
  - replace n with ((n - k) + k) at 1 by lia. rewrite <- Z.div_pow2_bits by lia. rewrite (Z.mul_comm (2 ^ k)), Z.div_add, Z.div_small by lia. reflexivity.
Qed.
Lemma high_bit k a n : 0 <= k -> 0 <= a < 2 ^ k -> k <= n -> Z.testbit a n = false.
Proof. intros K A Hn. assert (C := cat_bits k a 0 n K A ltac:(lia)). rewrite Z.mul_0_r, Z.add_0_r in C. rewrite C. destruct (Z.ltb_spec n k); [lia|apply Z.bits_0]. Qed.
Lemma lor_cat k a b : 0 <= k -> 0 <= a < 2 ^ k -> Z.lor (2 ^ k * b) a = a + 2 ^ k * b.
Proof.
  intros K A. apply Z.bits_inj'. intros n Hn. rewrite Z.lor_spec, (cat_bits k a b n K A Hn). assert (C := cat_bits k 0 b n K ltac:(lia) Hn). rewrite Z.add_0_l in C. rewrite C.
  destruct (Z.ltb_spec n k); [now rewrite Z.bits_0|]. rewrite (high_bit k a n) by lia. apply orb_false_r.
Qed.
Lemma range_bits k a : 0 <= k -> 0 <= a -> (forall n, k <= n -> Z.testbit a n = false) -> a < 2 ^ k.
Proof.
  intros K A H. enough (a mod 2 ^ k = a) as <- by (apply Z.mod_pos_bound; lia). apply Z.bits_inj'. intros n Hn. destruct (Z_lt_le_dec n k); [now apply Z.mod_pow2_bits_low|]. now rewrite Z.mod_pow2_bits_high, H by lia.
Qed.
Lemma lxor_r32 a b : r32 a -> r32 b -> r32 (Z.lxor a b).
Proof.
  unfold r32. intros A B. assert (0 <= Z.lxor a b) by (apply Z.lxor_nonneg; lia). split; [assumption|]. apply range_bits; [lia|assumption|]. intros n Hn. rewrite Z.lxor_spec, (high_bit 32 a n), (high_bit 32 b n) by lia. reflexivity.
Qed.
Lemma land_r32 a b : r32 a -> 0 <= b -> r32 (Z.land a b).
Proof.
  unfold r32. intros A B. assert (0 <= Z.land a b) by (apply Z.land_nonneg; lia). split; [assumption|]. apply range_bits; [lia|assumption|]. intros n Hn. rewrite Z.land_spec, (high_bit 32 a n) by lia. reflexivity.
Qed.
Lemma u32_r32 x : r32 (u32 x).
Proof. unfold r32, u32. apply Z.mod_pos_bound. lia. Qed.
Lemma shiftr_r32 a k : 0 <= k -> r32 a -> r32 (Z.shiftr a k).
Proof. unfold r32. intros K A. rewrite Z.shiftr_div_pow2 by exact K. assert (0 < 2 ^ k) by (apply Z.pow_pos_nonneg; lia). split; [apply Z.div_pos; lia|]. apply Z.div_lt_upper_bound; [lia|]. nia. Qed.

Definition q32 (q : quad) : Prop := let '(u0, u1, u2, u3) := q in r32 u0 /\ r32 u1 /\ r32 u2 /\ r32 u3.
Ltac zdm := Z.to_euclidean_division_equations; lia.
Lemma join2 lo hi : r32 lo -> r32 hi -> Z.lor (u64 (Z.shiftl hi 32)) lo = lo + 2 ^ 32 * hi.
Proof. unfold r32, u64. intros A B. rewrite Z.shiftl_mul_pow2, Z.mod_small by lia. rewrite (Z.mul_comm hi). apply lor_cat; lia. Qed.
Lemma lshift_lanes u0 u1 u2 u3 : q32 (u0, u1, u2, u3) -> lshift128 (u0, u1, u2, u3) SL2 = (2 ^ 8 * (u0 mod 2 ^ 24), u0 / 2 ^ 24 + 2 ^ 8 * (u1 mod 2 ^ 24), u1 / 2 ^ 24 + 2 ^ 8 * (u2 mod 2 ^ 24), u2 / 2 ^ 24 + 2 ^ 8 * (u3 mod 2 ^ 24)).
Proof.
  intros (A & B & C & D). unfold lshift128, SL2. rewrite !join2 by assumption. change (1 * 8) with 8. change (64 - 8) with 56. unfold r32, u64, u32 in *. rewrite !Z.shiftl_mul_pow2, !Z.shiftr_div_pow2 by lia.
  replace ((u2 + 2 ^ 32 * u3) * 2 ^ 8 mod 2 ^ 64) with (2 ^ 8 * ((u2 + 2 ^ 32 * u3) mod 2 ^ 56)) by zdm. rewrite lor_cat by (try zdm; lia).
  f_equal; [f_equal; [f_equal|]|]; zdm.
Qed.
Lemma rshift_lanes u0 u1 u2 u3 : q32 (u0, u1, u2, u3) -> rshift128 (u0, u1, u2, u3) SR2 = (u0 / 2 ^ 8 + 2 ^ 24 * (u1 mod 2 ^ 8), u1 / 2 ^ 8 + 2 ^ 24 * (u2 mod 2 ^ 8), u2 / 2 ^ 8 + 2 ^ 24 * (u3 mod 2 ^ 8), u3 / 2 ^ 8).
Proof.
  intros (A & B & C & D). unfold rshift128, SR2. rewrite !join2 by assumption. change (1 * 8) with 8. change (64 - 8) with 56. unfold r32, u64, u32 in *. rewrite !Z.shiftl_mul_pow2, !Z.shiftr_div_pow2 by lia.
  replace ((u2 + 2 ^ 32 * u3) * 2 ^ 56 mod 2 ^ 64) with (2 ^ 56 * (u2 mod 2 ^ 8)) by zdm. rewrite Z.lor_comm, lor_cat by (try zdm; lia).
  f_equal; [f_equal; [f_equal|]|]; zdm.
Qed.
