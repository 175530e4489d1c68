(** Random numbers: C42, C58. *)
From Coq Require Import ZArith List Bool Reals Lia.
From Verif Require Import Base.ZLoop Rng.Model Rng.ModelReal Rng.Spec Rng.Proofs Rng.ProofsSse Rng.ProofsStream Rng.ProofsSeed Rng.ProofsReal Rng.Cases.
Import ListNotations.
Local Open Scope Z_scope.

(** [seeded m0 s] = state after init_gen_rand(s), whatever the memory held *)
Definition seeded (m0 : memory) (s : Z) : memory := fst (init_gen_rand m0 s).

(** C42: initialisation: 32-bit words from the seed, and the parity that certifies the period *)
Theorem C42_initial_state m0 s : 0 <= s < 2 ^ 32 ->
  let m := seeded m0 s in
  snd (init_gen_rand m0 s) = 624 /\ in32 m /\ odd_parity m = true /\ (m 0 = s \/ m 0 = Z.lxor s 1)
  /\ m 1 = (1812433253 * Z.lxor s (Z.shiftr s 30) + 1) mod 2 ^ 32
  /\ (forall i, 2 <= i < 624 -> m i = (1812433253 * Z.lxor (m (i - 1)) (Z.shiftr (m (i - 1)) 30) + i) mod 2 ^ 32).
Proof. intros S. split; [reflexivity|]. exact (init_ok m0 s S). Qed.
Example C42_initial_state_case : 0 <= 1234 < 2 ^ 32.
Proof. lia. Qed.
Print Assumptions C42_initial_state.

(** C42: the state and the numbers after it form one sequence that follows the recurrence at every position, in both versions *)
Theorem C42_recurrence m0 s e n : 0 <= s < 2 ^ 32 -> 0 <= e -> 0 <= n < 128 ->
  follows (stream gen_rand_all (seeded m0 s)) e n /\ follows (stream gen_rand_all_sse2 (seeded m0 s)) e n.
Proof. intros S E H. destruct (init_ok m0 s S) as (I & _). split; [exact (recurrence_c _ I e n E H)|exact (recurrence_sse2 _ I e n E H)]. Qed.
Print Assumptions C42_recurrence.

(** C42: the two versions give the same numbers *)
Theorem C42_versions_agree m0 s k : 0 <= s < 2 ^ 32 -> 0 <= k -> number gen_rand_all (seeded m0 s) k = number gen_rand_all_sse2 (seeded m0 s) k.
Proof. intros S K. exact (same_numbers _ k (proj1 (init_ok m0 s S)) K). Qed.
Print Assumptions C42_versions_agree.

(** C42: the reals: exactly number / 2^32, in [0,1) *)
Theorem C42_reals m0 s k : 0 <= s < 2 ^ 32 -> 0 <= k ->
  let v := number gen_rand_all (seeded m0 s) k in
  0 <= v < 2 ^ 32 /\ to_real2 v = (IZR v / 2 ^ 32)%R /\ (0 <= to_real2 v < 1)%R.
Proof. intros S K. assert (V := number_range _ k (proj1 (init_ok m0 s S)) K). split; [exact V|]. split; [exact (real2 _ V)|exact (real2_unit _ V)]. Qed.
Print Assumptions C42_reals.

(** C42: the generator never gets stuck at zero *)
Theorem C42_not_stuck m0 s b : 0 <= s < 2 ^ 32 -> 0 <= b -> exists k, 624 * b <= k < 624 * b + 624 /\ number gen_rand_all (seeded m0 s) k <> 0.
Proof. intros S B. destruct (init_ok m0 s S) as (I & O & _). exact (numbers_nonzero _ b I O B). Qed.
Print Assumptions C42_not_stuck.

(** the numbers of seed 1234 published with the generator *)
Example C42_case : map (number gen_rand_all (seeded (fun _ => 0) 1234)) [0; 1; 2; 3] = [3440181298; 1564997079; 1510669302; 2930277156].
Proof. vm_compute. reflexivity. Qed.

(** C58: processes of different groups use different random numbers, in every block of 624; processes of the same group use the same *)
Theorem C58_groups_differ m0 m0' RndSeed NSplitSize r r' b :
  0 <= RndSeed -> 0 < NSplitSize -> 0 <= r -> 0 <= r' -> RndSeed + r / NSplitSize < 2 ^ 31 -> RndSeed + r' / NSplitSize < 2 ^ 31 -> r / NSplitSize <> r' / NSplitSize -> 0 <= b ->
  exists k, 624 * b <= k < 624 * b + 624
    /\ number gen_rand_all (seeded m0 (process_seed RndSeed NSplitSize r)) k <> number gen_rand_all (seeded m0' (process_seed RndSeed NSplitSize r')) k.
Proof.
  intros R P Hr Hr' B1 B2 NE B. assert (0 <= r / NSplitSize) by (apply Z.div_pos; lia). assert (0 <= r' / NSplitSize) by (apply Z.div_pos; lia).
  unfold process_seed, u32. rewrite !Z.mod_small by lia. apply seeds_differ; lia.
Qed.
Example C58_case : 0 <= 11272 /\ 0 < 2 /\ 11272 + 5 / 2 < 2 ^ 31 /\ 5 / 2 <> 3 / 2.
Proof. repeat split; try lia; discriminate. Qed.
Print Assumptions C58_groups_differ.
Theorem C58_group_same m0 m0' RndSeed NSplitSize r r' k :
  0 <= RndSeed -> 0 < NSplitSize -> r / NSplitSize = r' / NSplitSize -> 0 <= k ->
  number gen_rand_all (seeded m0 (process_seed RndSeed NSplitSize r)) k = number gen_rand_all (seeded m0' (process_seed RndSeed NSplitSize r')) k.
Proof. intros R P E K. unfold process_seed. rewrite E. exact (memory_irrelevant m0 m0' _ k (u32_r32 _) K). Qed.
Print Assumptions C58_group_same.
