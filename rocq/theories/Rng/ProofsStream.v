(** the recurrence on bits, and the sequence of all numbers *)
From Coq Require Import ZArith List Bool Lia Btauto.
From Verif Require Import Base.ZLoop Rng.Model Rng.Spec Rng.Proofs Rng.ProofsAll Rng.ProofsSse.
Import ListNotations.
Local Open Scope Z_scope.

Definition qbit (q : quad) (n : Z) : bool := Z.testbit (lane q (n / 32)) (n mod 32).
Lemma split_n n : 0 <= n < 128 -> exists k j, n = 32 * k + j /\ 0 <= k < 4 /\ 0 <= j < 32.
Proof. intros H. exists (n / 32), (n mod 32). zdm. Qed.
Lemma div_n k j : 0 <= j < 32 -> (32 * k + j) / 32 = k.
Proof. intros. zdm. Qed.
Lemma mod_n k j : 0 <= j < 32 -> (32 * k + j) mod 32 = j.
Proof. intros. zdm. Qed.
Lemma qbit_at q k j : 0 <= j < 32 -> qbit q (32 * k + j) = Z.testbit (lane q k) j.
Proof. intros H. unfold qbit. now rewrite div_n, mod_n. Qed.
Lemma up_bit u v j : r32 u -> r32 v -> 0 <= j < 32 -> Z.testbit (u / 2 ^ 24 + 2 ^ 8 * (v mod 2 ^ 24)) j = if j <? 8 then Z.testbit u (24 + j) else Z.testbit v (j - 8).
Proof.
  intros U V J. rewrite cat_bits by (unfold r32 in *; try zdm; lia). destruct (Z.ltb_spec j 8).
  - rewrite Z.div_pow2_bits by lia. f_equal. lia.
  - apply Z.mod_pow2_bits_low. lia.
Qed.
Lemma down_bit u v j : r32 u -> r32 v -> 0 <= j < 32 -> Z.testbit (u / 2 ^ 8 + 2 ^ 24 * (v mod 2 ^ 8)) j = if j <? 24 then Z.testbit u (j + 8) else Z.testbit v (j - 24).
Proof.
  intros U V J. rewrite cat_bits by (unfold r32 in *; try zdm; lia). destruct (Z.ltb_spec j 24).
  - rewrite Z.div_pow2_bits by lia. f_equal; lia.
  - apply Z.mod_pow2_bits_low. lia.
Qed.
Lemma r32_0 : r32 0.
Proof. unfold r32. lia. Qed.
Lemma lane_r32 q k : q32 q -> 0 <= k < 4 -> r32 (lane q k).
Proof. destruct q as [[[u0 u1] u2] u3]. intros (A & B & C & D) K. assert (k = 0 \/ k = 1 \/ k = 2 \/ k = 3) as [-> | [-> | [-> | ->]]] by lia; assumption. Qed.
Lemma lshift_lane q k : q32 q -> 0 <= k < 4 -> lane (lshift128 q SL2) k = (if k =? 0 then 0 else lane q (k - 1)) / 2 ^ 24 + 2 ^ 8 * (lane q k mod 2 ^ 24).
Proof. destruct q as [[[u0 u1] u2] u3]. intros Q K. rewrite lshift_lanes by exact Q. assert (k = 0 \/ k = 1 \/ k = 2 \/ k = 3) as [-> | [-> | [-> | ->]]] by lia; reflexivity. Qed.
Lemma rshift_lane q k : q32 q -> 0 <= k < 4 -> lane (rshift128 q SR2) k = lane q k / 2 ^ 8 + 2 ^ 24 * ((if k =? 3 then 0 else lane q (k + 1)) mod 2 ^ 8).
Proof. destruct q as [[[u0 u1] u2] u3]. intros Q K. rewrite rshift_lanes by exact Q. assert (k = 0 \/ k = 1 \/ k = 2 \/ k = 3) as [-> | [-> | [-> | ->]]] by lia; [reflexivity|reflexivity|reflexivity|]. change (3 =? 3) with true. cbv iota. rewrite Z.mod_0_l by lia. rewrite Z.mul_0_r, Z.add_0_r. reflexivity. Qed.
Lemma lshift_bit q n : q32 q -> 0 <= n < 128 -> qbit (lshift128 q SL2) n = (8 <=? n) && qbit q (n - 8).
Proof.
  intros Q Hn. destruct (split_n n Hn) as (k & j & -> & K & J). rewrite qbit_at by exact J. rewrite lshift_lane by assumption.
  rewrite up_bit; [|destruct (Z.eqb_spec k 0); [apply r32_0|apply lane_r32; [exact Q|lia]]|now apply lane_r32|exact J].
  destruct (Z.ltb_spec j 8).
  - destruct (Z.eqb_spec k 0) as [-> | ne].
    + rewrite Z.bits_0. destruct (Z.leb_spec 8 (32 * 0 + j)); [lia|reflexivity].
    + destruct (Z.leb_spec 8 (32 * k + j)); [|lia]. replace (32 * k + j - 8) with (32 * (k - 1) + (24 + j)) by lia. now rewrite qbit_at by lia.
  - destruct (Z.leb_spec 8 (32 * k + j)); [|lia]. replace (32 * k + j - 8) with (32 * k + (j - 8)) by lia. now rewrite qbit_at by lia.
Qed.
Lemma rshift_bit q n : q32 q -> 0 <= n < 128 -> qbit (rshift128 q SR2) n = (n <? 120) && qbit q (n + 8).
Proof.
  intros Q Hn. destruct (split_n n Hn) as (k & j & -> & K & J). rewrite qbit_at by exact J. rewrite rshift_lane by assumption.
  rewrite down_bit; [|now apply lane_r32|destruct (Z.eqb_spec k 3); [apply r32_0|apply lane_r32; [exact Q|lia]]|exact J].
  destruct (Z.ltb_spec j 24).
  - destruct (Z.ltb_spec (32 * k + j) 120); [|lia]. replace (32 * k + j + 8) with (32 * k + (j + 8)) by lia. now rewrite qbit_at by lia.
  - destruct (Z.eqb_spec k 3) as [-> | ne].
    + rewrite Z.bits_0. destruct (Z.ltb_spec (32 * 3 + j) 120); [lia|reflexivity].
    + destruct (Z.ltb_spec (32 * k + j) 120); [|lia]. replace (32 * k + j + 8) with (32 * (k + 1) + (j - 24)) by lia. now rewrite qbit_at by lia.
Qed.
Lemma mask_bit k j : 0 <= k < 4 -> 0 <= j < 32 -> Z.testbit (MSK k) j = Z.testbit mask (32 * k + j).
Proof.
  intros K J. assert (A : forallb (fun k => forallb (fun j => Bool.eqb (Z.testbit (MSK k) j) (Z.testbit mask (32 * k + j))) (zrange 0 32)) (zrange 0 4) = true) by (vm_compute; reflexivity).
  rewrite forallb_forall in A. assert (A1 := A k ltac:(apply zrange_in; exact K)). rewrite forallb_forall in A1. apply Bool.eqb_prop. apply A1. apply zrange_in. exact J.
Qed.
Definition rule (a b c d : Z -> bool) (n : Z) : bool :=
  xorb (a n) (xorb ((8 <=? n) && a (n - 8)) (xorb ((n mod 32 <? 21) && Z.testbit mask n && b (n + 11)) (xorb ((n <? 120) && c (n + 8)) ((18 <=? n mod 32) && d (n - 18))))).
Lemma pure_bit a b c d n : q32 a -> q32 b -> q32 c -> q32 d -> 0 <= n < 128 -> qbit (pure a b c d) n = rule (qbit a) (qbit b) (qbit c) (qbit d) n.
Proof.
  intros A B C D Hn. unfold rule. rewrite <- lshift_bit, <- rshift_bit by assumption. destruct (split_n n Hn) as (k & j & -> & K & J). rewrite !mod_n by exact J. rewrite !(qbit_at _ k j) by exact J. rewrite lane_pure by exact K. unfold word.
  rewrite !Z.lxor_spec, Z.land_spec, mask_bit by assumption.
  assert (EB : Z.testbit (Z.shiftr (lane b k) SR1) j = (j <? 21) && qbit b (32 * k + j + 11)).
  { rewrite Z.shiftr_spec by lia. unfold SR1. destruct (Z.ltb_spec j 21).
    - replace (32 * k + j + 11) with (32 * k + (j + 11)) by lia. now rewrite qbit_at by lia.
    - apply (high_bit 32); [lia|apply lane_r32; assumption|lia]. }
  assert (ED : Z.testbit (u32 (Z.shiftl (lane d k) SL1)) j = (18 <=? j) && qbit d (32 * k + j - 18)).
  { unfold u32. rewrite Z.mod_pow2_bits_low by lia. rewrite Z.shiftl_spec by lia. unfold SL1. destruct (Z.leb_spec 18 j).
    - replace (32 * k + j - 18) with (32 * k + (j - 18)) by lia. now rewrite qbit_at by lia.
    - apply Z.testbit_neg_r. lia. }
  rewrite EB, ED. btauto.
Qed.

(** ** blocks of 624 words *)
Definition block (all : memory -> memory) (m : memory) (b : Z) : memory := Nat.iter (Z.to_nat b) all m.
Lemma block_S all m b : 0 <= b -> block all m (b + 1) = all (block all m b).
Proof. intros H. unfold block. rewrite Z2Nat.inj_add by lia. change (Z.to_nat 1) with 1%nat. rewrite Nat.add_1_r. reflexivity. Qed.
Lemma iter_comm {A} (f : A -> A) n x : Nat.iter n f (f x) = f (Nat.iter n f x).
Proof. induction n; cbn; [reflexivity|now f_equal]. Qed.
Lemma block_comm all m b : 0 <= b -> block all (all m) b = block all m (b + 1).
Proof. intros H. rewrite block_S by exact H. apply iter_comm. Qed.
Lemma block_eq all m a a' c c' : a = a' -> c = c' -> block all m a c = block all m a' c'.
Proof. intros -> ->. reflexivity. Qed.
Lemma load_eq all m a a' c c' : a = a' -> c = c' -> load (block all m a) c = load (block all m a') c'.
Proof. intros -> ->. reflexivity. Qed.
Lemma nth_numbers all : forall k n m idx, (k < n)%nat -> 0 <= idx <= 624 -> nth k (numbers all n (m, idx)) 0 = block all m ((idx + Z.of_nat k) / 624) ((idx + Z.of_nat k) mod 624).
Proof.
  induction k as [|k IH]; intros n m idx Hn Hi; (destruct n as [|n]; [lia|]); cbn [numbers gen_rand32]; unfold N32.
  - destruct (Z.leb_spec 624 idx); cbn [nth].
    + assert (idx = 624) as -> by lia. reflexivity.
    + rewrite Z.add_0_r, Z.div_small, Z.mod_small by lia. reflexivity.
  - destruct (Z.leb_spec 624 idx); cbn [nth].
    + assert (idx = 624) as -> by lia. rewrite IH by lia. rewrite block_comm by (apply Z.div_pos; lia). apply block_eq; zdm.
    + rewrite IH by lia. apply block_eq; zdm.
Qed.
Lemma number_block all m k : 0 <= k -> number all m k = block all m (k / 624 + 1) (k mod 624).
Proof. intros K. unfold number. rewrite nth_numbers by lia. rewrite Z2Nat.id by lia. apply block_eq; zdm. Qed.
Lemma stream_block all m k : 0 <= k -> stream all m k = block all m (k / 624) (k mod 624).
Proof.
  intros K. unfold stream. destruct (Z.ltb_spec k 624).
  - rewrite Z.div_small, Z.mod_small by lia. reflexivity.
  - rewrite number_block by lia. apply block_eq; zdm.
Qed.
Lemma block_in32 m b : in32 m -> in32 (block gen_rand_all m b).
Proof. intros H. unfold block. induction (Z.to_nat b); cbn; [exact H|now apply gen_in32]. Qed.
Lemma stream_bit all m e n : 0 <= e -> 0 <= n < 128 -> bit (stream all m) e n = qbit (load (block all m (e / 156)) (e mod 156)) n.
Proof.
  intros E Hn. unfold bit, qbit. rewrite stream_block by zdm. rewrite load4 by zdm. f_equal. apply block_eq; zdm.
Qed.
(** generic in the version: it computes the step and keeps 32-bit words *)
Lemma recurrence all m : in32 m -> (forall m, in32 m -> before m (all m) 156) -> forall e n, 0 <= e -> 0 <= n < 128 -> follows (stream all m) e n.
Proof.
  intros H32 step e n E Hn.
  assert (B32 : forall b, in32 (block all m b)).
  { intros b. unfold block. induction (Z.to_nat b); cbn; [exact H32|]. apply in32_loads. apply before_q32 with (Nat.iter n0 all m) 156; [now apply in32_loads|lia|now apply step]. }
  set (b := e / 156). set (i := e mod 156). assert (I : 0 <= i < 156) by (unfold i; zdm). assert (B0 : 0 <= b) by (unfold b; zdm).
  set (m0 := block all m b). set (m1 := block all m (b + 1)). assert (BM : before m0 m1 156) by (unfold m1; rewrite block_S by exact B0; apply step, B32).
  assert (L0 : loads32 m0) by (apply in32_loads, B32). assert (L1 : loads32 m1) by (apply in32_loads, B32).
  assert (EL : forall s n, 0 <= s < 156 -> 0 <= n < 128 -> bit (stream all m) (e + s) n = qbit (if i + s <? 156 then load m0 (i + s) else load m1 (i + s - 156)) n).
  { intros s n' Hs Hn'. rewrite stream_bit by lia. f_equal. destruct (Z.ltb_spec (i + s) 156); unfold m0, m1; apply load_eq; unfold b, i in *; zdm. }
  assert (E156 : bit (stream all m) (e + 156) n = qbit (load m1 i) n).
  { rewrite stream_bit by lia. f_equal. unfold m1. apply load_eq; unfold b, i in *; zdm. }
  unfold follows. rewrite E156. destruct BM as (_ & F & _). rewrite (F i I). clear F E156.
  assert (X1 : (if i <? 34 then load m0 (i + 122) else load m1 (i - 34)) = (if i + 122 <? 156 then load m0 (i + 122) else load m1 (i + 122 - 156))) by (destruct (Z.ltb_spec i 34), (Z.ltb_spec (i + 122) 156); try lia; [reflexivity|f_equal; lia]).
  assert (X2 : (if i <? 2 then load m0 (i + 154) else load m1 (i - 2)) = (if i + 154 <? 156 then load m0 (i + 154) else load m1 (i + 154 - 156))) by (destruct (Z.ltb_spec i 2), (Z.ltb_spec (i + 154) 156); try lia; [reflexivity|f_equal; lia]).
  assert (X3 : (if i <? 1 then load m0 (i + 155) else load m1 (i - 1)) = (if i + 155 <? 156 then load m0 (i + 155) else load m1 (i + 155 - 156))) by (destruct (Z.ltb_spec i 1), (Z.ltb_spec (i + 155) 156); try lia; [reflexivity|f_equal; lia]).
  rewrite X1, X2, X3.
  rewrite pure_bit; [|apply L0; lia| | | |exact Hn].
  2-4: match goal with |- q32 (if ?c then _ else _) => destruct c eqn:Ec; [apply Z.ltb_lt in Ec; apply L0; lia|apply Z.ltb_ge in Ec; apply L1; lia] end.
  unfold rule. assert (E0 := fun n Hn => EL 0 n ltac:(lia) Hn). cbv beta in E0. rewrite Z.add_0_r in E0. assert (M := Z.mod_pos_bound n 32 ltac:(lia)).
  assert (Ei : (if i + 0 <? 156 then load m0 (i + 0) else load m1 (i + 0 - 156)) = load m0 i) by (rewrite Z.add_0_r; destruct (Z.ltb_spec i 156); [reflexivity|lia]).
  rewrite Ei in E0. rewrite (E0 n Hn).
  f_equal. f_equal; [destruct (Z.leb_spec 8 n); cbn [andb]; [symmetry; apply E0; lia|reflexivity]|].
  f_equal; [destruct (Z.ltb_spec (n mod 32) 21); cbn [andb]; [f_equal; symmetry; apply EL; [lia|zdm]|reflexivity]|].
  f_equal; [destruct (Z.ltb_spec n 120); cbn [andb]; [symmetry; apply EL; lia|reflexivity]|].
  destruct (Z.leb_spec 18 (n mod 32)); cbn [andb]; [symmetry; apply EL; [lia|zdm]|reflexivity].
Qed.
Lemma recurrence_c m : in32 m -> forall e n, 0 <= e -> 0 <= n < 128 -> follows (stream gen_rand_all m) e n.
Proof. intros H. apply recurrence; [exact H|]. intros. apply gen_all. Qed.
Lemma recurrence_sse2 m : in32 m -> forall e n, 0 <= e -> 0 <= n < 128 -> follows (stream gen_rand_all_sse2 m) e n.
Proof. intros H. apply recurrence; [exact H|]. intros. now apply gen_all_sse2. Qed.
Lemma same_numbers m k : in32 m -> 0 <= k -> number gen_rand_all m k = number gen_rand_all_sse2 m k.
Proof.
  intros H K. rewrite !number_block by exact K. set (b := k / 624 + 1). unfold block.
  enough (in32 (Nat.iter (Z.to_nat b) gen_rand_all_sse2 m) /\ same (Nat.iter (Z.to_nat b) gen_rand_all m) (Nat.iter (Z.to_nat b) gen_rand_all_sse2 m)) as [_ S] by apply S.
  induction (Z.to_nat b) as [|n [I1 I2]]; cbn; [split; [exact H|intros j; reflexivity]|]. split.
  - apply in32_loads. apply before_q32 with (Nat.iter n gen_rand_all_sse2 m) 156; [now apply in32_loads|lia|now apply gen_all_sse2].
  - apply determined with (Nat.iter n gen_rand_all m) (Nat.iter n gen_rand_all_sse2 m); [exact I2|apply gen_all|now apply gen_all_sse2].
Qed.
Lemma number_range m k : in32 m -> 0 <= k -> 0 <= number gen_rand_all m k < 2 ^ 32.
Proof. intros H K. rewrite number_block by exact K. apply block_in32; [exact H|]. apply Z.mod_pos_bound. lia. Qed.
