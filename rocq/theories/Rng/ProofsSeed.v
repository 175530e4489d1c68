(** initialisation: words, parity, different seeds; the step is injective *)
From Coq Require Import ZArith List Bool Lia Btauto.
From Verif Require Import Base.ZLoop Rng.Model Rng.Spec Rng.Proofs Rng.ProofsAll Rng.ProofsSse Rng.ProofsStream.
Import ListNotations.
Local Open Scope Z_scope.

(** ** parity *)
Definition xsum (l : list bool) : bool := fold_left xorb l false.
Lemma fold_xorb l a : fold_left xorb l a = xorb a (xsum l).
Proof. revert a. induction l as [|x l IH]; intros a; [cbn; now rewrite xorb_false_r|]. change (fold_left xorb l (xorb a x) = xorb a (fold_left xorb l (xorb false x))). rewrite (IH (xorb a x)), (IH (xorb false x)), xorb_false_l. apply xorb_assoc. Qed.
Lemma xsum_cons x l : xsum (x :: l) = xorb x (xsum l).
Proof. unfold xsum at 1. cbn [fold_left]. now rewrite xorb_false_l, fold_xorb. Qed.
Lemma xsum_filter {A} (f p : A -> bool) l : xsum (map (fun n => f n && p n) l) = xsum (map f (filter p l)).
Proof. induction l as [|x l IH]; [reflexivity|]. cbn [map filter]. rewrite xsum_cons, IH. destruct (p x); cbn [map]; rewrite ?xsum_cons, ?andb_true_r, ?andb_false_r, ?xorb_false_l; reflexivity. Qed.
Lemma xsum_xorb {A} (f g : A -> bool) l : xsum (map (fun n => xorb (f n) (g n)) l) = xorb (xsum (map f l)) (xsum (map g l)).
Proof. induction l as [|x l IH]; [reflexivity|]. cbn [map]. rewrite !xsum_cons, IH. btauto. Qed.
Lemma fold_bits x : Z.testbit (fold_left (fun s i => Z.lxor s (Z.shiftr s i)) [16; 8; 4; 2; 1] x) 0 = xsum (map (Z.testbit x) (zrange 0 32)).
Proof.
  cbn [fold_left]. repeat (rewrite ?Z.lxor_spec, ?Z.shiftr_spec by lia). cbn [Z.add Pos.add Pos.succ].
  change (zrange 0 32) with [0; 1; 2; 3; 4; 5; 6; 7; 8; 9; 10; 11; 12; 13; 14; 15; 16; 17; 18; 19; 20; 21; 22; 23; 24; 25; 26; 27; 28; 29; 30; 31].
  generalize (Z.testbit x). intros f. cbn [map]. rewrite !xsum_cons. change (xsum []) with false. btauto.
Qed.
Definition pbit : Z -> bool := Z.testbit 0x13c9e684000000000000000000000001.
Definition pbit3 : Z -> bool := Z.testbit 0x13c9e684.
Lemma pbits : filter pbit (zrange 0 128) = 0 :: map (Z.add 96) (filter pbit3 (zrange 0 32)).
Proof. vm_compute. reflexivity. Qed.
Lemma pbits0 : filter (Z.testbit 1) (zrange 0 32) = [0].
Proof. vm_compute. reflexivity. Qed.
Definition inner (m : memory) : Z := fold_left (fun s i => Z.lxor s (Z.land (m i) (parity i))) (zrange 0 4) 0.
Lemma inner_bit m j : Z.testbit (inner m) j = xorb (Z.testbit (m 0) j && Z.testbit 1 j) (Z.testbit (m 3) j && pbit3 j).
Proof. unfold inner, pbit3. change (zrange 0 4) with [0; 1; 2; 3]. cbn [fold_left parity]. rewrite !Z.lxor_spec, !Z.land_spec, !Z.bits_0, !andb_false_r. btauto. Qed.
Lemma odd_xsum m : odd_parity m = xorb (bit m 0 0) (xsum (map (bit m 0) (map (Z.add 96) (filter pbit3 (zrange 0 32))))).
Proof. unfold odd_parity. fold pbit. rewrite fold_xorb, xorb_false_l. rewrite (xsum_filter (bit m 0) pbit), pbits, map_cons, xsum_cons. reflexivity. Qed.
Lemma inner_xsum m : xsum (map (Z.testbit (inner m)) (zrange 0 32)) = xorb (Z.testbit (m 0) 0) (xsum (map (Z.testbit (m 3)) (filter pbit3 (zrange 0 32)))).
Proof.
  rewrite (map_ext _ _ (inner_bit m)). rewrite xsum_xorb, (xsum_filter (Z.testbit (m 3)) pbit3), (xsum_filter (Z.testbit (m 0)) (Z.testbit 1)), pbits0. f_equal. cbn [map]. rewrite xsum_cons. apply xorb_false_r.
Qed.
Lemma odd_inner m : odd_parity m = Z.testbit (fold_left (fun s i => Z.lxor s (Z.shiftr s i)) [16; 8; 4; 2; 1] (inner m)) 0.
Proof.
  rewrite fold_bits, odd_xsum, inner_xsum. apply (f_equal2 xorb); [reflexivity|]. rewrite map_map. apply (f_equal xsum). apply map_ext_in. intros j Hj. apply filter_In in Hj. destruct Hj as [Hj _]. apply zrange_in in Hj. unfold bit. replace (4 * 0 + (96 + j) / 32) with 3 by zdm. replace ((96 + j) mod 32) with j by zdm. reflexivity.
Qed.
Lemma bit0_land x : 0 <= x -> (Z.land x 1 =? 1) = Z.testbit x 0.
Proof. intros H. change 1 with (Z.ones 1) at 1. rewrite Z.land_ones by lia. change (2 ^ 1) with 2. rewrite Z.bit0_odd. rewrite Zmod_odd. destruct (Z.odd x); reflexivity. Qed.
Lemma inner_nonneg m : in32 m -> 0 <= fold_left (fun s i => Z.lxor s (Z.shiftr s i)) [16; 8; 4; 2; 1] (inner m).
Proof.
  intros H. assert (S : forall x i, 0 <= x -> 0 <= Z.lxor x (Z.shiftr x i)) by (intros x i Hx; apply Z.lxor_nonneg; assert (0 <= Z.shiftr x i) by (now apply Z.shiftr_nonneg); lia).
  cbn [fold_left]. do 5 apply S. unfold inner. change (zrange 0 4) with [0; 1; 2; 3]. cbn [fold_left].
  assert (L : forall s i, 0 <= s -> 0 <= i < 4 -> 0 <= Z.lxor s (Z.land (m i) (parity i))).
  { intros s i Hs Hi. assert (0 <= m i) by (apply H; lia). assert (0 <= Z.land (m i) (parity i)) by (apply Z.land_nonneg; lia). apply Z.lxor_nonneg. lia. }
  repeat (apply L; [|lia]). lia.
Qed.
Lemma certify_cases m : in32 m -> (odd_parity m = true /\ certify m = m) \/ (odd_parity m = false /\ certify m = upd m 0 (Z.lxor (m 0) 1)).
Proof.
  intros H. unfold certify. fold (inner m). cbv zeta. rewrite bit0_land by (now apply inner_nonneg). rewrite <- odd_inner. destruct (odd_parity m); [left; auto|right]. split; [reflexivity|].
  change (find _ _) with (Some (0, 0)). cbv iota beta. change (u32 (Z.shiftl 1 0)) with 1. reflexivity.
Qed.
Lemma certify_odd m : in32 m -> odd_parity (certify m) = true.
Proof.
  intros H. destruct (certify_cases m H) as [[O ->] | [O ->]]; [exact O|]. revert O. unfold odd_parity. rewrite !(zrange_cons 0 128) by lia. cbn [map]. rewrite !(fold_xorb (_ :: _)), !xorb_false_l, !xsum_cons.
  assert (E : bit (upd m 0 (Z.lxor (m 0) 1)) 0 0 = negb (bit m 0 0)).
  { unfold bit. change (4 * 0 + 0 / 32) with 0. change (0 mod 32) with 0. rewrite upd_same, Z.lxor_spec. change (Z.testbit 1 0) with true. now rewrite xorb_true_r. }
  rewrite E. match goal with |- xorb _ (xsum ?l) = _ -> xorb _ (xsum ?l') = _ => replace l' with l end.
  - change (Z.testbit 0x13c9e684000000000000000000000001 0) with true. rewrite !andb_true_r. destruct (bit m 0 0), (xsum _); cbn; congruence.
  - apply map_ext_in. intros n Hn. apply zrange_in in Hn. f_equal. unfold bit. rewrite upd_get. destruct (Z.eqb_spec (4 * 0 + n / 32) 0) as [E0|]; [|reflexivity]. rewrite Z.lxor_spec. change (m 0) with (m 0). replace (4 * 0 + n / 32) with 0 by lia.
    rewrite (high_bit 1 1 (n mod 32)); [now rewrite xorb_false_r|lia|lia|zdm].
Qed.
(** ** initialisation *)
Definition raw (m0 : memory) (seed : Z) : memory := loop 1 N32 (fun i m => upd m i (u32 (1812433253 * Z.lxor (m (i - 1)) (Z.shiftr (m (i - 1)) 30) + i))) (upd m0 0 seed).
Lemma init_raw m0 seed : fst (init_gen_rand m0 seed) = certify (raw m0 seed).
Proof. unfold init_gen_rand, raw. reflexivity. Qed.
Definition linear (m : memory) (i : Z) : Prop := m i = (1812433253 * Z.lxor (m (i - 1)) (Z.shiftr (m (i - 1)) 30) + i) mod 2 ^ 32.
Lemma raw_spec m0 seed : raw m0 seed 0 = seed /\ (forall i, 1 <= i < 624 -> linear (raw m0 seed) i).
Proof.
  unfold raw. apply (loop_inv (fun k (m : memory) => m 0 = seed /\ forall i, 1 <= i < k -> linear m i)).
  - unfold N32. lia.
  - split; [apply upd_same|intros; lia].
  - intros k m Hk (M0 & ML). split; [rewrite upd_other by lia; exact M0|]. intros i Hi. unfold linear. destruct (Z.eq_dec i k) as [-> | ne].
    + rewrite upd_same, upd_other by lia. reflexivity.
    + rewrite !upd_other by lia. apply ML. lia.
Qed.
Lemma raw_in32 m0 seed : 0 <= seed < 2 ^ 32 -> in32 (raw m0 seed).
Proof. intros S i Hi. destruct (raw_spec m0 seed) as (R0 & RL). destruct (Z.eq_dec i 0) as [-> | ne]; [now rewrite R0|]. rewrite (RL i) by lia. apply Z.mod_pos_bound. lia. Qed.
Lemma certify_in32 m : in32 m -> in32 (certify m).
Proof. intros H. destruct (certify_cases m H) as [[_ ->] | [_ ->]]; [exact H|]. intros i Hi. rewrite upd_get. destruct (Z.eqb_spec i 0) as [-> | ne]; [|now apply H]. apply lxor_r32; [apply H; lia|unfold r32; lia]. Qed.
Lemma init_ok m0 seed : 0 <= seed < 2 ^ 32 ->
  let m := fst (init_gen_rand m0 seed) in in32 m /\ odd_parity m = true /\ (m 0 = seed \/ m 0 = Z.lxor seed 1) /\ m 1 = (1812433253 * Z.lxor seed (Z.shiftr seed 30) + 1) mod 2 ^ 32 /\ (forall i, 2 <= i < 624 -> linear m i).
Proof.
  intros S. cbv zeta. rewrite init_raw. assert (R := raw_in32 m0 seed S). destruct (raw_spec m0 seed) as (R0 & RL).
  assert (R1 : raw m0 seed 1 = (1812433253 * Z.lxor seed (Z.shiftr seed 30) + 1) mod 2 ^ 32) by (rewrite (RL 1) by lia; change (1 - 1) with 0; now rewrite R0).
  split; [now apply certify_in32|]. split; [now apply certify_odd|]. destruct (certify_cases _ R) as [[_ ->] | [_ ->]].
  - split; [now left|]. split; [exact R1|]. intros i Hi. apply RL. lia.
  - split; [right; now rewrite upd_same, R0|]. split; [rewrite upd_other by lia; exact R1|]. intros i Hi. unfold linear. rewrite !upd_other by lia. apply RL. lia.
Qed.
Lemma mix_inj s t : 0 <= s < 2 ^ 32 -> 0 <= t < 2 ^ 32 -> (1812433253 * Z.lxor s (Z.shiftr s 30) + 1) mod 2 ^ 32 = (1812433253 * Z.lxor t (Z.shiftr t 30) + 1) mod 2 ^ 32 -> s = t.
Proof.
  intros S T E. assert (X : forall s, 0 <= s < 2 ^ 32 -> r32 (Z.lxor s (Z.shiftr s 30))) by (intros x Hx; apply lxor_r32; [exact Hx|apply shiftr_r32; [lia|exact Hx]]).
  assert (U : forall x, r32 x -> (2520285293 * (1812433253 * x)) mod 2 ^ 32 = x).
  { intros x Hx. rewrite Z.mul_assoc. change (2520285293 * 1812433253) with (1063535193 * 2 ^ 32 + 1). rewrite Z.mul_add_distr_r, Z.mul_1_l. replace (1063535193 * 2 ^ 32 * x + x) with (x + (1063535193 * x) * 2 ^ 32) by ring. rewrite Z.mod_add by lia. apply Z.mod_small. exact Hx. }
  assert (E' : Z.lxor s (Z.shiftr s 30) = Z.lxor t (Z.shiftr t 30)).
  { rewrite <- (U _ (X s S)), <- (U _ (X t T)). set (x := Z.lxor s _) in *. set (y := Z.lxor t _) in *.
    assert (E2 : (1812433253 * x) mod 2 ^ 32 = (1812433253 * y) mod 2 ^ 32) by (clearbody x y; clear - E; zdm).
    rewrite <- (Z.mul_mod_idemp_r _ (1812433253 * x)), <- (Z.mul_mod_idemp_r _ (1812433253 * y)), E2 by lia. reflexivity. }
  assert (V : forall x, 0 <= x < 2 ^ 32 -> Z.lxor (Z.lxor x (Z.shiftr x 30)) (Z.shiftr (Z.lxor x (Z.shiftr x 30)) 30) = x).
  { intros x Hx. apply Z.bits_inj'. intros n Hn. repeat (rewrite ?Z.lxor_spec, ?Z.shiftr_spec by lia). rewrite (high_bit 32 x (n + 30 + 30)) by lia. btauto. }
  rewrite <- (V s S), <- (V t T), E'. reflexivity.
Qed.
(** ** the step is injective *)
Definition eq624 (m m' : memory) : Prop := forall k, 0 <= k < 624 -> m k = m' k.
Lemma eq624_loads m m' : eq624 m m' <-> forall j, 0 <= j < 156 -> load m j = load m' j.
Proof.
  split.
  - intros H j Hj. unfold load. rewrite !H by lia. reflexivity.
  - intros L k Hk. assert (E := load4 m (k / 4) (k mod 4) ltac:(zdm)). assert (E' := load4 m' (k / 4) (k mod 4) ltac:(zdm)). replace (4 * (k / 4) + k mod 4) with k in * by (rewrite <- Z.div_mod; lia). rewrite <- E, <- E', L; [reflexivity|zdm].
Qed.
Lemma quad_bits p q : q32 p -> q32 q -> (forall n, 0 <= n < 128 -> qbit p n = qbit q n) -> p = q.
Proof.
  intros P Q H. apply quad_ext. intros k K. apply Z.bits_inj'. intros j J. destruct (Z_lt_le_dec j 32).
  - assert (E := H (32 * k + j) ltac:(lia)). now rewrite !qbit_at in E by lia.
  - rewrite (high_bit 32 _ j), (high_bit 32 (lane q k) j); [reflexivity|lia|now apply lane_r32|lia|lia|now apply lane_r32|lia].
Qed.
Lemma pure_inj a a' b c d : q32 a -> q32 a' -> q32 b -> q32 c -> q32 d -> pure a b c d = pure a' b c d -> a = a'.
Proof.
  intros A A' B C D E. apply quad_bits; [exact A|exact A'|].
  assert (G : forall k n, 0 <= n < Z.of_nat k -> 0 <= n < 128 -> qbit a n = qbit a' n).
  { induction k as [|k IH]; intros n Hn Hn'; [lia|]. assert (P := pure_bit a b c d n A B C D Hn'). assert (P' := pure_bit a' b c d n A' B C D Hn'). rewrite E, P' in P. unfold rule in P. clear P' E.
    destruct (Z.leb_spec 8 n); cbn [andb] in P.
    - rewrite (IH (n - 8)) in P by lia. revert P. generalize (qbit a n), (qbit a' n), (qbit a' (n - 8)). intros x y z. match goal with |- xorb y (xorb z ?w) = _ -> _ => generalize w end. intros w. destruct x, y, z, w; cbn; congruence.
    - revert P. generalize (qbit a n), (qbit a' n). intros x y. match goal with |- xorb y (xorb false ?w) = _ -> _ => generalize w end. intros w. destruct x, y, w; cbn; congruence. }
  intros n Hn. apply (G 128%nat); lia.
Qed.
Lemma gen_inj m m' : in32 m -> in32 m' -> eq624 (gen_rand_all m) (gen_rand_all m') -> eq624 m m'.
Proof.
  intros H H' E. assert (LR := proj1 (in32_loads _) (gen_in32 m H)). apply in32_loads in H, H'. destruct (gen_all m) as (_ & F & _). destruct (gen_all m') as (_ & F' & _). set (r := gen_rand_all m) in *. set (r' := gen_rand_all m') in *. clearbody r r'.
  assert (EL := proj1 (eq624_loads r r') E). assert (Lr' : loads32 r') by (intros j Hj; rewrite <- EL by exact Hj; now apply LR).
  assert (G : forall j, 34 <= j < 156 -> load m j = load m' j).
  { intros j Hj. assert (P := F j ltac:(lia)). assert (P' := F' j ltac:(lia)). unfold final in P, P'. rewrite (EL j) in P by lia. rewrite P' in P.
    destruct (Z.ltb_spec j 34); [lia|]. destruct (Z.ltb_spec j 2); [lia|]. destruct (Z.ltb_spec j 1); [lia|]. rewrite !EL in P by lia. symmetry. revert P. apply pure_inj; first [apply H; lia | apply H'; lia | apply Lr'; lia]. }
  apply eq624_loads. intros j Hj. destruct (Z_lt_le_dec j 34); [|apply G; lia].
  assert (P := F j ltac:(lia)). assert (P' := F' j ltac:(lia)). unfold final in P, P'. rewrite (EL j) in P by lia. rewrite P' in P.
  destruct (Z.ltb_spec j 34); [|lia]. rewrite (G (j + 122)) in P by lia.
  replace (if j <? 2 then load m (j + 154) else load r (j - 2)) with (if j <? 2 then load m' (j + 154) else load r' (j - 2)) in P by (destruct (Z.ltb_spec j 2); [rewrite G by lia; reflexivity|rewrite EL by lia; reflexivity]).
  replace (if j <? 1 then load m (j + 155) else load r (j - 1)) with (if j <? 1 then load m' (j + 155) else load r' (j - 1)) in P by (destruct (Z.ltb_spec j 1); [rewrite G by lia; reflexivity|rewrite EL by lia; reflexivity]).
  symmetry. revert P. apply pure_inj; first [apply H; lia | apply H'; lia | destruct (j <? 2) eqn:Ej; [apply Z.ltb_lt in Ej; apply H'; lia|apply Z.ltb_ge in Ej; apply Lr'; lia] | destruct (j <? 1) eqn:Ej; [apply Z.ltb_lt in Ej; apply H'; lia|apply Z.ltb_ge in Ej; apply Lr'; lia]].
Qed.
Lemma block_inj m m' b : in32 m -> in32 m' -> eq624 (block gen_rand_all m b) (block gen_rand_all m' b) -> eq624 m m'.
Proof.
  intros H H'. unfold block. assert (R : forall n m, in32 m -> in32 (Nat.iter n gen_rand_all m)) by (intros n x Hx; induction n; cbn; [exact Hx|now apply gen_in32]).
  induction (Z.to_nat b) as [|n IH]; cbn; [auto|]. intros E. apply IH. apply gen_inj in E; [exact E|now apply R|now apply R].
Qed.
Lemma determined624 m m2 mem mem2 : eq624 m m2 -> before m mem 156 -> before m2 mem2 156 -> eq624 mem mem2.
Proof.
  intros E (_ & F & _) (_ & F2 & _). assert (EL := proj1 (eq624_loads _ _) E).
  assert (G : forall n j, 0 <= j < Z.of_nat n -> 0 <= j < 156 -> load mem j = load mem2 j).
  { induction n as [|n IH]; intros j Hj Hj'; [lia|]. rewrite (F j Hj'), (F2 j Hj'). rewrite (EL j) by lia.
    f_equal; [destruct (Z.ltb_spec j 34); [apply EL; lia|apply IH; lia]|destruct (Z.ltb_spec j 2); [apply EL; lia|apply IH; lia]|destruct (Z.ltb_spec j 1); [apply EL; lia|apply IH; lia]]. }
  apply eq624_loads. intros j Hj. apply (G 156%nat); lia.
Qed.
Lemma before_zero : before (fun _ => 0) (fun _ => 0) 156.
Proof. split; [|split]; intros; [reflexivity| |reflexivity]. unfold final. destruct (j <? 34), (j <? 2), (j <? 1); reflexivity. Qed.
Lemma gen_zero m : eq624 m (fun _ => 0) -> eq624 (gen_rand_all m) (fun _ => 0).
Proof. intros E. exact (determined624 m (fun _ => 0) _ _ E (gen_all m) before_zero). Qed.
Lemma block_zero b : eq624 (block gen_rand_all (fun _ => 0) b) (fun _ => 0).
Proof. unfold block. induction (Z.to_nat b) as [|n IH]; [intros j Hj; reflexivity|]. exact (gen_zero _ IH). Qed.
Lemma never_zero m b : in32 m -> 0 <= b -> (exists k, 0 <= k < 624 /\ m k <> 0) -> exists k, 0 <= k < 624 /\ block gen_rand_all m b k <> 0.
Proof.
  intros H B (k & Hk & Nk).
  destruct (Forall_Exists_dec (fun k => block gen_rand_all m b k = 0) (fun k => Z.eq_dec _ 0) (zrange 0 624)) as [A|X].
  - exfalso. apply Nk. rewrite Forall_forall in A. assert (Z0 : in32 (fun _ => 0)) by (intros i Hi; lia).
    assert (E : eq624 (block gen_rand_all m b) (block gen_rand_all (fun _ => 0) b)).
    { intros j Hj. rewrite A by (apply zrange_in; lia). symmetry. now apply block_zero. }
    exact (block_inj m _ b H Z0 E k Hk).
  - apply Exists_exists in X. destruct X as (j & Hj & Nj). exists j. split; [now apply zrange_in in Hj|exact Nj].
Qed.
Lemma odd_nonzero m : odd_parity m = true -> exists k, 0 <= k < 624 /\ m k <> 0.
Proof.
  intros O. destruct (Z.eq_dec (m 0) 0) as [E0|]; [|exists 0; split; [lia|assumption]]. destruct (Z.eq_dec (m 1) 0) as [E1|]; [|exists 1; split; [lia|assumption]]. destruct (Z.eq_dec (m 2) 0) as [E2|]; [|exists 2; split; [lia|assumption]]. destruct (Z.eq_dec (m 3) 0) as [E3|]; [|exists 3; split; [lia|assumption]].
  exfalso. rewrite odd_inner in O. unfold inner in O. change (zrange 0 4) with [0; 1; 2; 3] in O. cbn [fold_left] in O. rewrite E0, E1, E2, E3 in O. cbn in O. discriminate.
Qed.
Lemma numbers_nonzero m b : in32 m -> odd_parity m = true -> 0 <= b -> exists k, 624 * b <= k < 624 * b + 624 /\ number gen_rand_all m k <> 0.
Proof.
  intros H O B. destruct (never_zero m (b + 1) H ltac:(lia) (odd_nonzero m O)) as (k & Hk & Nk). exists (624 * b + k). split; [lia|]. rewrite number_block by lia. replace ((624 * b + k) / 624 + 1) with (b + 1) by zdm. replace ((624 * b + k) mod 624) with k by zdm. exact Nk.
Qed.
Lemma seeds_differ m0 m0' s t b : 0 <= s < 2 ^ 32 -> 0 <= t < 2 ^ 32 -> s <> t -> 0 <= b ->
  exists k, 624 * b <= k < 624 * b + 624 /\ number gen_rand_all (fst (init_gen_rand m0 s)) k <> number gen_rand_all (fst (init_gen_rand m0' t)) k.
Proof.
  intros S T NE B. destruct (init_ok m0 s S) as (I & _ & _ & W & _). destruct (init_ok m0' t T) as (I' & _ & _ & W' & _). set (m := fst (init_gen_rand m0 s)) in *. set (m' := fst (init_gen_rand m0' t)) in *.
  destruct (Forall_Exists_dec (fun k => block gen_rand_all m (b + 1) k = block gen_rand_all m' (b + 1) k) (fun k => Z.eq_dec _ _) (zrange 0 624)) as [A|X].
  - exfalso. apply NE. rewrite Forall_forall in A. assert (E : eq624 m m') by (apply (block_inj m m' (b + 1) I I'); intros j Hj; apply A, zrange_in; lia). apply (mix_inj s t S T). rewrite <- W, <- W'. apply E. lia.
  - apply Exists_exists in X. destruct X as (j & Hj & Nj). apply zrange_in in Hj. exists (624 * b + j). split; [lia|]. rewrite !number_block by lia. replace ((624 * b + j) / 624 + 1) with (b + 1) by zdm. replace ((624 * b + j) mod 624) with j by zdm. exact Nj.
Qed.
(** the memory before initialisation does not matter *)
Lemma raw_same m0 m0' s : eq624 (raw m0 s) (raw m0' s).
Proof.
  destruct (raw_spec m0 s) as (A0 & AL). destruct (raw_spec m0' s) as (B0 & BL).
  assert (G : forall n, Z.of_nat n < 624 -> raw m0 s (Z.of_nat n) = raw m0' s (Z.of_nat n)).
  { induction n as [|n IH]; intros Hn; [cbn [Z.of_nat]; now rewrite A0, B0|]. rewrite (AL (Z.of_nat (S n))), (BL (Z.of_nat (S n))) by lia. replace (Z.of_nat (S n) - 1) with (Z.of_nat n) by lia. rewrite IH by lia. reflexivity. }
  intros k Hk. rewrite <- (Z2Nat.id k) by lia. apply G. lia.
Qed.
Lemma certify_same m m' : in32 m -> in32 m' -> eq624 m m' -> eq624 (certify m) (certify m').
Proof.
  intros H H' E. assert (P : odd_parity m = odd_parity m').
  { unfold odd_parity. f_equal. apply map_ext_in. intros n Hn. apply zrange_in in Hn. f_equal. unfold bit. f_equal. apply E. zdm. }
  destruct (certify_cases m H) as [[O ->] | [O ->]], (certify_cases m' H') as [[O' ->] | [O' ->]]; try congruence; [exact E|]. intros k Hk. rewrite !upd_get. rewrite !(E 0) by lia. destruct (k =? 0); [reflexivity|now apply E].
Qed.
Lemma block_same m m' b : eq624 m m' -> eq624 (block gen_rand_all m b) (block gen_rand_all m' b).
Proof. intros E. unfold block. induction (Z.to_nat b) as [|n IH]; [exact E|]. exact (determined624 _ _ _ _ IH (gen_all _) (gen_all _)). Qed.
Lemma memory_irrelevant m0 m0' s k : r32 s -> 0 <= k -> number gen_rand_all (fst (init_gen_rand m0 s)) k = number gen_rand_all (fst (init_gen_rand m0' s)) k.
Proof.
  intros S K. rewrite !init_raw, !number_block by exact K. apply block_same; [|apply Z.mod_pos_bound; lia]. apply certify_same; [now apply raw_in32|now apply raw_in32|apply raw_same].
Qed.
