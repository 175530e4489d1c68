(** Counting streams of random words. *)
From Coq Require Import ZArith List Bool Lia Reals Lra Permutation.
From Verif Require Import Base.ZLoop Base.RSum Samp.Prog Samp.Model Samp.Spec Mark.Model Mark.Spec.
Import ListNotations.
Local Open Scope Z_scope.

Lemma coin_01 y : 0 <= coin y <= 1. Proof. unfold coin. destruct (y <? 2 ^ 31); lia. Qed.
Section Words.
Variable B : Z.
Definition word (a : Z) : Prop := 0 <= a < B.
Lemma words_in n l : In l (words B n) <-> length l = n /\ Forall word l.
Proof.
  revert l. induction n as [|n IH]; intros l; cbn [words].
  - split; [intros [<-|[]]; split; [reflexivity|constructor]|]. intros (H & _). left. now destruct l.
  - rewrite in_flat_map. split.
    + intros (a & Ha & Hl). apply in_map_iff in Hl. destruct Hl as (l' & <- & Hl'). apply IH in Hl'. destruct Hl' as (L & F). apply zrange_in in Ha.
      cbn. split; [now rewrite L|]. constructor; assumption.
    + intros (L & F). destruct l as [|a l]; [discriminate|]. inversion F; subst. exists a. split; [now apply zrange_in|]. apply in_map_iff. exists l. split; [reflexivity|]. apply IH. split; [now injection L|assumption].
Qed.
Lemma NoDup_app {A} (l m : list A) : NoDup l -> NoDup m -> (forall x, In x l -> ~ In x m) -> NoDup (l ++ m).
Proof.
  intros Hl Hm H. induction Hl as [|x l Hx Hl IH]; [exact Hm|]. cbn. constructor.
  - rewrite in_app_iff. intros [K|K]; [now apply Hx|]. apply (H x); [now left|exact K].
  - apply IH. intros y Hy. apply H. now right.
Qed.
Lemma words_nodup n : NoDup (words B n).
Proof.
  induction n as [|n IH]; cbn [words]; [constructor; [intros []|constructor]|].
  assert (HZ : NoDup (zrange 0 B)) by apply zrange_NoDup. induction HZ as [|a l Ha Hl IHl]; cbn [flat_map]; [constructor|].
  apply NoDup_app; [|exact IHl|].
  - apply FinFun.Injective_map_NoDup; [|exact IH]. intros x y E. now injection E.
  - intros x Hx Hx'. apply in_map_iff in Hx. destruct Hx as (y & <- & _). apply in_flat_map in Hx'. destruct Hx' as (b & Hb & Hy). apply in_map_iff in Hy. destruct Hy as (z & E & _). injection E as E _. subst b. contradiction.
Qed.
(** a bijection on streams does not change a sum *)
Lemma rsum_words_perm n (f : list Z -> list Z) (g : list Z -> R) : (forall l, In l (words B n) -> In (f l) (words B n) /\ f (f l) = l) ->
  rsum (words B n) (fun l => g (f l)) = rsum (words B n) g.
Proof.
  intros H. rewrite <- (rsum_map f (words B n) g). apply rsum_perm. apply NoDup_Permutation_bis.
  - assert (G : forall L, NoDup L -> (forall l, In l L -> f (f l) = l) -> NoDup (map f L)).
    { intros L HL. induction HL as [|a L Ha HL IH]; intros E; cbn; constructor.
      - intros K. apply in_map_iff in K. destruct K as (b & Eb & Hb). assert (Q : f (f b) = f (f a)) by now rewrite Eb. rewrite (E b (or_intror Hb)), (E a (or_introl eq_refl)) in Q. subst b. contradiction.
      - apply IH. intros l Hl. apply E. now right. }
    apply G; [apply words_nodup|]. intros l Hl. now apply H.
  - rewrite map_length. apply le_n.
  - intros l Hl. apply in_map_iff in Hl. destruct Hl as (y & <- & Hy). now apply H.
Qed.
Lemma rsum_words_S n g : rsum (words B (S n)) g = rsum (zrange 0 B) (fun a => rsum (words B n) (fun l => g (a :: l))).
Proof. cbn [words]. rewrite rsum_flat_map. apply rsum_ext. intros a _. apply rsum_map. Qed.
Lemma half n (f : list Z -> list Z) (g h : list Z -> R) : (forall l, In l (words B n) -> In (f l) (words B n) /\ f (f l) = l) ->
  (forall l, In l (words B n) -> (g l <= h (f l))%R) -> (rsum (words B n) g <= rsum (words B n) h)%R.
Proof. intros H G. rewrite <- (rsum_words_perm n f h H). apply rsum_le. exact G. Qed.

(** ** changing the words from some position on *)
Definition tail_map (k : nat) (f : list Z -> list Z) (l : list Z) : list Z := firstn k l ++ f (skipn k l).
Lemma tail_map_len k f l : (forall m, length (f m) = length m) -> length (tail_map k f l) = length l.
Proof. intros H. unfold tail_map. rewrite app_length, H, <- app_length. now rewrite firstn_skipn. Qed.
Lemma tail_map_before k f l p : 0 <= p < Z.of_nat k -> (k <= length l)%nat -> word_at (tail_map k f l) p = word_at l p.
Proof.
  intros Hp Hk. unfold word_at, tail_map. rewrite app_nth1 by (rewrite firstn_length; lia). rewrite <- (firstn_skipn k l) at 2. rewrite app_nth1 by (rewrite firstn_length; lia). reflexivity.
Qed.
Lemma tail_map_big k f l : (length l < k)%nat -> f [] = [] -> tail_map k f l = l.
Proof. intros H E. unfold tail_map. rewrite firstn_all2, skipn_all2 by lia. rewrite E. apply app_nil_r. Qed.
Lemma tail_map_below k f l p : f [] = [] -> 0 <= p < Z.of_nat k -> word_at (tail_map k f l) p = word_at l p.
Proof. intros E Hp. destruct (le_lt_dec k (length l)); [now apply tail_map_before|]. now rewrite tail_map_big. Qed.
Lemma skipn_tail k f l : (k <= length l)%nat -> skipn k (tail_map k f l) = f (skipn k l).
Proof. intros Hk. unfold tail_map. rewrite skipn_app, firstn_length, Nat.min_l by exact Hk. rewrite Nat.sub_diag. rewrite skipn_all2 by (rewrite firstn_length; lia). reflexivity. Qed.
Lemma firstn_tail k f l : (k <= length l)%nat -> firstn k (tail_map k f l) = firstn k l.
Proof.
  intros Hk. unfold tail_map. rewrite firstn_app, firstn_length, Nat.min_l by exact Hk. rewrite Nat.sub_diag, firstn_O, app_nil_r. rewrite firstn_firstn. now rewrite Nat.min_id.
Qed.
Lemma word_skip k l p : word_at (skipn k l) p = nth (k + Z.to_nat p) l 0.
Proof. unfold word_at. revert l. induction k as [|k IH]; intros l; [reflexivity|]. destruct l as [|a l]; [cbn; now destruct (Z.to_nat p)|]. cbn [skipn]. apply IH. Qed.
Lemma tail_map_words n k f l : (forall m, Forall word m -> length (f m) = length m /\ Forall word (f m) /\ f (f m) = m) ->
  In l (words B n) -> In (tail_map k f l) (words B n) /\ tail_map k f (tail_map k f l) = l.
Proof.
  intros Hf Hl. apply words_in in Hl. destruct Hl as (L & F). assert (Fs : Forall word (skipn k l) /\ Forall word (firstn k l)).
  { rewrite <- (firstn_skipn k l) in F. apply Forall_app in F. tauto. }
  destruct Fs as (F1 & F2). destruct (Hf _ F1) as (E1 & E2 & E3). split.
  - apply words_in. unfold tail_map. split; [rewrite app_length, E1, <- app_length; now rewrite firstn_skipn|]. apply Forall_app. split; assumption.
  - destruct (le_lt_dec k (length l)) as [Hk|Hk].
    + unfold tail_map at 1. rewrite skipn_tail, firstn_tail by exact Hk. rewrite E3. apply firstn_skipn.
    + assert (f [] = []). { destruct (Hf [] (Forall_nil _)) as (E & _). now destruct (f []). } rewrite !tail_map_big; try assumption; [reflexivity|now rewrite tail_map_big].
Qed.
(** [pos] says from where on the words are changed *)
Definition change (pos : list Z -> option Z) (f : list Z -> list Z) (l : list Z) : list Z :=
  match pos l with Some p => tail_map (Z.to_nat p) f l | None => l end.
Lemma change_words n pos f : (forall m, Forall word m -> length (f m) = length m /\ Forall word (f m) /\ f (f m) = m) ->
  (forall l, In l (words B n) -> forall p, pos l = Some p -> pos (tail_map (Z.to_nat p) f l) = Some p) ->
  forall l, In l (words B n) -> In (change pos f l) (words B n) /\ change pos f (change pos f l) = l.
Proof.
  intros Hf Hp l Hl. unfold change. destruct (pos l) as [p|] eqn:E; [|rewrite E; auto].
  destruct (tail_map_words n (Z.to_nat p) f l Hf Hl) as (A & A'). split; [exact A|]. now rewrite (Hp l Hl p E).
Qed.

(** ** exchanging two sites in a word *)
Variable N : Z.
Hypothesis HN : 0 < N.
Variables a b : Z.
Hypothesis Ha : 0 <= a < N.
Hypothesis Hb : 0 <= b < N.
(** below, every remainder is met equally often *)
Definition top : Z := N * (B / N).
Definition swap_site (r : Z) : Z := if r =? a then b else if r =? b then a else r.
Definition swap_word (x : Z) : Z := if x <? top then N * (x / N) + swap_site (x mod N) else x.
Lemma swap_site_range r : 0 <= r < N -> 0 <= swap_site r < N.
Proof. intros H. unfold swap_site. destruct (r =? a), (r =? b); lia. Qed.
Lemma swap_site_twice r : swap_site (swap_site r) = r.
Proof. unfold swap_site. destruct (Z.eqb_spec r a) as [->|]; [rewrite Z.eqb_refl; destruct (Z.eqb_spec b a); congruence|]. destruct (Z.eqb_spec r b) as [->|]; [now rewrite Z.eqb_refl|]. destruct (Z.eqb_spec r a); [congruence|]. destruct (Z.eqb_spec r b); congruence. Qed.
Lemma block_mod x c : 0 <= c < N -> (N * (x / N) + c) mod N = c.
Proof. intros H. rewrite Z.add_comm, Z.mul_comm, Z.mod_add by lia. now apply Z.mod_small. Qed.
Lemma block_quot x c : 0 <= c < N -> (N * (x / N) + c) / N = x / N.
Proof. intros H. rewrite Z.mul_comm, Z.div_add_l by lia. rewrite (Z.div_small c) by exact H. lia. Qed.
Lemma top_le : top <= B. Proof. unfold top. assert (X := Z.mul_div_le B N HN). lia. Qed.
Lemma block_top x c : x < top -> 0 <= c < N -> N * (x / N) + c < top.
Proof. unfold top. intros Hx Hc. assert (x / N < B / N) by (apply Z.div_lt_upper_bound; lia). nia. Qed.
Lemma block_word x c : word x -> x < top -> 0 <= c < N -> word (N * (x / N) + c).
Proof.
  intros (H1 & H2) Hx Hc. assert (T := block_top x c Hx Hc). assert (L := top_le). assert (0 <= x / N) by (apply Z.div_pos; lia). unfold word. nia.
Qed.
Lemma swap_word_mod x : x < top -> swap_word x mod N = swap_site (x mod N).
Proof. intros H. unfold swap_word. replace (x <? top) with true by lia. apply block_mod. apply swap_site_range. now apply Z.mod_pos_bound. Qed.
Lemma swap_word_word x : word x -> word (swap_word x).
Proof. intros H. unfold swap_word. destruct (Z.ltb_spec x top); [|exact H]. apply block_word; [exact H|assumption|]. apply swap_site_range. now apply Z.mod_pos_bound. Qed.
Lemma swap_word_twice x : swap_word (swap_word x) = x.
Proof.
  unfold swap_word at 2. destruct (Z.ltb_spec x top) as [H|H]; [|unfold swap_word; now replace (x <? top) with false by lia].
  assert (R := swap_site_range (x mod N) (Z.mod_pos_bound x N HN)). unfold swap_word. replace (_ <? top) with true by (symmetry; apply Z.ltb_lt; now apply block_top).
  rewrite (block_mod x _ R), (block_quot x _ R), swap_site_twice. symmetry. apply Z.div_mod. lia.
Qed.
Definition swap_words : list Z -> list Z := map swap_word.
Lemma swap_words_ok m : Forall word m -> length (swap_words m) = length m /\ Forall word (swap_words m) /\ swap_words (swap_words m) = m.
Proof.
  intros F. unfold swap_words. split; [apply map_length|]. split.
  - apply Forall_map. eapply Forall_impl; [|exact F]. exact swap_word_word.
  - rewrite map_map. rewrite <- (map_id m) at 2. apply map_ext. exact swap_word_twice.
Qed.
Lemma swap_words_at n k l p : In l (words B n) -> 0 <= k -> k <= p < Z.of_nat n -> word_at (tail_map (Z.to_nat k) swap_words l) p = swap_word (word_at l p).
Proof.
  intros Hl Hk Hp. apply words_in in Hl. destruct Hl as (L & _). unfold word_at, tail_map. rewrite app_nth2 by (rewrite firstn_length; lia). rewrite firstn_length, Nat.min_l by lia.
  unfold swap_words. rewrite nth_indep with (d' := swap_word 0) by (rewrite map_length, skipn_length; lia). rewrite map_nth. f_equal.
  rewrite <- (Nat2Z.id (Z.to_nat p - Z.to_nat k)). fold (word_at (skipn (Z.to_nat k) l) (Z.of_nat (Z.to_nat p - Z.to_nat k))). rewrite word_skip. f_equal. lia.
Qed.

(** ** exchanging two places (site and spin) in a pair of words *)
Hypothesis HB2 : 2 ^ 31 * 2 = B.
Variables s t : Z.
Hypothesis Hs : 0 <= s <= 1.
Hypothesis Ht : 0 <= t <= 1.
Definition swap_place (r u : Z) : Z * Z := if (r =? a) && (u =? s) then (b, t) else if (r =? b) && (u =? t) then (a, s) else (r, u).
Definition swap_two (x y : Z) : Z * Z :=
  if x <? top then let '(r, u) := swap_place (x mod N) (coin y) in (N * (x / N) + r, y + (u - coin y) * 2 ^ 31) else (x, y).
Fixpoint swap_pairs (l : list Z) : list Z :=
  match l with
  | x :: y :: l => fst (swap_two x y) :: snd (swap_two x y) :: swap_pairs l
  | _ => l
  end.
Lemma swap_place_range r u : 0 <= r < N -> 0 <= u <= 1 -> 0 <= fst (swap_place r u) < N /\ 0 <= snd (swap_place r u) <= 1.
Proof. intros H1 H2. unfold swap_place. destruct (_ && _); [cbn; lia|]. destruct (_ && _); cbn; lia. Qed.
Lemma swap_place_twice r u : swap_place (fst (swap_place r u)) (snd (swap_place r u)) = (r, u).
Proof.
  unfold swap_place. destruct (Z.eqb_spec r a), (Z.eqb_spec u s), (Z.eqb_spec r b), (Z.eqb_spec u t); cbn [andb fst snd]; subst;
    repeat (match goal with |- context [?x =? ?y] => destruct (Z.eqb_spec x y) end; cbn [andb fst snd]); congruence.
Qed.
Lemma coin_word y : word y -> coin y = 0 /\ y < 2 ^ 31 \/ coin y = 1 /\ 2 ^ 31 <= y.
Proof. intros _. unfold coin. destruct (Z.ltb_spec y (2 ^ 31)); lia. Qed.
Lemma coin_move y u : word y -> 0 <= u <= 1 -> coin (y + (u - coin y) * 2 ^ 31) = u /\ word (y + (u - coin y) * 2 ^ 31).
Proof.
  intros Hy Hu. destruct (coin_word y Hy) as [(-> & H)|(-> & H)]; unfold word, coin in *; (assert (u = 0 \/ u = 1) as [-> | ->] by lia);
  match goal with |- context [if ?x <? ?y then _ else _] => destruct (Z.ltb_spec x y) end; lia.
Qed.
Lemma swap_two_ok x y : word x -> word y ->
  let '(x', y') := swap_two x y in word x' /\ word y' /\ (x < top -> (x' mod N, coin y') = swap_place (x mod N) (coin y)) /\ swap_two x' y' = (x, y).
Proof.
  intros Hx Hy. unfold swap_two at 1. destruct (Z.ltb_spec x top) as [H|H].
  2:{ split; [exact Hx|]. split; [exact Hy|]. split; [lia|]. unfold swap_two. now replace (x <? top) with false by lia. }
  assert (R := swap_place_range (x mod N) (coin y) (Z.mod_pos_bound x N HN) (coin_01 y)).
  assert (W := swap_place_twice (x mod N) (coin y)). destruct (swap_place (x mod N) (coin y)) as (r, u) eqn:E. cbn [fst snd] in R, W. destruct R as (R1 & R2).
  destruct (coin_move y u Hy R2) as (C1 & C2). split; [now apply block_word|]. split; [exact C2|].
  assert (M := block_mod x r R1). assert (D := block_quot x r R1).
  split; [intros _; now rewrite M, C1|]. unfold swap_two. replace (_ <? top) with true by (symmetry; apply Z.ltb_lt; now apply block_top).
  rewrite M, C1, W, D. f_equal; [symmetry; apply Z.div_mod; lia|lia].
Qed.
Lemma list_pair_ind (P : list Z -> Prop) : P [] -> (forall x, P [x]) -> (forall x y l, P l -> P (x :: y :: l)) -> forall l, P l.
Proof. intros H0 H1 H2. assert (G : forall l, P l /\ forall x, P (x :: l)) by (induction l as [|y l (IH1 & IH2)]; [auto|split; [apply IH2|intros x; now apply H2]]). intros l. apply G. Qed.
Lemma swap_pairs_ok m : Forall word m -> length (swap_pairs m) = length m /\ Forall word (swap_pairs m) /\ swap_pairs (swap_pairs m) = m.
Proof.
  induction m as [|x|x y m IH] using list_pair_ind; intros F; [auto|auto|]. inversion F as [|? ? Hx F1]; subst. inversion F1 as [|? ? Hy F2]; subst.
  destruct (IH F2) as (E1 & E2 & E3). assert (S := swap_two_ok x y Hx Hy). cbn [swap_pairs]. destruct (swap_two x y) as (x', y'). cbn [fst snd]. destruct S as (S1 & S2 & _ & S3).
  split; [cbn; now rewrite E1|]. split; [constructor; [exact S1|constructor; [exact S2|exact E2]]|]. cbn [swap_pairs]. rewrite S3, E3. reflexivity.
Qed.
Lemma swap_pairs_nth m i : nth (2 * i) (swap_pairs m) 0 = (if (2 * i + 1 <? length m)%nat then fst (swap_two (nth (2 * i) m 0) (nth (2 * i + 1) m 0)) else nth (2 * i) m 0) /\
  nth (2 * i + 1) (swap_pairs m) 0 = (if (2 * i + 1 <? length m)%nat then snd (swap_two (nth (2 * i) m 0) (nth (2 * i + 1) m 0)) else nth (2 * i + 1) m 0).
Proof.
  revert i. induction m as [|x|x y m IH] using list_pair_ind; intros i.
  - cbn. now destruct (2 * i)%nat.
  - replace (2 * i + 1 <? length [x])%nat with false by (symmetry; apply Nat.ltb_ge; cbn; lia). auto.
  - destruct i as [|i]; [auto|]. replace (2 * S i)%nat with (S (S (2 * i))) by lia. replace (S (S (2 * i)) + 1)%nat with (S (S (2 * i + 1))) by lia.
    cbn [swap_pairs nth length]. exact (IH i).
Qed.
Lemma swap_pairs_at n k l p : In l (words B n) -> 0 <= k -> k <= p -> (p - k) mod 2 = 0 -> p + 1 < Z.of_nat n -> word_at l p < top ->
  (word_at (tail_map (Z.to_nat k) swap_pairs l) p mod N, coin (word_at (tail_map (Z.to_nat k) swap_pairs l) (p + 1))) = swap_place (word_at l p mod N) (coin (word_at l (p + 1))).
Proof.
  intros Hl Hk Hp Hm Hn Htop. assert (Hl' := Hl). apply words_in in Hl. destruct Hl as (L & F). set (i := Z.to_nat ((p - k) / 2)).
  assert (Ei : p - k = 2 * Z.of_nat i) by (unfold i; rewrite Z2Nat.id by (apply Z.div_pos; lia); rewrite (Z.div_mod (p - k) 2) at 1 by lia; lia).
  assert (E : forall q, k <= q -> word_at (tail_map (Z.to_nat k) swap_pairs l) q = nth (Z.to_nat (q - k)) (swap_pairs (skipn (Z.to_nat k) l)) 0).
  { intros q Hq. unfold word_at, tail_map. rewrite app_nth2 by (rewrite firstn_length; lia). rewrite firstn_length, Nat.min_l by lia. f_equal. lia. }
  assert (E' : forall q, k <= q -> word_at l q = nth (Z.to_nat (q - k)) (skipn (Z.to_nat k) l) 0).
  { intros q Hq. fold (word_at (skipn (Z.to_nat k) l) (q - k)). rewrite word_skip. unfold word_at. f_equal. lia. }
  rewrite !E by lia. rewrite !E' in * by lia. replace (Z.to_nat (p - k)) with (2 * i)%nat in * by lia. replace (Z.to_nat (p + 1 - k)) with (2 * i + 1)%nat by lia.
  destruct (swap_pairs_nth (skipn (Z.to_nat k) l) i) as (-> & ->). replace (2 * i + 1 <? length (skipn (Z.to_nat k) l))%nat with true by (symmetry; apply Nat.ltb_lt; rewrite skipn_length; lia).
  assert (Fs : Forall word (skipn (Z.to_nat k) l)) by (rewrite <- (firstn_skipn (Z.to_nat k) l) in F; apply Forall_app in F; tauto).
  assert (W : forall j, (j < length (skipn (Z.to_nat k) l))%nat -> word (nth j (skipn (Z.to_nat k) l) 0)) by (intros j Hj; rewrite Forall_forall in Fs; apply Fs; now apply nth_In).
  assert (S := swap_two_ok (nth (2 * i) (skipn (Z.to_nat k) l) 0) (nth (2 * i + 1) (skipn (Z.to_nat k) l) 0)).
  destruct (swap_two _ _) as (x', y'). cbn [fst snd]. apply S; [apply W; rewrite skipn_length; lia|apply W; rewrite skipn_length; lia|exact Htop].
Qed.
(** few streams have a word that is not below [top] *)
Definition bad (l : list Z) : R := if forallb (fun x => x <? top) l then 0%R else 1%R.
Hypothesis HB0 : 0 <= B.
Lemma count_bad : rsum (zrange 0 B) (fun x => if x <? top then 0%R else 1%R) = IZR (B mod N).
Proof.
  assert (X := top_le). assert (Y : 0 <= top) by (unfold top; assert (0 <= B / N) by (apply Z.div_pos; lia); nia).
  rewrite (zrange_app 0 top B) by lia. rewrite rsum_app. rewrite rsum_zero; [|intros x Hx; apply zrange_in in Hx; now replace (x <? top) with true by lia].
  rewrite (rsum_ext _ _ (fun _ => 1%R)) by (intros x Hx; apply zrange_in in Hx; now replace (x <? top) with false by lia).
  rewrite rsum_const. rewrite zrange_length. replace (B mod N) with (B - top) by (unfold top; rewrite (Z.mod_eq B N) by lia; lia).
  rewrite INR_IZR_INZ, Z2Nat.id by lia. ring.
Qed.
Lemma rsum_words_const n c : rsum (words B n) (fun _ => c) = (c * IZR B ^ n)%R.
Proof.
  induction n as [|n IH]; [cbn; ring|]. rewrite rsum_words_S. rewrite (rsum_ext _ _ (fun _ => c * IZR B ^ n)%R) by (intros; exact IH). rewrite rsum_const, zrange_length, Z.sub_0_r, INR_IZR_INZ, Z2Nat.id by exact HB0. cbn [pow]. ring.
Qed.
Lemma bad_le n : (IZR B * rsum (words B n) bad <= INR n * IZR (B mod N) * IZR B ^ n)%R.
Proof.
  assert (PB : (0 <= IZR B)%R) by (apply IZR_le; exact HB0).
  induction n as [|n IH]; [cbn; lra|].
  assert (E : (rsum (words B (S n)) bad <= IZR (B mod N) * IZR B ^ n + IZR B * rsum (words B n) bad)%R).
  { rewrite rsum_words_S. rewrite <- count_bad. apply Rle_trans with (rsum (zrange 0 B) (fun x => (if x <? top then 0 else 1) * IZR B ^ n + rsum (words B n) bad)%R).
    - apply rsum_le. intros x _. rewrite <- (Rmult_1_l (IZR B ^ n)) at 1. rewrite <- rsum_words_const. rewrite <- rsum_scal. rewrite <- rsum_add. apply rsum_le. intros l _. unfold bad. cbn [forallb]. destruct (x <? top), (forallb _ l); cbn [andb]; lra.
    - rewrite rsum_add, rsum_scal_r, rsum_const, zrange_length, Z.sub_0_r, INR_IZR_INZ, Z2Nat.id by exact HB0. lra. }
  rewrite S_INR. cbn [pow]. apply Rle_trans with (IZR B * (IZR (B mod N) * IZR B ^ n + IZR B * rsum (words B n) bad))%R; [now apply Rmult_le_compat_l|].
  apply Rle_trans with (IZR B * (IZR (B mod N) * IZR B ^ n) + IZR B * (INR n * IZR (B mod N) * IZR B ^ n))%R; [|lra].
  rewrite Rmult_plus_distr_l. apply Rplus_le_compat_l. now apply Rmult_le_compat_l.
Qed.
End Words.
(** words below the greatest multiple of N *)
Definition good (N : Z) (l : list Z) : Prop := forall p, 0 <= p < Z.of_nat (length l) -> word_at l p < top wordsize N.
Lemma good_of N l : forallb (fun x => x <? top wordsize N) l = true -> good N l.
Proof. intros H p Hp. rewrite forallb_forall in H. apply Z.ltb_lt, H. unfold word_at. apply nth_In. lia. Qed.
Lemma good_word N n l p : good N l -> In l (words wordsize n) -> 0 <= p < Z.of_nat n -> word_at l p < top wordsize N.
Proof. intros H Hl Hp. apply words_in in Hl. apply H. destruct Hl as (-> & _). exact Hp. Qed.
