From Coq Require Import ZArith List Bool Lia.
From Verif Require Import Base.ZLoop Par.Model.
Import ListNotations.
Local Open Scope Z_scope.
Ltac Zify.zify_post_hook ::= Z.to_euclidean_division_equations.

(** closed form of the start of the range of [rank] *)
Definition sl_start (n rank size : Z) : Z := fst (split_loop n rank size).
Definition sl_end (n rank size : Z) : Z := snd (split_loop n rank size).

Lemma rem_facts n size : 0 <= n -> 1 <= size ->
  exists q m, n = size * q + m /\ 0 <= m < size /\ 0 <= q /\ Z.rem n size = m /\
  Z.quot n size = q /\ Z.quot (n - m) size = q.
Proof.
  intros Hn Hs.
  exists (n / size), (n mod size).
  pose proof (Z.div_mod n size ltac:(lia)).
  pose proof (Z.mod_pos_bound n size ltac:(lia)).
  assert (0 <= n / size) by (apply Z.div_pos; lia).
  repeat split; try lia.
  - apply Z.rem_mod_nonneg; lia.
  - apply Z.quot_div_nonneg; lia.
  - replace (n - n mod size) with ((n / size) * size) by lia.
    rewrite Z.quot_mul; lia.
Qed.

Lemma split_first n size : 0 <= n -> 1 <= size -> sl_start n 0 size = 0.
Proof.
  intros Hn Hs. unfold sl_start, split_loop.
  destruct (rem_facts n size Hn Hs) as (q & m & E & Hm & Hq & -> & -> & ->).
  destruct (size <? n) eqn:?; [|destruct (0 <? n) eqn:?; cbn; lia].
  destruct (m =? 0) eqn:?; cbn [fst]; [lia|].
  destruct (0 <? size - m) eqn:?; cbn [fst]; lia.
Qed.

Lemma split_last n size : 0 <= n -> 1 <= size -> sl_end n (size - 1) size = n.
Proof.
  intros Hn Hs. unfold sl_end, split_loop.
  destruct (rem_facts n size Hn Hs) as (q & m & E & Hm & Hq & -> & -> & ->).
  destruct (size <? n) eqn:?; [|destruct (size - 1 <? n) eqn:?; cbn; lia].
  destruct (m =? 0) eqn:?; cbn [snd]; [nia|].
  destruct (size - 1 <? size - m) eqn:?; cbn [snd]; nia.
Qed.

Lemma split_next n rank size : 0 <= n -> 1 <= size -> 0 <= rank -> rank + 1 < size ->
  sl_start n (rank + 1) size = sl_end n rank size.
Proof.
  intros Hn Hs Hr Hr'. unfold sl_end, sl_start, split_loop.
  destruct (rem_facts n size Hn Hs) as (q & m & E & Hm & Hq & -> & -> & ->).
  destruct (size <? n) eqn:?.
  - destruct (m =? 0) eqn:?; cbn [fst snd]; [lia|].
    destruct (rank <? size - m) eqn:?, (rank + 1 <? size - m) eqn:?; cbn [fst snd]; nia.
  - destruct (rank <? n) eqn:?, (rank + 1 <? n) eqn:?; cbn [fst snd]; lia.
Qed.

Lemma split_len n rank size : 0 <= n -> 1 <= size -> 0 <= rank < size ->
  n / size <= sl_end n rank size - sl_start n rank size <= n / size + 1 /\
  (n mod size = 0 -> sl_end n rank size - sl_start n rank size = n / size).
Proof.
  intros Hn Hs Hr. unfold sl_end, sl_start, split_loop.
  destruct (rem_facts n size Hn Hs) as (q & m & E & Hm & Hq & -> & -> & ->).
  assert (Hd : n / size = q) by (symmetry; apply Z.div_unique with m; lia).
  assert (Hmo : n mod size = m) by (symmetry; apply Z.mod_unique with q; lia).
  rewrite Hd, Hmo.
  destruct (size <? n) eqn:?.
  - destruct (m =? 0) eqn:?; cbn [fst snd]; [lia|].
    destruct (rank <? size - m) eqn:?; cbn [fst snd]; lia.
  - assert (q = 0 \/ (q = 1 /\ m = 0)) by nia.
    destruct (rank <? n) eqn:?; cbn [fst snd]; nia.
Qed.

Lemma split_concat_upto n size k : 0 <= n -> 1 <= size -> 0 <= k <= size ->
  flat_map (fun r => zrange (sl_start n r size) (sl_end n r size)) (zrange 0 k)
  = zrange 0 (if k =? 0 then 0 else sl_end n (k - 1) size).
Proof.
  intros Hn Hs Hk.
  replace k with (Z.of_nat (Z.to_nat k)) in * by lia.
  induction (Z.to_nat k) as [|j IH].
  - cbn. reflexivity.
  - replace (Z.of_nat (S j)) with (Z.of_nat j + 1) in * by lia.
    rewrite zrange_snoc by lia. rewrite flat_map_app, IH by lia. cbn [flat_map].
    rewrite app_nil_r.
    replace (Z.of_nat j + 1 =? 0) with false by lia.
    replace (Z.of_nat j + 1 - 1) with (Z.of_nat j) by lia.
    assert (Hlen : sl_start n (Z.of_nat j) size <= sl_end n (Z.of_nat j) size).
    { pose proof (split_len n (Z.of_nat j) size Hn Hs ltac:(lia)).
      assert (0 <= n / size) by (apply Z.div_pos; lia). lia. }
    destruct (Z.of_nat j =? 0) eqn:E0.
    + assert (Z.of_nat j = 0) as -> by lia.
      rewrite split_first by lia. rewrite (zrange_nil 0 0) by lia. reflexivity.
    + assert (Hc : sl_start n (Z.of_nat j) size = sl_end n (Z.of_nat j - 1) size).
      { replace (Z.of_nat j) with (Z.of_nat j - 1 + 1) at 1 by lia. apply split_next; lia. }
      rewrite <- Hc. rewrite <- zrange_app; [reflexivity| |assumption].
      (* start >= 0 *)
      clear IH Hlen Hc. unfold sl_start, split_loop.
      destruct (rem_facts n size Hn Hs) as (q & m & E & Hm & Hq & -> & -> & ->).
      destruct (size <? n) eqn:?; [|destruct (Z.of_nat j <? n); cbn; lia].
      destruct (m =? 0) eqn:?; cbn [fst]; [nia|].
      destruct (Z.of_nat j <? size - m) eqn:?; cbn [fst]; nia.
Qed.

Lemma split_concat n size : 0 <= n -> 1 <= size ->
  flat_map (fun r => zrange (fst (split_loop n r size)) (snd (split_loop n r size))) (zrange 0 size)
  = zrange 0 n.
Proof.
  intros Hn Hs. pose proof (split_concat_upto n size size Hn Hs ltac:(lia)) as H.
  replace (size =? 0) with false in H by lia.
  rewrite split_last in H by lia. exact H.
Qed.

(** generic: if the concatenation of ranges is a range, every element lies in exactly one *)
Lemma flat_map_zrange_unique (R : list Z) (f g : Z -> Z) n :
  NoDup R -> flat_map (fun r => zrange (f r) (g r)) R = zrange 0 n ->
  forall k, 0 <= k < n -> exists! r, In r R /\ f r <= k < g r.
Proof.
  intros HR HE k Hk.
  assert (Hin : In k (flat_map (fun r => zrange (f r) (g r)) R)) by (rewrite HE; apply zrange_in; lia).
  apply in_flat_map in Hin. destruct Hin as (r & Hr & Hkr). apply zrange_in in Hkr.
  exists r. split; [tauto|].
  intros r' (Hr' & Hk').
  destruct (Z.eq_dec r r') as [E|Hne]; [exact E|exfalso].
  assert (Hnd : NoDup (flat_map (fun r => zrange (f r) (g r)) R)) by (rewrite HE; apply zrange_NoDup).
  clear HE Hk.
  induction R as [|x R IH]; cbn in *; [tauto|].
  inversion HR as [|? ? HxR HR']; subst.
  destruct (NoDup_app_inv _ _ Hnd) as (_ & Hnd' & Hdis).
  destruct Hr as [->|Hr], Hr' as [->|Hr']; try (now apply IH); try congruence.
  - apply (Hdis k); [apply zrange_in; lia|].
    apply in_flat_map. exists r'. split; [assumption|]. apply zrange_in; lia.
  - apply (Hdis k); [apply zrange_in; lia|].
    apply in_flat_map. exists r. split; [assumption|]. apply zrange_in; lia.
Qed.

Lemma split_unique n size : 0 <= n -> 1 <= size ->
  forall k, 0 <= k < n ->
  exists! rank, 0 <= rank < size /\ fst (split_loop n rank size) <= k < snd (split_loop n rank size).
Proof.
  intros Hn Hs k Hk.
  destruct (flat_map_zrange_unique (zrange 0 size) (fun r => fst (split_loop n r size))
              (fun r => snd (split_loop n r size)) n (zrange_NoDup _ _) (split_concat n size Hn Hs) k Hk)
    as (r & (Hr & Hkr) & Hu).
  apply zrange_in in Hr. exists r. split; [tauto|]. intros r' (Hr' & Hk').
  apply Hu. split; [now apply zrange_in|assumption].
Qed.

Lemma split_balanced n size r1 r2 : 0 <= n -> 1 <= size -> 0 <= r1 < size -> 0 <= r2 < size ->
  Z.abs ((snd (split_loop n r1 size) - fst (split_loop n r1 size))
         - (snd (split_loop n r2 size) - fst (split_loop n r2 size))) <= 1.
Proof.
  intros Hn Hs H1 H2.
  pose proof (split_len n r1 size Hn Hs H1). pose proof (split_len n r2 size Hn Hs H2).
  unfold sl_start, sl_end in *. lia.
Qed.

Lemma split_within n size r : 0 <= n -> 1 <= size -> 0 <= r < size ->
  0 <= fst (split_loop n r size) <= snd (split_loop n r size) /\ snd (split_loop n r size) <= n.
Proof.
  intros Hn Hs Hr.
  unfold split_loop.
  destruct (rem_facts n size Hn Hs) as (q & m & E & Hm & Hq & -> & -> & ->).
  destruct (size <? n) eqn:?; [|destruct (r <? n) eqn:?; cbn; lia].
  destruct (m =? 0) eqn:?; cbn [fst snd]; [nia|].
  destruct (r <? size - m) eqn:?; cbn [fst snd]; nia.
Qed.

(** ** multi-definition mode *)
Definition md_first (N size g : Z) : Z :=
  let d := size / N in let m := size mod N in
  if g <? m then g * (d + 1) else m * (d + 1) + (g - m) * d.

Lemma multidef_char N rank size g : 1 <= N -> N <= size -> 0 <= rank < size ->
  multidef_group N rank size = MD_group g <->
  (0 <= g < N /\ md_first N size g <= rank < md_first N size (g + 1)).
Proof.
  intros HN HNs Hr. unfold multidef_group, md_first.
  destruct (rem_facts size N ltac:(lia) HN) as (d & m & E & Hm & Hd & -> & -> & _).
  assert (Hd' : size / N = d) by (symmetry; apply Z.div_unique with m; lia).
  assert (Hm' : size mod N = m) by (symmetry; apply Z.mod_unique with d; lia).
  rewrite Hd', Hm'.
  assert (1 <= d) by nia.
  replace (size <? N) with false by lia. replace (N =? 0) with false by lia.
  replace (d + 1 =? 0) with false by lia. replace (d =? 0) with false by lia.
  destruct (rank <? (d + 1) * m) eqn:Ht.
  - rewrite Z.quot_div_nonneg by lia.
    set (q := rank / (d + 1)).
    assert (Hq : (d + 1) * q <= rank < (d + 1) * q + (d + 1)).
    { unfold q. pose proof (Z.div_mod rank (d + 1) ltac:(lia)).
      pose proof (Z.mod_pos_bound rank (d + 1) ltac:(lia)). lia. }
    clearbody q.
    assert (q < m) by nia. assert (0 <= q) by nia.
    split.
    + intros Eg; injection Eg as <-.
      destruct (q <? m) eqn:?, (q + 1 <? m) eqn:?; try lia; split; try nia.
    + intros (Hg & Hg').
      f_equal. destruct (g <? m) eqn:?, (g + 1 <? m) eqn:?; try lia; nia.
  - rewrite Z.quot_div_nonneg by lia.
    set (q := (rank - (d + 1) * m) / d).
    assert (Hq : d * q <= rank - (d + 1) * m < d * q + d).
    { unfold q. pose proof (Z.div_mod (rank - (d + 1) * m) d ltac:(lia)).
      pose proof (Z.mod_pos_bound (rank - (d + 1) * m) d ltac:(lia)). lia. }
    clearbody q.
    assert (0 <= q) by nia.
    assert (m + q < N) by nia.
    split.
    + intros Eg; injection Eg as <-.
      destruct (m + q <? m) eqn:?, (m + q + 1 <? m) eqn:?; try lia; split; nia.
    + intros (Hg & Hg').
      f_equal. destruct (g <? m) eqn:?, (g + 1 <? m) eqn:?; try lia; nia.
Qed.

Lemma md_first_0 N size : 1 <= N -> N <= size -> md_first N size 0 = 0.
Proof.
  intros. unfold md_first. pose proof (Z.mod_pos_bound size N ltac:(lia)).
  destruct (0 <? size mod N) eqn:?; lia.
Qed.

Lemma md_first_N N size : 1 <= N -> N <= size -> md_first N size N = size.
Proof.
  intros. unfold md_first. pose proof (Z.mod_pos_bound size N ltac:(lia)).
  pose proof (Z.div_mod size N ltac:(lia)).
  destruct (N <? size mod N) eqn:?; nia.
Qed.

Lemma md_first_len N size g : 1 <= N -> N <= size -> 0 <= g < N ->
  size / N <= md_first N size (g + 1) - md_first N size g <= size / N + 1.
Proof.
  intros. unfold md_first. pose proof (Z.mod_pos_bound size N ltac:(lia)).
  destruct (g <? size mod N) eqn:?, (g + 1 <? size mod N) eqn:?; nia.
Qed.

Lemma md_first_mono N size g g' : 1 <= N -> N <= size -> 0 <= g <= g' -> g' <= N ->
  md_first N size g <= md_first N size g'.
Proof.
  intros. unfold md_first. pose proof (Z.mod_pos_bound size N ltac:(lia)).
  assert (0 <= size / N) by (apply Z.div_pos; lia).
  destruct (g <? size mod N) eqn:?, (g' <? size mod N) eqn:?; nia.
Qed.

Lemma multidef_total N rank size : 1 <= N -> N <= size -> 0 <= rank < size ->
  exists g, multidef_group N rank size = MD_group g /\ 0 <= g < N.
Proof.
  intros HN HNs Hr.
  assert (exists g, multidef_group N rank size = MD_group g) as (g & Hg).
  { unfold multidef_group.
    destruct (rem_facts size N ltac:(lia) HN) as (d & m & E & Hm & Hd & -> & -> & _).
    assert (1 <= d) by nia.
    replace (size <? N) with false by lia. replace (N =? 0) with false by lia.
    replace (d + 1 =? 0) with false by lia. replace (d =? 0) with false by lia.
    destruct (rank <? (d + 1) * m); eauto. }
  exists g. split; [assumption|]. apply multidef_char in Hg; tauto.
Qed.

Lemma multidef_mono N r1 r2 size g1 g2 : 1 <= N -> N <= size -> 0 <= r1 <= r2 -> r2 < size ->
  multidef_group N r1 size = MD_group g1 -> multidef_group N r2 size = MD_group g2 -> g1 <= g2.
Proof.
  intros HN HNs Hr Hr2 H1 H2.
  apply multidef_char in H1; [|lia..]. apply multidef_char in H2; [|lia..].
  destruct (Z_le_gt_dec g1 g2) as [|Hgt]; [assumption|exfalso].
  pose proof (md_first_mono N size (g2 + 1) g1 HN HNs ltac:(lia) ltac:(lia)). lia.
Qed.

(** the members of one job *)
Definition md_is (N size g : Z) (rank : Z) : bool :=
  match multidef_group N rank size with MD_group g' => g' =? g | _ => false end.

Lemma filter_range_len a b lo hi (p : Z -> bool) :
  a <= lo -> lo <= hi -> hi <= b ->
  (forall r, a <= r < b -> p r = ((lo <=? r) && (r <? hi))) ->
  Z.of_nat (length (filter p (zrange a b))) = hi - lo.
Proof.
  intros H1 H2 H3 Hp.
  rewrite (zrange_app a lo b), (zrange_app lo hi b) by lia.
  rewrite !filter_app, !app_length.
  assert (Hf : forall c d, a <= c -> d <= b -> (forall r, c <= r < d -> p r = false) ->
    filter p (zrange c d) = []).
  { intros c d Hc Hd Hr.
    destruct (filter p (zrange c d)) as [|x l] eqn:E; [reflexivity|exfalso].
    assert (In x (filter p (zrange c d))) by (rewrite E; left; reflexivity).
    apply filter_In in H. destruct H as (Hx & Hx'). apply zrange_in in Hx.
    rewrite Hr in Hx' by lia. discriminate. }
  assert (Ht : forall c d, (forall r, c <= r < d -> p r = true) -> filter p (zrange c d) = zrange c d).
  { intros c d Hr. assert (Hall : forall x, In x (zrange c d) -> p x = true)
      by (intros x Hx; apply Hr; now apply zrange_in).
    induction (zrange c d) as [|x l IH]; cbn; [reflexivity|].
    rewrite Hall by (left; reflexivity). f_equal. apply IH. intros; apply Hall; now right. }
  rewrite (Hf a lo), (Hf hi b), (Ht lo hi), zrange_length; cbn; try lia;
    intros r Hr; rewrite Hp by lia; lia.
Qed.

Lemma multidef_count N size g : 1 <= N -> N <= size -> 0 <= g < N ->
  Z.of_nat (length (filter (md_is N size g) (zrange 0 size)))
  = md_first N size (g + 1) - md_first N size g.
Proof.
  intros HN HNs Hg.
  pose proof (md_first_len N size g HN HNs Hg).
  assert (0 <= size / N) by (apply Z.div_pos; lia).
  pose proof (md_first_mono N size 0 g HN HNs ltac:(lia) ltac:(lia)) as Hlo.
  pose proof (md_first_mono N size (g + 1) N HN HNs ltac:(lia) ltac:(lia)) as Hhi.
  rewrite md_first_0 in Hlo by lia. rewrite md_first_N in Hhi by lia.
  apply filter_range_len; try lia.
  intros r Hr. unfold md_is.
  destruct (multidef_total N r size HN HNs Hr) as (g' & E & Hg').
  rewrite E. pose proof (proj1 (multidef_char N r size g' HN HNs Hr) E) as (_ & Hr').
  destruct (Z.eqb_spec g' g) as [->|Hne]; [lia|].
  symmetry. apply andb_false_iff.
  destruct (Z.lt_ge_cases g' g).
  - left. pose proof (md_first_mono N size (g' + 1) g HN HNs ltac:(lia) ltac:(lia)). lia.
  - right. pose proof (md_first_mono N size (g + 1) g' HN HNs ltac:(lia) ltac:(lia)). lia.
Qed.

(** ** groups and seeds *)
Lemma seed_iff seed r1 r2 k : 1 <= k -> 0 <= r1 -> 0 <= r2 ->
  (process_seed seed r1 k = process_seed seed r2 k <->
   exists g, g * k <= r1 < (g + 1) * k /\ g * k <= r2 < (g + 1) * k).
Proof.
  intros Hk H1 H2. unfold process_seed, sampling_group.
  rewrite !Z.quot_div_nonneg by lia.
  pose proof (Z.div_mod r1 k ltac:(lia)). pose proof (Z.mod_pos_bound r1 k ltac:(lia)).
  pose proof (Z.div_mod r2 k ltac:(lia)). pose proof (Z.mod_pos_bound r2 k ltac:(lia)).
  split.
  - intros E. exists (r1 / k). nia.
  - intros (g & Hg1 & Hg2).
    rewrite <- (Z.div_unique r1 k g (r1 - k * g)) by lia.
    rewrite <- (Z.div_unique r2 k g (r2 - k * g)) by lia. reflexivity.
Qed.

Lemma group_members size k g : 1 <= k -> 0 <= g -> (g + 1) * k <= size ->
  Z.of_nat (length (filter (fun r => sampling_group r k =? g) (zrange 0 size))) = k.
Proof.
  intros Hk Hg Hs.
  transitivity ((g + 1) * k - g * k); [|lia].
  apply filter_range_len; [lia|lia|lia|].
  intros r Hr. unfold sampling_group. rewrite Z.quot_div_nonneg by lia.
  pose proof (Z.div_mod r k ltac:(lia)). pose proof (Z.mod_pos_bound r k ltac:(lia)).
  destruct (Z.eqb_spec (r / k) g) as [E|Hne]; symmetry.
  - apply andb_true_iff. split; nia.
  - apply andb_false_iff. destruct (Z.lt_ge_cases (r / k) g); [left|right]; nia.
Qed.

Lemma rank1_bij r k : 1 <= k -> 0 <= r ->
  0 <= rank1_of r k < k /\ r = sampling_group r k * k + rank1_of r k.
Proof.
  intros Hk Hr. unfold rank1_of, sampling_group. rewrite Z.quot_div_nonneg by lia.
  pose proof (Z.div_mod r k ltac:(lia)). pose proof (Z.mod_pos_bound r k ltac:(lia)). lia.
Qed.

(** ** chunks *)
Definition covers (calls : list (Z * Z)) (a b : Z) : Prop :=
  flat_map (fun c => zrange (fst c) (fst c + snd c)) calls = zrange a b.

Lemma chunk_loop_spec fuel : forall nSend idx nData acc,
  0 <= idx -> 0 < nSend <= D_MpiSendMax -> nData <= INT_MAX - D_MpiSendMax + 1 ->
  (idx < nData -> nSend = D_MpiSendMax) ->
  idx <= Z.max 0 nData ->
  covers acc 0 idx -> Forall (fun c => 0 < snd c <= D_MpiSendMax) acc ->
  nData - idx <= (Z.of_nat fuel - 1) * D_MpiSendMax -> (1 <= fuel)%nat ->
  exists calls, chunk_loop fuel nSend idx nData acc = CK_done calls /\
    covers calls 0 (Z.max 0 nData) /\ Forall (fun c => 0 < snd c <= D_MpiSendMax) calls.
Proof.
  induction fuel as [|fuel IH]; intros nSend idx nData acc Hi Hs Hmax Heq Hle Hc Hf Hfu Hf1; [lia|].
  cbn [chunk_loop].
  destruct (idx <? nData) eqn:Hlt.
  2:{ exists acc. split; [reflexivity|]. split; [|assumption].
      replace (Z.max 0 nData) with idx by lia. assumption. }
  rewrite (Heq ltac:(lia)) in *.
  replace (INT_MAX <? idx + D_MpiSendMax) with false by (unfold INT_MAX, D_MpiSendMax in *; lia).
  set (n' := if nData <? idx + D_MpiSendMax then nData - idx else D_MpiSendMax).
  assert (Hn' : 0 < n' <= D_MpiSendMax) by (unfold n'; destruct (nData <? idx + D_MpiSendMax) eqn:?; lia).
  apply IH; try lia.
  - intros Hl. unfold n' in *. destruct (nData <? idx + D_MpiSendMax) eqn:?; lia.
  - unfold n' in *. destruct (nData <? idx + D_MpiSendMax) eqn:?; lia.
  - unfold covers in *. rewrite flat_map_app, Hc. cbn [flat_map fst snd].
    rewrite app_nil_r, <- zrange_app by lia. reflexivity.
  - apply Forall_app. split; [assumption|]. constructor; [cbn; assumption|constructor].
  - unfold n' in *. destruct (nData <? idx + D_MpiSendMax) eqn:?; unfold D_MpiSendMax in *; lia.
Qed.

Lemma safe_mpi_calls_spec nData : nData <= INT_MAX - D_MpiSendMax + 1 ->
  exists fuel calls, safe_mpi_calls fuel nData = CK_done calls /\
    flat_map (fun c => zrange (fst c) (fst c + snd c)) calls = zrange 0 nData /\
    Forall (fun c => 0 < snd c <= 1048576) calls.
Proof.
  intros H.
  exists (Z.to_nat (nData / D_MpiSendMax + 2) + 1)%nat.
  destruct (chunk_loop_spec (Z.to_nat (nData / D_MpiSendMax + 2) + 1)%nat D_MpiSendMax 0 nData [])
    as (calls & E & Hc & Hf); try (unfold D_MpiSendMax in *; lia).
  - reflexivity.
  - constructor.
  - exists calls. split; [exact E|]. split; [|exact Hf].
    unfold covers in Hc. rewrite Hc.
    destruct (Z.max_spec 0 nData) as [[? ->]|[? ->]]; [reflexivity|].
    rewrite !zrange_nil by lia. reflexivity.
Qed.

Lemma chunk_mono fuel fuel' nSend idx nData acc calls : (fuel <= fuel')%nat ->
  chunk_loop fuel nSend idx nData acc = CK_done calls ->
  chunk_loop fuel' nSend idx nData acc = CK_done calls.
Proof.
  revert fuel' nSend idx acc. induction fuel as [|fuel IH]; cbn; intros fuel' nSend idx acc Hle H;
    [discriminate|].
  destruct fuel' as [|fuel']; [lia|]. cbn.
  destruct (idx <? nData); [|assumption].
  destruct (INT_MAX <? idx + nSend); [discriminate|].
  apply IH; [lia|assumption].
Qed.

(** effect of the whole sequence of Allreduce calls *)
Lemma allreduce_effect {V} add (zero : V) sends calls recv j :
  fold_left (mpi_allreduce_call add zero sends) calls recv j
  = if existsb (Z.eqb j) (flat_map (fun c => zrange (fst c) (fst c + snd c)) calls)
    then fold_right (fun s acc => add (s j) acc) zero sends else recv j.
Proof.
  revert recv. induction calls as [|c calls IH]; cbn [fold_left flat_map existsb]; intros recv; [reflexivity|].
  rewrite IH, existsb_app. unfold mpi_allreduce_call.
  destruct (existsb (Z.eqb j) (flat_map _ calls)) eqn:E1; [now rewrite orb_true_r|].
  rewrite orb_false_r.
  destruct (existsb (Z.eqb j) (zrange (fst c) (fst c + snd c))) eqn:E2.
  - apply existsb_exists in E2. destruct E2 as (x & Hx & Hj). apply zrange_in in Hx.
    replace ((fst c <=? j) && (j <? fst c + snd c)) with true by lia. reflexivity.
  - destruct ((fst c <=? j) && (j <? fst c + snd c)) eqn:E3; [|reflexivity].
    exfalso. assert (existsb (Z.eqb j) (zrange (fst c) (fst c + snd c)) = true); [|congruence].
    apply existsb_exists. exists j. split; [apply zrange_in; lia|lia].
Qed.

Lemma bcast_effect {V} (root : Z -> V) calls buff j :
  fold_left (mpi_bcast_call root) calls buff j
  = if existsb (Z.eqb j) (flat_map (fun c => zrange (fst c) (fst c + snd c)) calls)
    then root j else buff j.
Proof.
  revert buff. induction calls as [|c calls IH]; cbn [fold_left flat_map existsb]; intros buff; [reflexivity|].
  rewrite IH, existsb_app. unfold mpi_bcast_call.
  destruct (existsb (Z.eqb j) (flat_map _ calls)) eqn:E1; [now rewrite orb_true_r|].
  rewrite orb_false_r.
  destruct (existsb (Z.eqb j) (zrange (fst c) (fst c + snd c))) eqn:E2.
  - apply existsb_exists in E2. destruct E2 as (x & Hx & Hj). apply zrange_in in Hx.
    replace ((fst c <=? j) && (j <? fst c + snd c)) with true by lia. reflexivity.
  - destruct ((fst c <=? j) && (j <? fst c + snd c)) eqn:E3; [|reflexivity].
    exfalso. assert (existsb (Z.eqb j) (zrange (fst c) (fst c + snd c)) = true); [|congruence].
    apply existsb_exists. exists j. split; [apply zrange_in; lia|lia].
Qed.

Lemma existsb_zrange j n : existsb (Z.eqb j) (zrange 0 n) = ((0 <=? j) && (j <? n)).
Proof.
  destruct (existsb (Z.eqb j) (zrange 0 n)) eqn:E.
  - apply existsb_exists in E. destruct E as (x & Hx & Hj). apply zrange_in in Hx. lia.
  - destruct ((0 <=? j) && (j <? n)) eqn:E2; [|reflexivity].
    exfalso. assert (existsb (Z.eqb j) (zrange 0 n) = true); [|congruence].
    apply existsb_exists. exists j. split; [apply zrange_in; lia|lia].
Qed.

Lemma chunk_overflow_at n : INT_MAX - D_MpiSendMax + 1 < n <= INT_MAX ->
  forall k idx acc fuel, idx = D_MpiSendMax * Z.of_nat k -> (k <= 2047)%nat -> (2048 - k <= fuel)%nat ->
  chunk_loop fuel D_MpiSendMax idx n acc = CK_overflow.
Proof.
  intros Hn k. remember (2047 - k)%nat as j eqn:Hj. revert k Hj.
  induction j as [|j IH]; intros k Hj idx acc fuel Hi Hk Hf.
  - destruct fuel as [|fuel]; [lia|]. cbn [chunk_loop].
    assert (k = 2047)%nat by lia. subst k.
    replace (idx <? n) with true by (unfold INT_MAX, D_MpiSendMax in *; lia).
    replace (INT_MAX <? idx + D_MpiSendMax) with true by (unfold INT_MAX, D_MpiSendMax in *; lia).
    reflexivity.
  - destruct fuel as [|fuel]; [lia|]. cbn [chunk_loop].
    replace (idx <? n) with true by (unfold INT_MAX, D_MpiSendMax in *; lia).
    replace (INT_MAX <? idx + D_MpiSendMax) with false by (unfold INT_MAX, D_MpiSendMax in *; lia).
    replace (n <? idx + D_MpiSendMax) with false by (unfold INT_MAX, D_MpiSendMax in *; lia).
    apply (IH (S k)); lia.
Qed.

Lemma chunk_overflow_all nData : INT_MAX - D_MpiSendMax + 1 < nData <= INT_MAX ->
  forall fuel, (2048 <= fuel)%nat -> safe_mpi_calls fuel nData = CK_overflow.
Proof. intros H fuel Hf. apply (chunk_overflow_at nData H 0%nat); lia. Qed.

Lemma chunked_allreduce (V : Type) (add : V -> V -> V) (zero : V) sends nData recv :
  nData <= INT_MAX - D_MpiSendMax + 1 ->
  exists fuel calls, safe_mpi_calls fuel nData = CK_done calls /\
  forall j, fold_left (mpi_allreduce_call add zero sends) calls recv j
    = if (0 <=? j) && (j <? nData) then fold_right (fun s acc => add (s j) acc) zero sends else recv j.
Proof.
  intros H. destruct (safe_mpi_calls_spec nData H) as (fuel & calls & E & Hc & _).
  exists fuel, calls. split; [assumption|]. intros j.
  rewrite allreduce_effect, Hc, existsb_zrange. reflexivity.
Qed.

Lemma chunked_bcast (V : Type) (root : Z -> V) nData buff :
  nData <= INT_MAX - D_MpiSendMax + 1 ->
  exists fuel calls, safe_mpi_calls fuel nData = CK_done calls /\
  forall j, fold_left (mpi_bcast_call root) calls buff j
    = if (0 <=? j) && (j <? nData) then root j else buff j.
Proof.
  intros H. destruct (safe_mpi_calls_spec nData H) as (fuel & calls & E & Hc & _).
  exists fuel, calls. split; [assumption|]. intros j.
  rewrite bcast_effect, Hc, existsb_zrange. reflexivity.
Qed.

Lemma multidef_zero : exists N rank size,
  N <= size /\ 0 <= rank < size /\ multidef_group N rank size = MD_undefined.
Proof. exists 0, 0, 4. vm_compute. repeat split; congruence. Qed.

Lemma multidef_job_size N size g : 1 <= N -> N <= size -> 0 <= g < N ->
  1 <= size / N /\
  size / N <= Z.of_nat (length (filter (fun r => match multidef_group N r size with
                                     | MD_group g' => g' =? g | _ => false end) (zrange 0 size)))
    <= size / N + 1.
Proof.
  intros HN HNs Hg. split; [apply Z.div_le_lower_bound; lia|].
  pose proof (multidef_count N size g HN HNs Hg) as H. unfold md_is in H. rewrite H.
  now apply md_first_len.
Qed.
