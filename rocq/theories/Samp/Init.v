(** Random streams that bring the construction of the initial configuration to its end. *)
From Coq Require Import ZArith List Bool Lia.
From Verif Require Import Base.ZLoop Base.Checked Proj.Model Proj.Spec Proj.Proofs.
From Verif Require Import Samp.Prog Samp.Model Samp.Spec Samp.Hoare Samp.Config Samp.Proofs Samp.ProofsF Samp.ProofsI Samp.Trace.
Import ListNotations.
Local Open Scope Z_scope.

(** counting *)
Definition ind (b : bool) : Z := if b then 1 else 0.
Lemma count_exists (l : list Z) (P : Z -> bool) : 0 < zsum l (fun x => ind (P x)) -> exists x, In x l /\ P x = true.
Proof.
  intros H. destruct (existsb P l) eqn:E; [apply existsb_exists in E; exact E|].
  exfalso. rewrite zsum_zero in H; [lia|]. intros x Hx. destruct (P x) eqn:Ex; [|reflexivity].
  assert (existsb P l = true) by (apply existsb_exists; eauto). congruence.
Qed.
Lemma count_upd a b k (P Q : Z -> bool) : a <= k < b -> (forall x, a <= x < b -> x <> k -> Q x = P x) ->
  zsum (zrange a b) (fun x => ind (Q x)) = zsum (zrange a b) (fun x => ind (P x)) - ind (P k) + ind (Q k).
Proof.
  intros Hk H. rewrite (zsum_range_split1 a b k) by assumption. rewrite (zsum_range_split1 a b k (fun x => ind (P x))) by assumption.
  rewrite (zsum_ext _ (fun x => if x =? k then 0 else ind (Q x)) (fun x => if x =? k then 0 else ind (P x))); [lia|].
  intros x Hx. apply zrange_in in Hx. destruct (Z.eqb_spec x k); [reflexivity|]. now rewrite H.
Qed.
Lemma count_pos a b k (P : Z -> bool) : a <= k < b -> P k = true -> 0 < zsum (zrange a b) (fun x => ind (P x)).
Proof.
  intros Hk H. rewrite (zsum_range_split1 a b k) by assumption. rewrite H. cbn [ind].
  assert (0 <= zsum (zrange a b) (fun x => if x =? k then 0 else ind (P x))); [|lia].
  apply zsum_nonneg. intros x _. destruct (x =? k); [lia|]. destruct (P x); cbn; lia.
Qed.

(** ** Streams *)
Definition bounded (ws : list Z) : Prop := Forall (fun w => 0 <= w < 2 ^ 32) ws.
Section Steer.
Variable Orc : oracles.
Variable n : nat.
Notation prog := (Prog.prog (K Orc) (event (L Orc))).
(** with the words ws from position p on, the program returns a *)
Definition steers {A} (M : (Z -> Z) -> prog A) (p : Z) (ws : list Z) (a : A) : Prop :=
  forall rn, (forall i, (i < length ws)%nat -> rn (p + Z.of_nat i) = nth i ws 0) -> M rn = Ret a.
Lemma steers_bind {A B} (M : (Z -> Z) -> prog A) (F : (Z -> Z) -> A -> prog B) p ws a ws' b :
  steers M p ws a -> steers (fun rn => F rn a) (p + Z.of_nat (length ws)) ws' b ->
  steers (fun rn => bindP (M rn) (F rn)) p (ws ++ ws') b.
Proof.
  intros H1 H2 rn Hr. rewrite H1; [cbn [bindP]; apply H2|].
  - intros i Hi. specialize (Hr (length ws + i)%nat). rewrite app_length in Hr.
    rewrite Nat2Z.inj_add, app_nth2 in Hr by lia. replace (length ws + i - length ws)%nat with i in Hr by lia.
    rewrite <- Hr by lia. f_equal. lia.
  - intros i Hi. rewrite Hr by (rewrite app_length; lia). now rewrite app_nth1.
Qed.
Definition fpos (f : fill_st) : Z := fst (fst f).
Lemma steers_forM (P : Z -> fill_st -> Prop) (body : (Z -> Z) -> Z -> fill_st -> prog fill_st) a b :
  (forall i f, a <= i < b -> P i f -> exists ws f', bounded ws /\ steers (fun rn => body rn i f) (fpos f) ws f' /\
      fpos f' = fpos f + Z.of_nat (length ws) /\ P (i + 1) f') ->
  a <= b -> forall f, P a f -> exists ws f', bounded ws /\ steers (fun rn => forM (zrange a b) (body rn) f) (fpos f) ws f' /\
      fpos f' = fpos f + Z.of_nat (length ws) /\ P b f'.
Proof.
  intros Hb Hab. remember (Z.to_nat (b - a)) as k eqn:Ek. revert a Hb Hab Ek.
  induction k as [|k IH]; intros a Hb Hab Ek f Hf.
  - assert (a = b) by lia. subst a. exists [], f. rewrite zrange_nil by lia. cbn. repeat split; [constructor|lia|assumption].
  - destruct (Hb a f ltac:(lia) Hf) as (ws & f1 & B1 & S1 & E1 & P1).
    destruct (IH (a + 1) ltac:(intros; apply Hb; [lia|assumption]) ltac:(lia) ltac:(lia) f1 P1) as (ws2 & f2 & B2 & S2 & E2 & P2).
    exists (ws ++ ws2), f2. split; [now apply Forall_app|]. split; [|split; [rewrite app_length; lia|assumption]].
    rewrite zrange_cons by lia. cbn [forM]. apply (steers_bind _ (fun rn f => forM (zrange (a + 1) b) (body rn) f) _ _ f1); [exact S1|].
    rewrite <- E1. exact S2.
Qed.
Lemma steers_ext {A} (M M' : (Z -> Z) -> prog A) p ws a : (forall rn, M rn = M' rn) -> steers M p ws a -> steers M' p ws a.
Proof. intros H S rn Hr. rewrite <- H. now apply S. Qed.
Lemma steers_nil {A} (M : (Z -> Z) -> prog A) p a : (forall rn, M rn = Ret a) -> steers M p [] a.
Proof. intros H rn _. apply H. Qed.
(** the stream *)
Definition stream (p : Z) (ws : list Z) (q : Z) : Z := nth (Z.to_nat (q - p)) ws 0.
Lemma steers_stream {A} (M : (Z -> Z) -> prog A) p ws a : steers M p ws a -> M (stream p ws) = Ret a.
Proof. intros H. apply H. intros i Hi. unfold stream. f_equal. lia. Qed.
Lemma stream_bounded p ws q : bounded ws -> 0 <= stream p ws q < 2 ^ 32.
Proof.
  intros H. unfold stream. destruct (Nat.lt_ge_cases (Z.to_nat (q - p)) (length ws)) as [Hl|Hl].
  - unfold bounded in H. rewrite Forall_forall in H. apply H. now apply nth_In.
  - rewrite nth_overflow by assumption. lia.
Qed.
End Steer.

(** programs without choice *)
Definition total {K E A} (P : prog K E A) : Prop := exists a, P = Ret a.
Lemma forM_total {K E S} (l : list Z) (f : Z -> S -> prog K E S) s : (forall i s, In i l -> total (f i s)) -> total (forM l f s).
Proof.
  revert s. induction l as [|i l IH]; intros s H; [now exists s|]. cbn [forM].
  destruct (H i s ltac:(now left)) as (s1 & ->). cbn [bindP]. apply IH. intros; apply H; now right.
Qed.

Section Init.
Variable I : input.
Hypothesis wf : wf_input I.
Notation N := (Nsite (T I)).
Notation M := (2 * Ne I).
Hypothesis Hbig : N <= 2 ^ 32 /\ M <= 2 ^ 32.
Variable Orc : oracles.
Variable n : nat.
Notation prog := (Prog.prog (K Orc) (event (L Orc))).
Notation O' rn := (with_stream Orc rn (S n)).
Let HT : wf_tables (T I) := wf_T I wf.
Let HN : 0 < N := wf_sites I wf.
Let HNe : 0 < Ne I := wf_ne I wf.
Notation loc r := (LocSpn I r =? 1).

Section Count.
Variable spn : Z -> Z.
Hypothesis Hspn : forall x, 0 <= x < M -> 0 <= spn x <= 1.
(** electrons of spin s without a site; sites that are not local and hold an electron of spin s *)
Definition Free (s : Z) (idx : Z -> Z) : Z := zsum (zrange 0 M) (fun x => ind ((spn x =? s) && (idx x =? -1))).
Definition Occ (s : Z) (cfg : Z -> Z) : Z := zsum (zrange 0 N) (fun r => ind (negb (loc r) && negb (cfg (r + s * N) =? -1))).
Definition lcount (k : Z) : Z := zsum (zrange 0 k) (fun r => ind (loc r)).
Variables (U D a b : Z).
Hypothesis Hab : a + b = lcount N /\ a <= U /\ b <= D /\ U - a <= N - lcount N /\ D - b <= N - lcount N.
Definition JL (k : Z) (f : fill_st) : Prop := let '(_, idx, cfg) := f in
  exists x y, x + y = lcount k /\ x <= a /\ y <= b /\ Free 0 idx = U - x /\ Free 1 idx = D - y /\
    (forall r s, 0 <= r < N -> 0 <= s <= 1 -> LocSpn I r <> 1 -> cfg (r + s * N) = -1).
Definition JI (f : fill_st) : Prop := let '(_, idx, cfg) := f in
  Free 0 idx + Occ 0 cfg <= N - lcount N /\ Free 1 idx + Occ 1 cfg <= N - lcount N.

Lemma lcount_step k : 0 <= k -> lcount (k + 1) = lcount k + ind (loc k).
Proof. intros Hk. unfold lcount. rewrite zrange_snoc, zsum_app by lia. cbn [zsum fold_right]. lia. Qed.
Lemma lcount_le k : 0 <= k <= N -> lcount k <= lcount N.
Proof.
  intros Hk. unfold lcount. rewrite (zsum_range_app 0 k N) by lia.
  assert (0 <= zsum (zrange k N) (fun r => ind (loc r))); [|lia]. apply zsum_nonneg. intros r _. destruct (loc r); cbn; lia.
Qed.
Lemma Free_place x r idx s : 0 <= x < M -> idx x = -1 -> r <> -1 -> Free s (upd idx x r) = Free s idx - ind (spn x =? s).
Proof.
  intros Hx Hi Hr. unfold Free. rewrite (count_upd 0 M x (fun x => (spn x =? s) && (idx x =? -1))); [|lia|].
  - rewrite upd_same, Hi. replace (r =? -1) with false by lia. cbn. rewrite andb_true_r, andb_false_r. cbn. lia.
  - intros y Hy Hne. now rewrite upd_other.
Qed.
Lemma Occ_place r v cfg s t : 0 <= r < N -> 0 <= s <= 1 -> 0 <= t <= 1 -> LocSpn I r <> 1 -> cfg (r + t * N) = -1 -> v <> -1 ->
  Occ s (upd cfg (r + t * N) v) = Occ s cfg + ind (t =? s).
Proof.
  intros Hr Hs Ht Hl Hc Hv. unfold Occ. destruct (Z.eqb_spec t s) as [->|Hne]; cbn [ind].
  - rewrite (count_upd 0 N r (fun r => negb (loc r) && negb (cfg (r + s * N) =? -1))); [|lia|].
    + rewrite upd_same, Hc. replace (v =? -1) with false by lia. replace (loc r) with false by lia. cbn. lia.
    + intros q Hq Hne. rewrite upd_other; [reflexivity|]. intros E. apply cell_inj in E; lia.
  - rewrite Z.add_0_r. apply zsum_ext. intros q Hq. apply zrange_in in Hq. rewrite upd_other; [reflexivity|].
    intros E. apply cell_inj in E; lia.
Qed.
Lemma Free_exists s idx : 0 < Free s idx -> exists x, 0 <= x < M /\ spn x = s /\ idx x = -1.
Proof.
  intros H. apply count_exists in H. destruct H as (x & Hx & E). apply zrange_in in Hx. exists x. lia.
Qed.
Lemma site_exists s cfg : Occ s cfg < N - lcount N -> exists r, 0 <= r < N /\ LocSpn I r <> 1 /\ cfg (r + s * N) = -1.
Proof.
  intros H.
  assert (E : 0 < zsum (zrange 0 N) (fun r => ind (negb (loc r) && (cfg (r + s * N) =? -1)))).
  { assert (zsum (zrange 0 N) (fun r => ind (negb (loc r) && (cfg (r + s * N) =? -1))) + Occ s cfg + lcount N = N); [|lia].
    unfold Occ, lcount. rewrite <- !zsum_add. rewrite (zsum_ext _ _ (fun _ => 1)).
    - rewrite zsum_const, zrange_length. lia.
    - intros r _. destruct (loc r), (cfg (r + s * N) =? -1); reflexivity. }
  apply count_exists in E. destruct E as (r & Hr & E). apply zrange_in in Hr. exists r. lia.
Qed.

Lemma JL_start p idx cfg : Free 0 idx = U -> Free 1 idx = D -> (forall i, 0 <= i < 2 * N -> cfg i = -1) -> 0 <= a -> 0 <= b -> JL 0 (p, idx, cfg).
Proof.
  intros H0 H1 Hc Ha Hb. exists 0, 0. unfold lcount. cbn. repeat split; try lia. intros r s Hr Hs _. apply Hc. now apply cell_range.
Qed.
Lemma JL_skip k p idx cfg : 0 <= k -> LocSpn I k <> 1 -> JL k (p, idx, cfg) -> JL (k + 1) (p, idx, cfg).
Proof.
  intros Hk Hl (x & y & H). exists x, y. rewrite lcount_step by assumption. replace (loc k) with false by lia. cbn [ind]. rewrite Z.add_0_r. exact H.
Qed.
(** a suitable electron for the local spin at site k *)
Lemma JL_choose k p idx cfg : 0 <= k < N -> LocSpn I k = 1 -> JL k (p, idx, cfg) ->
  exists x, 0 <= x < M /\ idx x = -1 /\ forall p' v, JL (k + 1) (p', upd idx x k, upd cfg (k + spn x * N) v).
Proof.
  intros Hk Hl (x & y & E & Hx & Hy & F0 & F1 & Hc). pose proof (lcount_le (k + 1) ltac:(lia)) as Hle.
  rewrite lcount_step in Hle by lia. replace (loc k) with true in Hle by lia. cbn [ind] in Hle.
  assert (Hch : exists s, 0 <= s <= 1 /\ 0 < Free s idx /\ (s = 0 -> x < a) /\ (s = 1 -> y < b)).
  { destruct (Z.lt_ge_cases x a); [exists 0|exists 1]; rewrite ?F0, ?F1; lia. }
  destruct Hch as (s & Hs & HF & H0 & H1). destruct (Free_exists s idx HF) as (e & He & Es & Ei).
  exists e. split; [assumption|]. split; [assumption|]. intros p' v.
  exists (x + ind (s =? 0)), (y + ind (s =? 1)). rewrite lcount_step by lia. replace (loc k) with true by lia.
  rewrite !Free_place by (assumption || lia). rewrite Es. cbn [ind].
  assert (s = 0 \/ s = 1) as [->| ->] by lia; cbn [Z.eqb Pos.eqb ind];
    [specialize (H0 eq_refl); clear H1|specialize (H1 eq_refl); clear H0]; repeat split; try lia; try
    (intros r t Hr Ht Hlr; rewrite upd_other; [now apply Hc|]; intros E'; apply cell_inj in E'; try lia; destruct E' as (-> & _); congruence).
Qed.
Lemma JL_end p idx cfg : JL N (p, idx, cfg) -> JI (p, idx, cfg).
Proof.
  intros (x & y & E & Hx & Hy & F0 & F1 & Hc). unfold JI.
  assert (Z0 : forall s, 0 <= s <= 1 -> Occ s cfg = 0).
  { intros s Hs. unfold Occ. apply zsum_zero. intros r Hr. apply zrange_in in Hr.
    destruct (loc r) eqn:El; [reflexivity|]. rewrite Hc by lia. reflexivity. }
  rewrite !Z0 by lia. lia.
Qed.
(** a suitable site for electron x *)
Lemma JI_choose p idx cfg x : 0 <= x < M -> idx x = -1 -> JI (p, idx, cfg) ->
  exists r, 0 <= r < N /\ LocSpn I r <> 1 /\ cfg (r + spn x * N) = -1 /\
    forall p' v, v <> -1 -> JI (p', upd idx x r, upd cfg (r + spn x * N) v).
Proof.
  intros Hx Hi (H0 & H1). pose proof (Hspn x Hx) as Hs.
  assert (HF : 0 < Free (spn x) idx).
  { apply (count_pos 0 M x); [lia|]. rewrite Hi, Z.eqb_refl. reflexivity. }
  destruct (site_exists (spn x) cfg) as (r & Hr & Hl & Hc).
  { assert (spn x = 0 \/ spn x = 1) as [E|E] by lia; rewrite E in *; lia. }
  exists r. repeat (split; [assumption|]). intros p' v Hv. unfold JI.
  rewrite !Free_place by (assumption || lia). rewrite !Occ_place by (assumption || lia).
  assert (spn x = 0 \/ spn x = 1) as [E|E] by lia; rewrite E; cbn [Z.eqb Pos.eqb ind]; lia.
Qed.
Lemma steers_site p idx cfg x : 0 <= x < M -> JI (p, idx, cfg) -> idx x = -1 -> exists r, 0 <= r < N /\
  (forall q, steers Orc (fun rn => search (S n) (pick_site I (O' rn) cfg (spn x)) q) q [r] (q + 1, r)) /\
  forall p' v, v <> -1 -> JI (p', upd idx x r, upd cfg (r + spn x * N) v).
Proof.
  intros Hx HJ Hi. destruct (JI_choose p idx cfg x Hx Hi HJ) as (r & Hr & Hl & Hc & HJ').
  pose proof (Hspn x Hx) as Hs.
  exists r. split; [assumption|]. split; [|exact HJ']. intros q rn Hrn. specialize (Hrn 0%nat ltac:(cbn; lia)). cbn in Hrn. rewrite Z.add_0_r in Hrn.
  cbn [search]. unfold pick_site. cbn [rnd with_stream]. rewrite Hrn. rewrite umod_ok by assumption. cbn [bindP].
  rewrite Z.mod_small by assumption. rewrite get_ok by now apply cell_range. cbn [bindP]. rewrite Hc. cbn [Z.eqb Pos.eqb].
  rewrite get_ok by assumption. cbn [bindP]. replace (loc r) with false by lia. reflexivity.
Qed.
End Count.

Lemma coin_word s : 0 <= s <= 1 -> exists w, 0 <= w < 2 ^ 32 /\ coin w = s.
Proof. intros Hs. assert (s = 0 \/ s = 1) as [->| ->] by lia; [exists 0|exists (2 ^ 31)]; split; try reflexivity; lia. Qed.
Lemma fill_total m v a : (total (fill Orc m v a : prog _)).
Proof. unfold fill. apply forM_total. intros i s Hi. apply zrange_in in Hi. rewrite put_ok by assumption. now eexists. Qed.
Lemma fill_num_total cfg a : (total (fill_num I Orc cfg a : prog _)).
Proof.
  unfold fill_num. apply forM_total. intros i s Hi. apply zrange_in in Hi. rewrite get_ok by assumption. cbn [bindP].
  rewrite put_ok by assumption. now eexists.
Qed.
Lemma ret_safe {A} (Q : A -> Prop) (P : prog A) a : safe (fun _ => True) Q P -> P = Ret a -> Q a.
Proof. intros S ->. exact S. Qed.

(** ** Sz-conserving version *)
Section Csz.
Variables (a b : Z).
Hypothesis Ha : 0 <= a. Hypothesis Hb : 0 <= b.
Hypothesis Hab : a + b = lcount N /\ a <= Ne I /\ b <= Ne I /\ Ne I - a <= N - lcount N /\ Ne I - b <= N - lcount N.
Notation spn := (spn0 (Ne I)).
Lemma spn0_range x : 0 <= x < M -> 0 <= spn x <= 1.
Proof. intros Hx. unfold spn0. destruct (_ <? _); lia. Qed.
Lemma elec_split x : 0 <= x < M -> exists mi, 0 <= mi < Ne I /\ x = mi + spn x * Ne I.
Proof. intros Hx. unfold spn0. destruct (Z.ltb_spec x (Ne I)); [exists x|exists (x - Ne I)]; lia. Qed.

Lemma steers_local k f : 0 <= k < N -> JL spn (Ne I) (Ne I) a b k f ->
  exists ws f', bounded ws /\ steers Orc (fun rn => place_local I (O' rn) k f) (fpos f) ws f' /\
    fpos f' = fpos f + Z.of_nat (length ws) /\ JL spn (Ne I) (Ne I) a b (k + 1) f'.
Proof.
  intros Hk. destruct f as ((p, idx), cfg). intros HJ. destruct (Z.eq_dec (LocSpn I k) 1) as [El|El].
  - destruct (JL_choose spn spn0_range _ _ _ _ Hab k p idx cfg Hk El HJ) as (x & Hx & Hi & HJ').
    destruct (elec_split x Hx) as (mi & Hm & Ex). pose proof (spn0_range x Hx) as Hs.
    destruct (coin_word (spn x) Hs) as (cw & Hcw & Ecw).
    exists [mi; cw], (p + 2, upd idx x k, upd cfg (k + spn x * N) mi). split; [|split; [|split]].
    + repeat constructor; lia.
    + cbn [fpos fst]. intros rn Hrn. pose proof (Hrn 0%nat ltac:(cbn; lia)) as R0. pose proof (Hrn 1%nat ltac:(cbn; lia)) as R1.
      cbn in R0, R1. rewrite Z.add_0_r in R0.
      unfold place_local. rewrite get_ok by assumption. cbn [bindP]. rewrite El. cbn [Z.eqb Pos.eqb fuel with_stream search].
      unfold pick_free at 1. cbn [rnd with_stream]. rewrite R0, R1, Ecw. rewrite umod_ok by assumption. cbn [bindP].
      rewrite Z.mod_small by assumption. rewrite <- Ex. rewrite get_ok by assumption. cbn [bindP fst snd]. rewrite Hi. cbn [Z.eqb Pos.eqb bindP].
      rewrite put_ok by now apply cell_range. cbn [bindP]. rewrite <- Ex. rewrite put_ok by assumption. reflexivity.
    + cbn. lia.
    + apply HJ'.
  - exists [], (p, idx, cfg). split; [constructor|]. split; [|split; [cbn; lia|]].
    + apply steers_nil. intros rn. unfold place_local. rewrite get_ok by assumption. cbn [bindP].
      replace (loc k) with false by lia. reflexivity.
    + apply JL_skip; try exact spn0_range; assumption || lia.
Qed.
Lemma steers_itinerant si mi f : 0 <= si <= 1 -> 0 <= mi < Ne I -> JI spn f ->
  exists ws f', bounded ws /\ steers Orc (fun rn => place_itinerant I (O' rn) si mi f) (fpos f) ws f' /\
    fpos f' = fpos f + Z.of_nat (length ws) /\ JI spn f'.
Proof.
  intros Hs Hm. destruct f as ((p, idx), cfg). intros HJ. destruct (spn0_at I wf mi si Hm Hs) as (Es & Hx).
  destruct (Z.eq_dec (idx (mi + si * Ne I)) (-1)) as [Ei|Ei].
  - destruct (steers_site spn spn0_range p idx cfg _ Hx HJ Ei) as (r & Hr & S1 & HJ'). rewrite Es in S1, HJ'.
    exists [r], (p + 1, upd idx (mi + si * Ne I) r, upd cfg (r + si * N) mi). split; [|split; [|split]].
    + repeat constructor; lia.
    + cbn [fpos fst]. eapply steers_ext; [|change [r] with ([r] ++ []);
        apply (steers_bind _ _ (fun rn pr => let '(p', ri) := pr in
             cfg' <~ put (2 * N) cfg (ri + si * N) mi;; idx' <~ put M idx (mi + si * Ne I) ri;; Ret (p', idx', cfg'))
          _ _ _ _ _ (S1 p))].
      * intros rn. cbn beta. unfold place_itinerant. rewrite get_ok by assumption. cbn [bindP]. rewrite Ei. cbn [Z.eqb Pos.eqb]. reflexivity.
      * intros rn _. cbn beta iota. rewrite put_ok by now apply cell_range. cbn [bindP]. rewrite put_ok by assumption. reflexivity.
    + cbn. lia.
    + apply HJ'. lia.
  - exists [], (p, idx, cfg). split; [constructor|]. split; [|split; [cbn; lia|exact HJ]].
    apply steers_nil. intros rn. unfold place_itinerant. rewrite get_ok by assumption. cbn [bindP].
    destruct (Z.eqb_spec (idx (mi + si * Ne I)) (-1)); [contradiction|reflexivity].
Qed.
Lemma Free_all idx s U : (forall x, 0 <= x < M -> idx x = -1) ->
  zsum (zrange 0 M) (fun x => if spn x =? s then 1 else 0) = U -> Free spn s idx = U.
Proof.
  intros H <-. unfold Free. apply zsum_ext. intros x Hx. apply zrange_in in Hx. rewrite H by assumption.
  rewrite andb_true_r. reflexivity.
Qed.

Lemma completes_with w p : exists ws r, bounded ws /\ initial_tables I (O' (stream p ws)) w p = Ret r.
Proof.
  destruct (fill_total M (-1) (eleIdx w)) as (idx0 & Ei0). destruct (fill_total (2 * N) (-1) (eleCfg w)) as (cfg0 & Ec0).
  pose proof (ret_safe _ _ _ (safe_fill Orc (fun _ => True) M (-1) (eleIdx w) ltac:(lia)) Ei0) as Hi0.
  pose proof (ret_safe _ _ _ (safe_fill Orc (fun _ => True) (2 * N) (-1) (eleCfg w) ltac:(lia)) Ec0) as Hc0. cbn beta in Hi0, Hc0.
  assert (J0 : JL spn (Ne I) (Ne I) a b 0 (p, idx0, cfg0)).
  { apply JL_start; try exact spn0_range; try assumption; apply Free_all; try assumption; apply spn0_count; lia. }
  destruct (steers_forM Orc (JL spn (Ne I) (Ne I) a b) (fun rn k f => place_local I (O' rn) k f) 0 N steers_local ltac:(lia) _ J0)
    as (ws1 & ((p1, idx1), cfg1) & B1 & S1 & E1 & J1).
  apply (JL_end spn spn0_range _ _ _ _ Hab) in J1.
  destruct (steers_forM Orc (fun _ => JI spn) (fun rn si f => forM (zrange 0 (Ne I)) (place_itinerant I (O' rn) si) f) 0 2
     ltac:(intros si f Hsi Hf;
       exact (steers_forM Orc (fun _ => JI spn) (fun rn mi f => place_itinerant I (O' rn) si mi f) 0 (Ne I)
               (fun mi f Hmi Hf => steers_itinerant si mi f ltac:(lia) Hmi Hf) ltac:(lia) f Hf)) ltac:(lia) _ J1)
    as (ws2 & ((p2, idx2), cfg2) & B2 & S2 & E2 & J2).
  destruct (fill_num_total cfg2 (eleNum w)) as (num & En).
  pose proof (ret_safe _ _ _ (safe_fill_num I Orc wf (fun _ => True) cfg2 (eleNum w)) En) as Hn. cbn beta in Hn.
  destruct (make_correct (T I) HT num (num_occ01 I num cfg2 Hn) (eleProjCnt w)) as (cnt & Ecnt & _).
  exists (ws1 ++ ws2), (p2, Walker idx2 cfg2 num cnt (eleSpn w)). split; [now apply Forall_app|].
  apply (steers_stream Orc (fun rn => initial_tables I (O' rn) w p)).
  eapply steers_ext; [|apply (steers_bind _ _ (fun rn f => 
       '(p, idx, cfg) <~ forM (zrange 0 2) (fun si f => forM (zrange 0 (Ne I)) (place_itinerant I (O' rn) si) f) f;;
       num <~ fill_num I Orc cfg (eleNum w);; cnt <~ ofOpt (make_proj_cnt (T I) (eleProjCnt w) num);;
       Ret (p, Walker idx cfg num cnt (eleSpn w))) _ _ _ _ _ S1)].
  - intros rn. cbn beta. unfold initial_tables.
    change (fill (O' rn) M (-1) (eleIdx w)) with (fill Orc M (-1) (eleIdx w)). rewrite Ei0. cbn [bindP].
    change (fill (O' rn) (2 * N) (-1) (eleCfg w)) with (fill Orc (2 * N) (-1) (eleCfg w)). rewrite Ec0. reflexivity.
  - cbn [fpos fst] in *. rewrite <- E1. rewrite <- (app_nil_r ws2).
    apply (steers_bind _ _ (fun rn r => let '(p, idx, cfg) := r in
       num <~ fill_num I Orc cfg (eleNum w);; cnt <~ ofOpt (make_proj_cnt (T I) (eleProjCnt w) num);;
       Ret (p, Walker idx cfg num cnt (eleSpn w))) _ _ _ _ _ S2).
    intros rn _. cbn beta iota. rewrite En. cbn [bindP]. rewrite Ecnt. reflexivity.
Qed.
End Csz.

(** ** General version *)
Section Fsz.
Variable spn : Z -> Z.
Hypothesis Hspn : forall x, 0 <= x < M -> 0 <= spn x <= 1.
Variables (U D a b : Z).
Hypothesis Hab : a + b = lcount N /\ a <= U /\ b <= D /\ U - a <= N - lcount N /\ D - b <= N - lcount N.

Lemma steers_local_fsz k f : 0 <= k < N -> JL spn U D a b k f ->
  exists ws f', bounded ws /\ steers Orc (fun rn => place_local_fsz I (O' rn) spn k f) (fpos f) ws f' /\
    fpos f' = fpos f + Z.of_nat (length ws) /\ JL spn U D a b (k + 1) f'.
Proof.
  intros Hk. destruct f as ((p, idx), cfg). intros HJ. destruct (Z.eq_dec (LocSpn I k) 1) as [El|El].
  - destruct (JL_choose spn Hspn _ _ _ _ Hab k p idx cfg Hk El HJ) as (x & Hx & Hi & HJ').
    pose proof (Hspn x Hx) as Hs.
    exists [x], (p + 1, upd idx x k, upd cfg (k + spn x * N) x). split; [|split; [|split]].
    + repeat constructor; lia.
    + cbn [fpos fst]. intros rn Hrn. pose proof (Hrn 0%nat ltac:(cbn; lia)) as R0. cbn in R0. rewrite Z.add_0_r in R0.
      unfold place_local_fsz. rewrite get_ok by assumption. cbn [bindP]. rewrite El. cbn [Z.eqb Pos.eqb fuel with_stream search].
      unfold pick_free_fsz at 1. cbn [rnd with_stream]. rewrite R0. rewrite umod_ok by lia. cbn [bindP].
      rewrite Z.mod_small by assumption. rewrite get_ok by assumption. cbn [bindP]. rewrite get_ok by assumption. cbn [bindP fst snd]. rewrite Hi. cbn [Z.eqb Pos.eqb bindP].
      rewrite put_ok by now apply cell_range. cbn [bindP]. rewrite put_ok by assumption. reflexivity.
    + cbn. lia.
    + apply HJ'.
  - exists [], (p, idx, cfg). split; [constructor|]. split; [|split; [cbn; lia|]].
    + apply steers_nil. intros rn. unfold place_local_fsz. rewrite get_ok by assumption. cbn [bindP].
      replace (loc k) with false by lia. reflexivity.
    + apply JL_skip; try exact Hspn; assumption || lia.
Qed.
Lemma steers_itinerant_fsz x f : 0 <= x < M -> JI spn f ->
  exists ws f', bounded ws /\ steers Orc (fun rn => place_itinerant_fsz I (O' rn) spn x f) (fpos f) ws f' /\
    fpos f' = fpos f + Z.of_nat (length ws) /\ JI spn f'.
Proof.
  intros Hx. destruct f as ((p, idx), cfg). intros HJ. pose proof (Hspn x Hx) as Hs.
  destruct (Z.eq_dec (idx x) (-1)) as [Ei|Ei].
  - destruct (steers_site spn Hspn p idx cfg _ Hx HJ Ei) as (r & Hr & S1 & HJ').
    exists [r], (p + 1, upd idx x r, upd cfg (r + spn x * N) x). split; [|split; [|split]].
    + repeat constructor; lia.
    + cbn [fpos fst]. eapply steers_ext; [|change [r] with ([r] ++ []);
        apply (steers_bind _ _ (fun rn pr => let '(p', ri) := pr in
             cfg' <~ put (2 * N) cfg (ri + spn x * N) x;; idx' <~ put M idx x ri;; Ret (p', idx', cfg'))
          _ _ _ _ _ (S1 p))].
      * intros rn. cbn beta. unfold place_itinerant_fsz. rewrite get_ok by assumption. cbn [bindP]. rewrite get_ok by assumption. cbn [bindP]. rewrite Ei. cbn [Z.eqb Pos.eqb]. reflexivity.
      * intros rn _. cbn beta iota. rewrite put_ok by now apply cell_range. cbn [bindP]. rewrite put_ok by assumption. reflexivity.
    + cbn. lia.
    + apply HJ'. lia.
  - exists [], (p, idx, cfg). split; [constructor|]. split; [|split; [cbn; lia|exact HJ]].
    apply steers_nil. intros rn. unfold place_itinerant_fsz. rewrite get_ok by assumption. cbn [bindP]. rewrite get_ok by assumption. cbn [bindP].
    destruct (Z.eqb_spec (idx x) (-1)); [contradiction|reflexivity].
Qed.
End Fsz.
Lemma initial_spin_total a : (total (initial_spin I Orc a : prog _)).
Proof.
  unfold initial_spin. destruct (fill_total M (-1) a) as (b & ->). cbn [bindP].
  apply forM_total. intros i s Hi. apply zrange_in in Hi. rewrite put_ok by assumption. now eexists.
Qed.
Section FszAll.
Variables (a b : Z).
Hypothesis Ha : 0 <= a. Hypothesis Hb : 0 <= b.
Notation U := (up_init I).
Hypothesis HU : 0 <= U <= M.
Hypothesis Hab : a + b = lcount N /\ a <= U /\ b <= M - U /\ U - a <= N - lcount N /\ (M - U) - b <= N - lcount N.
Lemma completes_with_fsz w p : exists ws r, bounded ws /\ initial_tables_fsz I (O' (stream p ws)) w p = Ret r.
Proof.
  destruct (fill_total M (-1) (eleIdx w)) as (idx0 & Ei0). destruct (fill_total (2 * N) (-1) (eleCfg w)) as (cfg0 & Ec0).
  pose proof (ret_safe _ _ _ (safe_fill Orc (fun _ => True) M (-1) (eleIdx w) ltac:(lia)) Ei0) as Hi0.
  pose proof (ret_safe _ _ _ (safe_fill Orc (fun _ => True) (2 * N) (-1) (eleCfg w) ltac:(lia)) Ec0) as Hc0. cbn beta in Hi0, Hc0.
  destruct (initial_spin_total (eleSpn w)) as (spn & Es0).
  pose proof (ret_safe _ _ _ (safe_initial_spin I Orc wf (fun _ => True) (eleSpn w)) Es0) as Hs0. cbn beta in Hs0.
  assert (Hspn : forall x, 0 <= x < M -> 0 <= spn x <= 1) by (intros x Hx; rewrite Hs0 by assumption; destruct (_ <? _); lia).
  assert (F0 : Free spn 0 idx0 = U).
  { transitivity (zsum (zrange 0 M) (fun x => if (if x <? U then 0 else 1) =? 0 then 1 else 0)); [|now apply ups_threshold]. unfold Free. apply zsum_ext. intros x Hx. apply zrange_in in Hx.
    rewrite Hs0, Hi0 by assumption. rewrite andb_true_r. reflexivity. }
  assert (F1 : Free spn 1 idx0 = M - U).
  { assert (Free spn 0 idx0 + Free spn 1 idx0 = M); [|lia]. unfold Free. rewrite <- zsum_add.
    rewrite (zsum_ext _ _ (fun _ => 1)); [rewrite zsum_const, zrange_length; lia|].
    intros x Hx. apply zrange_in in Hx. rewrite Hi0, Hs0 by assumption. destruct (x <? U); reflexivity. }
  assert (J0 : JL spn U (M - U) a b 0 (p, idx0, cfg0)) by (apply JL_start; assumption).
  destruct (steers_forM Orc (JL spn U (M - U) a b) (fun rn k f => place_local_fsz I (O' rn) spn k f) 0 N (steers_local_fsz spn Hspn _ _ _ _ Hab) ltac:(lia) _ J0)
    as (ws1 & ((p1, idx1), cfg1) & B1 & S1 & E1 & J1).
  apply (JL_end spn Hspn _ _ _ _ Hab) in J1.
  destruct (steers_forM Orc (fun _ => JI spn) (fun rn x f => place_itinerant_fsz I (O' rn) spn x f) 0 M
     (fun x f Hx Hf => steers_itinerant_fsz spn Hspn x f Hx Hf) ltac:(lia) _ J1)
    as (ws2 & ((p2, idx2), cfg2) & B2 & S2 & E2 & J2).
  destruct (fill_num_total cfg2 (eleNum w)) as (num & En).
  pose proof (ret_safe _ _ _ (safe_fill_num I Orc wf (fun _ => True) cfg2 (eleNum w)) En) as Hn. cbn beta in Hn.
  destruct (make_correct (T I) HT num (num_occ01 I num cfg2 Hn) (eleProjCnt w)) as (cnt & Ecnt & _).
  exists (ws1 ++ ws2), (p2, Walker idx2 cfg2 num cnt spn). split; [now apply Forall_app|].
  apply (steers_stream Orc (fun rn => initial_tables_fsz I (O' rn) w p)).
  eapply steers_ext; [|apply (steers_bind _ _ (fun rn f => 
       '(p, idx, cfg) <~ forM (zrange 0 M) (place_itinerant_fsz I (O' rn) spn) f;;
       num <~ fill_num I Orc cfg (eleNum w);; cnt <~ ofOpt (make_proj_cnt (T I) (eleProjCnt w) num);;
       Ret (p, Walker idx cfg num cnt spn)) _ _ _ _ _ S1)].
  - intros rn. cbn beta. unfold initial_tables_fsz.
    change (fill (O' rn) M (-1) (eleIdx w)) with (fill Orc M (-1) (eleIdx w)). rewrite Ei0. cbn [bindP].
    change (initial_spin I (O' rn) (eleSpn w)) with (initial_spin I Orc (eleSpn w)). rewrite Es0. cbn [bindP].
    change (fill (O' rn) (2 * N) (-1) (eleCfg w)) with (fill Orc (2 * N) (-1) (eleCfg w)). rewrite Ec0. reflexivity.
  - cbn [fpos fst] in *. rewrite <- E1. rewrite <- (app_nil_r ws2).
    apply (steers_bind _ _ (fun rn r => let '(p, idx, cfg) := r in
       num <~ fill_num I Orc cfg (eleNum w);; cnt <~ ofOpt (make_proj_cnt (T I) (eleProjCnt w) num);;
       Ret (p, Walker idx cfg num cnt spn)) _ _ _ _ _ S2).
    intros rn _. cbn beta iota. rewrite En. cbn [bindP]. rewrite Ecnt. reflexivity.
Qed.
End FszAll.
End Init.

Lemma lcount_NLoc I : lcount I (Nsite (T I)) = NLoc I.
Proof. reflexivity. Qed.
Lemma NLoc_nonneg I : 0 <= NLoc I.
Proof. unfold NLoc. apply zsum_nonneg. intros r _. destruct (_ =? _); lia. Qed.

Lemma feasible_completes I Orc w p n : wf_input I -> Nsite (T I) <= 2 ^ 32 -> 2 * Ne I <= 2 ^ 32 -> feasible I ->
  exists rn r, (forall q, 0 <= rn q < 2 ^ 32) /\ initial_tables I (with_stream Orc rn (S n)) w p = Ret r.
Proof.
  intros wf B1 B2 (H1 & H2 & H3). pose proof (NLoc_nonneg I).
  set (a := Z.max 0 (Z.max (NLoc I - Ne I) (Ne I - Nsite (T I) + NLoc I))). pose proof (wf_ne I wf).
  destruct (completes_with I wf (conj B1 B2) Orc n a (NLoc I - a) ltac:(lia) ltac:(lia)) with (w := w) (p := p) as (ws & r & Hb & E).
  - rewrite lcount_NLoc. lia.
  - exists (stream p ws), r. split; [|exact E]. intros q. now apply stream_bounded.
Qed.

Lemma InvC_feasible I w : wf_input I -> InvC I w -> feasible I.
Proof.
  intros wf HI. destruct (InvC_facts I wf w HI) as (Hc & Hn & Hl & _). set (N := Nsite (T I)) in *.
  pose proof (wf_sites I wf). pose proof (Hn 0 ltac:(lia)) as N0. pose proof (Hn 1 ltac:(lia)) as N1. unfold spin_count in N0, N1.
  assert (B : forall r s, 0 <= r < N -> 0 <= s <= 1 -> 0 <= eleNum w (r + s * N) <= 1).
  { intros r s Hr Hs. destruct (c_site _ _ _ Hc r s Hr Hs) as [(_ & ->)|(m & _ & _ & -> & _)]; lia. }
  assert (E : forall r, eleNum w r + eleNum w (r + N) = eleNum w (r + 0 * N) + eleNum w (r + 1 * N)) by (intros; f_equal; f_equal; lia).
  assert (S2 : zsum (zrange 0 N) (fun r => eleNum w (r + 0 * N) + eleNum w (r + 1 * N)) = 2 * Ne I).
  { rewrite zsum_add. lia. }
  split; [|split].
  - rewrite <- S2. unfold NLoc. apply zsum_le. intros r Hr. apply zrange_in in Hr. fold N in Hr.
    pose proof (B r 0 Hr ltac:(lia)). pose proof (B r 1 Hr ltac:(lia)). destruct (Z.eqb_spec (LocSpn I r) 1) as [El|El]; [|lia].
    pose proof (Hl r Hr El). fold N in H2. rewrite E in H2. lia.
  - rewrite <- N0. transitivity (zsum (zrange 0 N) (fun _ => 1)).
    + apply zsum_le. intros r Hr. apply zrange_in in Hr. now apply B.
    + rewrite zsum_const, zrange_length. lia.
  - rewrite <- S2. unfold NLoc. fold N. rewrite <- zsum_add. transitivity (zsum (zrange 0 N) (fun _ => 2)).
    + apply zsum_le. intros r Hr. apply zrange_in in Hr.
      pose proof (B r 0 Hr ltac:(lia)). pose proof (B r 1 Hr ltac:(lia)). destruct (Z.eqb_spec (LocSpn I r) 1) as [El|El]; [|lia].
      pose proof (Hl r Hr El). fold N in H2. rewrite E in H2. lia.
    + rewrite zsum_const, zrange_length. lia.
Qed.
Lemma completes_feasible I Orc w p tr r : wf_input I -> runs (initial_tables I Orc w p) tr (Done r) -> feasible I.
Proof.
  intros wf R. destruct (safe_runs _ _ _ _ _ (safe_initial_tables I Orc wf (fun _ => True) w p) R) as (_ & H). cbn in H.
  exact (InvC_feasible I _ wf H).
Qed.

(** ** General version, both directions *)
Lemma feasible_completes_fsz I Orc w p n : wf_input I -> Nsite (T I) <= 2 ^ 32 -> 2 * Ne I <= 2 ^ 32 -> feasible_fsz I ->
  exists rn r, (forall q, 0 <= rn q < 2 ^ 32) /\ initial_tables_fsz I (with_stream Orc rn (S n)) w p = Ret r.
Proof.
  intros wf B1 B2 (H0 & H1 & H2 & H3). pose proof (NLoc_nonneg I). pose proof (wf_ne I wf).
  change (Ne I + (if TwoSz I =? -1 then 0 else Z.quot (TwoSz I) 2)) with (up_init I) in *.
  set (U := up_init I) in *.
  set (a := Z.max 0 (Z.max (NLoc I - (2 * Ne I - U)) (U - Nsite (T I) + NLoc I))).
  destruct (completes_with_fsz I wf (conj B1 B2) Orc n a (NLoc I - a) ltac:(lia) ltac:(lia)) with (w := w) (p := p) as (ws & r & Hb & E).
  - fold U. lia.
  - fold U. rewrite lcount_NLoc. lia.
  - exists (stream p ws), r. split; [|exact E]. intros q. now apply stream_bounded.
Qed.
Lemma InvF_feasible I w : wf_input I -> InvF I (up_init I) w -> ups I (eleSpn w) = up_init I -> feasible_fsz I.
Proof.
  intros wf HI Hups. destruct (InvF_facts I wf _ w HI) as (Hc & _ & Htot & Hl & _).
  unfold feasible_fsz. fold (up_init I). set (N := Nsite (T I)) in *.
  pose proof (wf_sites I wf). 
  pose proof (proj1 (consistent_fsz_Cons N (Ne I) w) Hc) as HC.
  assert (N0 : spin_count N w 0 = up_init I).
  { unfold spin_count. rewrite (Cons_count _ _ _ _ _ _ _ HC 0 ltac:(lia)). exact Hups. }
  rewrite N0 in Htot. unfold spin_count in N0, Htot.
  assert (B : forall r s, 0 <= r < N -> 0 <= s <= 1 -> 0 <= eleNum w (r + s * N) <= 1).
  { intros r s Hr Hs. destruct (f_site _ _ _ Hc r s Hr Hs) as [(_ & ->)|(m & _ & _ & -> & _)]; lia. }
  assert (E : forall r, eleNum w r + eleNum w (r + N) = eleNum w (r + 0 * N) + eleNum w (r + 1 * N)) by (intros; f_equal; f_equal; lia).
  assert (S2 : zsum (zrange 0 N) (fun r => eleNum w (r + 0 * N) + eleNum w (r + 1 * N)) = 2 * Ne I).
  { rewrite zsum_add. lia. }
  assert (Bd : forall s, 0 <= s <= 1 -> 0 <= zsum (zrange 0 N) (fun r => eleNum w (r + s * N)) <= N).
  { intros s Hs. split; [apply zsum_nonneg; intros r Hr; apply zrange_in in Hr; now apply B|].
    transitivity (zsum (zrange 0 N) (fun _ => 1)).
    + apply zsum_le. intros r Hr. apply zrange_in in Hr. now apply B.
    + rewrite zsum_const, zrange_length. lia. }
  pose proof (Bd 0 ltac:(lia)). pose proof (Bd 1 ltac:(lia)).
  split; [lia|]. split; [lia|]. split.
  - rewrite <- S2. unfold NLoc. apply zsum_le. intros r Hr. apply zrange_in in Hr. fold N in Hr.
    pose proof (B r 0 Hr ltac:(lia)). pose proof (B r 1 Hr ltac:(lia)). destruct (Z.eqb_spec (LocSpn I r) 1) as [El|El]; [|lia].
    pose proof (Hl r Hr El) as H4. fold N in H4. rewrite E in H4. lia.
  - rewrite <- S2. unfold NLoc. fold N. rewrite <- zsum_add. transitivity (zsum (zrange 0 N) (fun _ => 2)).
    + apply zsum_le. intros r Hr. apply zrange_in in Hr.
      pose proof (B r 0 Hr ltac:(lia)). pose proof (B r 1 Hr ltac:(lia)). destruct (Z.eqb_spec (LocSpn I r) 1) as [El|El]; [|lia].
      pose proof (Hl r Hr El) as H4. fold N in H4. rewrite E in H4. lia.
    + rewrite zsum_const, zrange_length. lia.
Qed.
Definition fix_sz (I : input) : input :=
  Input (T I) (Ne I) (LocSpn I) (if TwoSz I =? -1 then 0 else TwoSz I) (iFlgOrbitalGeneral I) 0 (NVMCWarmUp I) (NVMCSample I) (NVMCInterval I) (NQPFull I).
Lemma completes_feasible_fsz I Orc w p tr r : wf_input I -> 0 <= Ne I + (if TwoSz I =? -1 then 0 else Z.quot (TwoSz I) 2) <= 2 * Ne I ->
  runs (initial_tables_fsz I Orc w p) tr (Done r) -> feasible_fsz I.
Proof.
  intros wf Hu R. change (0 <= up_init I <= 2 * Ne I) in Hu.
  assert (wf' : wf_input (fix_sz I)) by (destruct wf; constructor; assumption).
  assert (Eu : up_init (fix_sz I) = up_init I).
  { unfold up_init. cbn. destruct (TwoSz I =? -1) eqn:E; [reflexivity|]. now rewrite E. }
  assert (R' : runs (initial_tables_fsz (fix_sz I) Orc w p) tr (Done r)).
  { destruct I as [T0 Ne0 L0 sz f1 f2 f3 f4 f5 f6]. unfold fix_sz. cbn in *.
    destruct (Z.eqb_spec sz (-1)) as [->|E]; [exact R|].
    unfold initial_tables_fsz, initial_spin in *. cbn [TwoSz] in *. exact R. }
  destruct (safe_runs _ _ _ _ _ (safe_initial_tables_fsz (fix_sz I) Orc wf' (fun _ => True) w p ltac:(rewrite Eu; exact Hu)) R') as (_ & H).
  cbn in H. pose proof (InvF_feasible (fix_sz I) _ wf' H) as HF. unfold feasible_fsz in *.
  change (Ne (fix_sz I) + (if TwoSz (fix_sz I) =? -1 then 0 else Z.quot (TwoSz (fix_sz I)) 2)) with (up_init (fix_sz I)) in HF. rewrite Eu in HF.
  apply HF. rewrite <- Eu. apply (proj2 H). split; cbn; [|lia]. destruct (Z.eqb_spec (TwoSz I) (-1)); [lia|assumption].
Qed.
