(** The initial sample satisfies the invariants. *)
From Coq Require Import ZArith List Bool Lia.
From Verif Require Import Base.ZLoop Base.Checked Proj.Model Proj.Spec Proj.Proofs.
From Verif Require Import Samp.Prog Samp.Model Samp.Spec Samp.Hoare Samp.Config Samp.Proofs Samp.ProofsF.
Import ListNotations.
Local Open Scope Z_scope.

Lemma ups_threshold M k : 0 <= k <= M ->
  zsum (zrange 0 M) (fun x => if (if x <? k then 0 else 1) =? 0 then 1 else 0) = k.
Proof.
  intros Hk. rewrite (zsum_range_app 0 k M) by lia.
  rewrite (zsum_ext (zrange 0 k) _ (fun _ => 1)).
  2:{ intros x Hx. apply zrange_in in Hx. destruct (Z.ltb_spec x k); [reflexivity|lia]. }
  rewrite zsum_const, zrange_length. rewrite zsum_zero; [lia|].
  intros x Hx. apply zrange_in in Hx. destruct (Z.ltb_spec x k); [lia|reflexivity].
Qed.

Section ProofsI.
Variable I : input.
Variable Orc : oracles.
Hypothesis wf : wf_input I.
Notation N := (Nsite (T I)).
Notation M := (2 * Ne I).
Notation prog := (Prog.prog (K Orc) (event (L Orc))).
Notation event := (event (L Orc)).
Let HT : wf_tables (T I) := wf_T I wf.
Let HN : 0 < N := wf_sites I wf.
Let HNe : 0 < Ne I := wf_ne I wf.

(** ** Partially filled tables *)
Section Fill.
Variables (c : Z) (spn : Z -> Z).
Record Fill (idx cfg : Z -> Z) : Prop := {
  p_elec : forall x, 0 <= x < M -> 0 <= spn x <= 1 /\ 0 <= x - spn x * c /\
     (idx x = -1 \/ (0 <= idx x < N /\ cfg (idx x + spn x * N) = x - spn x * c));
  p_site : forall r s, 0 <= r < N -> 0 <= s <= 1 ->
     cfg (r + s * N) = -1 \/ (exists x, 0 <= x < M /\ idx x = r /\ spn x = s)
}.
Definition Loc (b : Z) (cfg : Z -> Z) : Prop := forall r, 0 <= r < N -> LocSpn I r = 1 ->
  (r < b -> exists s, 0 <= s <= 1 /\ cfg (r + s * N) <> -1 /\ cfg (r + (1 - s) * N) = -1) /\
  (b <= r -> forall s, 0 <= s <= 1 -> cfg (r + s * N) = -1).

Lemma Fill_empty idx cfg : (forall x, 0 <= x < M -> 0 <= spn x <= 1 /\ 0 <= x - spn x * c) ->
  (forall x, 0 <= x < M -> idx x = -1) -> (forall i, 0 <= i < 2 * N -> cfg i = -1) -> Fill idx cfg /\ Loc 0 cfg.
Proof.
  intros H1 H2 H3. split; [constructor|].
  - intros x Hx. destruct (H1 x Hx) as (A & B). split; [exact A|]. split; [exact B|]. left. auto.
  - intros r s Hr Hs. left. apply H3. now apply cell_range.
  - intros r Hr _. split; [lia|]. intros _ s Hs. apply H3. now apply cell_range.
Qed.

Lemma Fill_place idx cfg x r : Fill idx cfg -> 0 <= x < M -> idx x = -1 -> 0 <= r < N ->
  cfg (r + spn x * N) = -1 -> Fill (upd idx x r) (upd cfg (r + spn x * N) (x - spn x * c)).
Proof.
  intros [H1 H2] Hx Hix Hr Hf. destruct (H1 x Hx) as (A1 & A2 & _). constructor.
  - intros y Hy. destruct (H1 y Hy) as (B1 & B2 & B3). split; [assumption|]. split; [assumption|].
    rewrite !upd_get. destruct (Z.eqb_spec y x) as [->|Hyx].
    + right. rewrite Z.eqb_refl. auto.
    + destruct B3 as [B3|(B3 & B4)]; [now left|right]. split; [assumption|].
      destruct (Z.eqb_spec (idx y + spn y * N) (r + spn x * N)) as [E|E]; [|assumption].
      rewrite E in B4. lia.
  - intros q s Hq Hs. rewrite upd_get. destruct (Z.eqb_spec (q + s * N) (r + spn x * N)) as [E|E].
    + right. apply cell_inj in E; try assumption. destruct E as (-> & ->). exists x. rewrite upd_same. auto.
    + destruct (H2 q s Hq Hs) as [B|(y & B1 & B2 & B3)]; [now left|right].
      exists y. rewrite upd_other; [auto|]. intros ->. lia.
Qed.

Lemma Loc_place_local b cfg s v : Loc b cfg -> 0 <= b < N -> LocSpn I b = 1 -> 0 <= s <= 1 -> 0 <= v ->
  Loc (b + 1) (upd cfg (b + s * N) v).
Proof.
  intros H Hb Hl Hs Hv r Hr Hlr. destruct (H r Hr Hlr) as (H1 & H2). split.
  - intros Hrb. destruct (Z.eq_dec r b) as [->|Hne].
    + exists s. split; [assumption|]. rewrite upd_same. split; [lia|].
      rewrite upd_other; [apply H2; lia|]. intros E. apply cell_inj in E; try assumption; lia.
    + destruct (H1 ltac:(lia)) as (u & Hu & A & B). exists u. split; [assumption|].
      rewrite !upd_other; [auto| |]; intros E; apply cell_inj in E; try assumption; lia.
  - intros Hbr u Hu. rewrite upd_other; [apply H2; lia|]. intros E. apply cell_inj in E; try assumption; lia.
Qed.
Lemma Loc_skip b cfg : Loc b cfg -> LocSpn I b <> 1 -> Loc (b + 1) cfg.
Proof.
  intros H Hl r Hr Hlr. destruct (H r Hr Hlr) as (H1 & H2).
  assert (r <> b) by congruence. split; intros; [apply H1|apply H2]; lia.
Qed.
Lemma Loc_place_other b cfg r s v : Loc b cfg -> 0 <= r < N -> LocSpn I r <> 1 -> 0 <= s <= 1 ->
  Loc b (upd cfg (r + s * N) v).
Proof.
  intros H Hr Hl Hs q Hq Hlq. destruct (H q Hq Hlq) as (H1 & H2). assert (q <> r) by congruence. split.
  - intros Hqb. destruct (H1 Hqb) as (u & Hu & A & B). exists u. split; [assumption|].
    rewrite !upd_other; [auto| |]; intros E; apply cell_inj in E; try assumption; lia.
  - intros Hbq u Hu. rewrite upd_other; [auto|]. intros E; apply cell_inj in E; try assumption; lia.
Qed.

Lemma Fill_done idx cfg num cnt : Fill idx cfg -> Loc N cfg -> (forall x, 0 <= x < M -> idx x <> -1) ->
  (forall i, 0 <= i < 2 * N -> num i = if cfg i <? 0 then 0 else 1) -> is_proj_cnt (T I) num cnt ->
  Arr I c idx cfg num spn cnt.
Proof.
  intros [H1 H2] HL Hall Hnum Hcnt.
  assert (HC : Cons N M c idx cfg num spn).
  { constructor.
    - intros x Hx. destruct (H1 x Hx) as (A & B & [E|E]); [now elim (Hall x Hx)|]. lia.
    - intros r s Hr Hs. rewrite Hnum by (now apply cell_range).
      destruct (H2 r s Hr Hs) as [E|(x & A & B & C)]; [left; rewrite E; auto|right].
      exists x. refine (conj A (conj B (conj C _))).
      destruct (H1 x A) as (_ & D & [E|(_ & E)]); [now elim (Hall x A)|]. rewrite B, C in E. rewrite E.
      destruct (Z.ltb_spec (x - s * c) 0); [|reflexivity]. rewrite C in D. lia. }
  constructor; [assumption| |assumption].
  intros r Hr Hl. destruct (HL r Hr Hl) as (A & _). destruct (A ltac:(lia)) as (s & Hs & B & D).
  destruct (Cons_at _ _ _ _ _ _ _ HC r s Hr Hs B) as (_ & _ & _ & _ & _ & E1).
  apply (Cons_free _ _ _ _ _ _ _ HC) in D; [|lia..].
  unfold occ. assert (s = 0 \/ s = 1) as [-> | ->] by lia;
    rewrite ?Z.mul_0_l, ?Z.mul_1_l, ?Z.add_0_r in *;
    [replace (1 - 0) with 1 in D by lia|replace (1 - 1) with 0 in D by lia];
    rewrite ?Z.mul_0_l, ?Z.mul_1_l, ?Z.add_0_r in *; lia.
Qed.
End Fill.

Variable EvX : event -> Prop.
Lemma safe_fill n v a : 0 <= n -> safe EvX (fun b => forall i, 0 <= i < n -> b i = v) (fill Orc n v a).
Proof.
  intros Hn. unfold fill.
  eapply safe_post; [apply (safe_forM EvX (fun k (b : Z -> Z) => forall i, 0 <= i < k -> b i = v))|]; auto.
  - intros; lia.
  - intros i b Hi Hb. rewrite put_ok by assumption. cbn [safe]. intros j Hj. rewrite upd_get.
    destruct (Z.eqb_spec j i); [reflexivity|]. apply Hb. lia.
Qed.
Lemma safe_fill_num cfg num :
  safe EvX (fun b => forall i, 0 <= i < 2 * N -> b i = if cfg i <? 0 then 0 else 1) (fill_num I Orc cfg num).
Proof.
  unfold fill_num. assert (0 <= 2 * N) by lia.
  eapply safe_post; [apply (safe_forM EvX (fun k (b : Z -> Z) => forall i, 0 <= i < k -> b i = if cfg i <? 0 then 0 else 1))|]; auto.
  - intros; lia.
  - intros i b Hi Hb. rewrite get_ok by assumption. cbn [bindP].
    rewrite put_ok by assumption. cbn [safe]. intros j Hj. rewrite upd_get.
    destruct (Z.eqb_spec j i); [subst; reflexivity|]. apply Hb. lia.
Qed.

Lemma safe_make_cnt num c0 : occ01 N num ->
  safe EvX (is_proj_cnt (T I) num) (ofOpt (make_proj_cnt (T I) c0 num) : prog _).
Proof. intros HO. destruct (make_correct (T I) HT num HO c0) as (c1 & -> & H & _). exact H. Qed.

Lemma safe_pick_site cfg si p : 0 <= si <= 1 ->
  safe EvX (fun r => forall ri, snd r = Some ri -> 0 <= ri < N /\ cfg (ri + si * N) = -1 /\ LocSpn I ri <> 1)
    (pick_site I Orc cfg si p).
Proof.
  intros Hs. unfold pick_site. eapply safe_bind; [apply safe_umod, HN|]. intros ri Hr. cbn beta in Hr.
  rewrite get_ok by (now apply cell_range). cbn [bindP].
  destruct (Z.eqb_spec (cfg (ri + si * N)) (-1)).
  - rewrite get_ok by assumption. cbn [bindP safe snd]. destruct (Z.eqb_spec (LocSpn I ri) 1); [discriminate|].
    intros ? [= <-]. auto.
  - cbn [bindP safe snd]. discriminate.
Qed.

Lemma num_occ01 (num cfg : Z -> Z) : (forall i, 0 <= i < 2 * N -> num i = if cfg i <? 0 then 0 else 1) -> occ01 N num.
Proof. intros H i Hi. rewrite H by assumption. destruct (_ <? _); auto. Qed.

(** ** Sz-conserving version *)
Lemma safe_place_local ri f : 0 <= ri < N ->
  let '(_, idx, cfg) := f in Fill (Ne I) (spn0 (Ne I)) idx cfg -> Loc ri cfg ->
  safe EvX (fun f => let '(_, idx, cfg) := f in Fill (Ne I) (spn0 (Ne I)) idx cfg /\ Loc (ri + 1) cfg)
    (place_local I Orc ri f).
Proof.
  intros Hr. destruct f as ((p, idx), cfg). intros HF HL. unfold place_local.
  rewrite get_ok by assumption. cbn [bindP]. destruct (Z.eqb_spec (LocSpn I ri) 1) as [El|El].
  2:{ cbn [safe]. split; [assumption|now apply Loc_skip]. }
  eapply safe_bind.
  { apply (safe_search EvX (fun a => let '(mi, si) := a in
      0 <= mi < Ne I /\ 0 <= si <= 1 /\ idx (mi + si * Ne I) = -1)).
    intros q. unfold pick_free. eapply safe_bind; [apply safe_umod, HNe|]. intros mi Hm. cbn beta in Hm.
    pose proof (coin_range (rnd Orc (q + 1))) as Hs.
    destruct (spn0_at I wf mi _ Hm Hs) as (_ & Hx). rewrite get_ok by assumption. cbn [bindP safe snd].
    destruct (Z.eqb_spec (idx (mi + coin (rnd Orc (q + 1)) * Ne I)) (-1)); [|discriminate].
    intros (mi', si') [= <- <-]. auto. }
  intros (p', (mi, si)) (Hm & Hs & Hf). cbn [snd] in *. destruct (spn0_at I wf mi si Hm Hs) as (Es & Hx).
  rewrite put_ok by (now apply cell_range). cbn [bindP]. rewrite put_ok by assumption. cbn [bindP safe].
  split.
  - assert (Hf' : cfg (ri + spn0 (Ne I) (mi + si * Ne I) * N) = -1) by (rewrite Es; now apply (proj2 (HL ri Hr El))).
    pose proof (Fill_place _ _ _ _ _ _ HF Hx Hf Hr Hf') as HP. rewrite Es in HP.
    now replace (mi + si * Ne I - si * Ne I) with mi in HP by lia.
  - apply Loc_place_local; assumption || lia.
Qed.

Definition FilledTo (k : Z) (idx : Z -> Z) : Prop := forall x, 0 <= x < k -> idx x <> -1.
Lemma safe_place_itinerant si mi f : 0 <= si <= 1 -> 0 <= mi < Ne I ->
  let '(_, idx, cfg) := f in Fill (Ne I) (spn0 (Ne I)) idx cfg -> Loc N cfg -> FilledTo (mi + si * Ne I) idx ->
  safe EvX (fun f => let '(_, idx, cfg) := f in Fill (Ne I) (spn0 (Ne I)) idx cfg /\ Loc N cfg /\
      FilledTo (mi + 1 + si * Ne I) idx) (place_itinerant I Orc si mi f).
Proof.
  intros Hs Hm. destruct f as ((p, idx), cfg). intros HF HL HA. unfold place_itinerant.
  destruct (spn0_at I wf mi si Hm Hs) as (Es & Hx).
  rewrite get_ok by assumption. cbn [bindP]. destruct (Z.eqb_spec (idx (mi + si * Ne I)) (-1)) as [Ei|Ei].
  2:{ cbn [safe]. repeat (split; [assumption|]). intros x Hx'.
      destruct (Z.eq_dec x (mi + si * Ne I)) as [->|]; [assumption|]. apply HA. lia. }
  eapply safe_bind.
  { apply (safe_search EvX (fun ri => 0 <= ri < N /\ cfg (ri + si * N) = -1 /\ LocSpn I ri <> 1)).
    intros q. now apply safe_pick_site. }
  intros (p', ri) (Hr & Hf & Hl). cbn [snd] in *.
  rewrite put_ok by (now apply cell_range). cbn [bindP]. rewrite put_ok by assumption. cbn [bindP safe].
  split; [|split].
  - assert (Hf' : cfg (ri + spn0 (Ne I) (mi + si * Ne I) * N) = -1) by (rewrite Es; assumption).
    pose proof (Fill_place _ _ _ _ _ _ HF Hx Ei Hr Hf') as HP. rewrite Es in HP.
    now replace (mi + si * Ne I - si * Ne I) with mi in HP by lia.
  - apply Loc_place_other; assumption.
  - intros x Hx'. rewrite upd_get. destruct (Z.eqb_spec x (mi + si * Ne I)); [lia|]. apply HA. lia.
Qed.

Lemma safe_initial_tables w p : safe EvX (fun r => InvC I (snd r)) (initial_tables I Orc w p).
Proof.
  unfold initial_tables.
  eapply safe_bind; [apply safe_fill; lia|]. intros idx0 Hidx0.
  eapply safe_bind; [apply safe_fill; lia|]. intros cfg0 Hcfg0. cbn beta in *.
  destruct (Fill_empty (Ne I) (spn0 (Ne I)) idx0 cfg0) as (HF0 & HL0); [|assumption..|].
  { intros x Hx. unfold spn0. destruct (Z.ltb_spec x (Ne I)); lia. }
  eapply safe_bind.
  { apply (safe_forM EvX (fun b (f : fill_st) => let '(_, idx, cfg) := f in
      Fill (Ne I) (spn0 (Ne I)) idx cfg /\ Loc b cfg)); [lia|auto|].
    intros i ((q, idx), cfg) Hi (HF & HL). exact (safe_place_local i (q, idx, cfg) Hi HF HL). }
  intros ((p1, idx1), cfg1) (HF1 & HL1).
  eapply safe_bind.
  { apply (safe_forM EvX (fun b (f : fill_st) => let '(_, idx, cfg) := f in
      Fill (Ne I) (spn0 (Ne I)) idx cfg /\ Loc N cfg /\ FilledTo (b * Ne I) idx)); [lia| |].
    - repeat (split; [assumption|]). intros x Hx. lia.
    - intros si ((q, idx), cfg) Hsi (HF & HL & HA).
      eapply safe_post.
      { apply (safe_forM EvX (fun b (f : fill_st) => let '(_, idx, cfg) := f in
          Fill (Ne I) (spn0 (Ne I)) idx cfg /\ Loc N cfg /\ FilledTo (b + si * Ne I) idx)); [lia|auto|].
        intros mi ((q', idx'), cfg') Hmi (HF' & HL' & HA').
        exact (safe_place_itinerant si mi (q', idx', cfg') ltac:(lia) Hmi HF' HL' HA'). }
      intros ((q', idx'), cfg') (HF' & HL' & HA'). repeat (split; [assumption|]).
      replace ((si + 1) * Ne I) with (Ne I + si * Ne I) by lia. assumption. }
  intros ((p2, idx2), cfg2) (HF2 & HL2 & HA2).
  eapply safe_bind; [apply safe_fill_num|]. intros num Hnum. cbn beta in Hnum.
  eapply safe_bind; [apply safe_make_cnt; eapply num_occ01; eassumption|]. intros cnt Hcnt.
  cbn [safe snd]. unfold InvC. cbn [eleIdx eleCfg eleNum eleProjCnt].
  eapply Fill_done; eassumption.
Qed.

(** ** General version *)
Section Spn.
Variable spn : Z -> Z.
Hypothesis Hspn : forall x, 0 <= x < M -> 0 <= spn x <= 1.
Let HM : 0 < M := M_pos I wf.

Lemma safe_place_local_fsz ri f : 0 <= ri < N ->
  let '(_, idx, cfg) := f in Fill 0 spn idx cfg -> Loc ri cfg ->
  safe EvX (fun f => let '(_, idx, cfg) := f in Fill 0 spn idx cfg /\ Loc (ri + 1) cfg)
    (place_local_fsz I Orc spn ri f).
Proof.
  intros Hr. destruct f as ((p, idx), cfg). intros HF HL. unfold place_local_fsz.
  rewrite get_ok by assumption. cbn [bindP]. destruct (Z.eqb_spec (LocSpn I ri) 1) as [El|El].
  2:{ cbn [safe]. split; [assumption|now apply Loc_skip]. }
  eapply safe_bind.
  { apply (safe_search EvX (fun a => let '(x, si) := a in 0 <= x < M /\ spn x = si /\ idx x = -1)).
    intros q. unfold pick_free_fsz. eapply safe_bind; [apply safe_umod, HM|]. intros x Hx. cbn beta in Hx.
    rewrite get_ok by assumption. cbn [bindP]. rewrite get_ok by assumption. cbn [bindP safe snd].
    destruct (Z.eqb_spec (idx x) (-1)); [|discriminate].
    intros (x', si') [= <- <-]. auto. }
  intros (p', (x, si)) (Hx & Es & Hf). cbn [snd] in *. pose proof (Hspn x Hx) as Hs. rewrite Es in Hs.
  rewrite put_ok by (now apply cell_range). cbn [bindP]. rewrite put_ok by assumption. cbn [bindP safe].
  split.
  - assert (Hf' : cfg (ri + spn x * N) = -1) by (rewrite Es; now apply (proj2 (HL ri Hr El))).
    pose proof (Fill_place _ _ _ _ _ _ HF Hx Hf Hr Hf') as HP.
    rewrite Es, Z.mul_0_r, Z.sub_0_r in HP. exact HP.
  - apply Loc_place_local; assumption || lia.
Qed.

Lemma safe_place_itinerant_fsz x f : 0 <= x < M ->
  let '(_, idx, cfg) := f in Fill 0 spn idx cfg -> Loc N cfg -> FilledTo x idx ->
  safe EvX (fun f => let '(_, idx, cfg) := f in Fill 0 spn idx cfg /\ Loc N cfg /\ FilledTo (x + 1) idx)
    (place_itinerant_fsz I Orc spn x f).
Proof.
  intros Hx. destruct f as ((p, idx), cfg). intros HF HL HA. unfold place_itinerant_fsz.
  pose proof (Hspn x Hx) as Hs.
  rewrite get_ok by assumption. cbn [bindP]. rewrite get_ok by assumption. cbn [bindP].
  destruct (Z.eqb_spec (idx x) (-1)) as [Ei|Ei].
  2:{ cbn [safe]. repeat (split; [assumption|]). intros y Hy.
      destruct (Z.eq_dec y x) as [->|]; [assumption|]. apply HA. lia. }
  eapply safe_bind.
  { apply (safe_search EvX (fun ri => 0 <= ri < N /\ cfg (ri + spn x * N) = -1 /\ LocSpn I ri <> 1)).
    intros q. now apply safe_pick_site. }
  intros (p', ri) (Hr & Hf & Hl). cbn [snd] in *.
  rewrite put_ok by (now apply cell_range). cbn [bindP]. rewrite put_ok by assumption. cbn [bindP safe].
  split; [|split].
  - assert (Hf' : cfg (ri + spn x * N) = -1) by (assumption).
    pose proof (Fill_place _ _ _ _ _ _ HF Hx Ei Hr Hf') as HP.
    rewrite Z.mul_0_r, Z.sub_0_r in HP. exact HP.
  - apply Loc_place_other; assumption.
  - intros y Hy. rewrite upd_get. destruct (Z.eqb_spec y x); [lia|]. apply HA. lia.
Qed.
End Spn.

(** 2Sz/2 up electrons more than Ne *)
Definition up_init : Z := Ne I + (if TwoSz I =? -1 then 0 else Z.quot (TwoSz I) 2).
Lemma safe_initial_spin spn : safe EvX (fun b => forall x, 0 <= x < M -> b x = if x <? up_init then 0 else 1)
  (initial_spin I Orc spn).
Proof.
  unfold initial_spin. eapply safe_bind; [apply safe_fill; lia|]. intros spn1 _.
  set (tmp := if TwoSz I =? -1 then 0 else Z.quot (TwoSz I) 2).
  assert (0 <= M) by lia.
  eapply safe_post; [apply (safe_forM EvX (fun k (b : Z -> Z) => forall x, 0 <= x < k -> b x = if x <? Ne I + tmp then 0 else 1))|].
  - assumption.
  - intros; lia.
  - intros i b Hi Hb. rewrite put_ok by assumption. cbn [safe]. intros j Hj. rewrite upd_get.
    destruct (Z.eqb_spec j i); [subst; reflexivity|]. apply Hb. lia.
  - intros b Hb. exact Hb.
Qed.

Lemma safe_initial_tables_fsz w p : 0 <= up_init <= M ->
  safe EvX (fun r => InvF I up_init (snd r)) (initial_tables_fsz I Orc w p).
Proof.
  intros Hup. unfold initial_tables_fsz.
  eapply safe_bind; [apply safe_fill; lia|]. intros idx0 Hidx0.
  eapply safe_bind; [apply safe_initial_spin|]. intros spn Hspn.
  eapply safe_bind; [apply safe_fill; lia|]. intros cfg0 Hcfg0. cbn beta in *.
  assert (Hs : forall x, 0 <= x < M -> 0 <= spn x <= 1).
  { intros x Hx. rewrite Hspn by assumption. destruct (_ <? _); lia. }
  destruct (Fill_empty 0 spn idx0 cfg0) as (HF0 & HL0); [|assumption..|].
  { intros x Hx. split; [auto|lia]. }
  eapply safe_bind.
  { apply (safe_forM EvX (fun b (f : fill_st) => let '(_, idx, cfg) := f in
      Fill 0 spn idx cfg /\ Loc b cfg)); [lia|auto|].
    intros i ((q, idx), cfg) Hi (HF & HL). exact (safe_place_local_fsz spn Hs i (q, idx, cfg) Hi HF HL). }
  intros ((p1, idx1), cfg1) (HF1 & HL1).
  eapply safe_bind.
  { apply (safe_forM EvX (fun b (f : fill_st) => let '(_, idx, cfg) := f in
      Fill 0 spn idx cfg /\ Loc N cfg /\ FilledTo b idx)); [lia| |].
    - repeat (split; [assumption|]). intros x Hx. lia.
    - intros x ((q, idx), cfg) Hx (HF & HL & HA).
      exact (safe_place_itinerant_fsz spn Hs x (q, idx, cfg) Hx HF HL HA). }
  intros ((p2, idx2), cfg2) (HF2 & HL2 & HA2).
  eapply safe_bind; [apply safe_fill_num|]. intros num Hnum. cbn beta in Hnum.
  eapply safe_bind; [apply safe_make_cnt; eapply num_occ01; eassumption|]. intros cnt Hcnt.
  cbn [safe snd]. unfold InvF. cbn [eleIdx eleCfg eleNum eleProjCnt eleSpn]. split.
  - eapply Fill_done; eassumption.
  - intros _. unfold ups. rewrite <- (ups_threshold M up_init) by assumption.
    apply zsum_ext. intros x Hx. apply zrange_in in Hx. now rewrite Hspn.
Qed.
End ProofsI.
