(** General spins: the streams that undo a proposal. *)
From Coq Require Import ZArith List Bool Lia Reals.
From Verif Require Import Base.ZLoop Base.Checked Proj.Model Proj.Spec Samp.Prog Samp.Model Samp.Spec Samp.Hoare Samp.Config Samp.Exch Mark.Model Mark.Spec Mark.Words Mark.Reverse Mark.ReverseStd.
Import ListNotations.
Local Open Scope Z_scope.

Lemma same_idx_spn_spec Ne w w' : same_idx_spn Ne w w' = true <-> forall m, 0 <= m < 2 * Ne -> eleIdx w m = eleIdx w' m /\ eleSpn w m = eleSpn w' m.
Proof.
  unfold same_idx_spn. rewrite forallb_forall. split; intros H m Hm.
  - assert (X := H m). rewrite zrange_in in X. specialize (X Hm). apply andb_prop in X. now rewrite <- !Z.eqb_eq.
  - apply zrange_in in Hm. destruct (H m Hm) as (-> & ->). now rewrite !Z.eqb_refl.
Qed.

Lemma pair_split {A B} (a : A) (b : B) c : (a, b) = c -> a = fst c /\ b = snd c. Proof. intros <-. auto. Qed.
Lemma ret_inj {K E A B} (a : A) (b : B) c d : (Ret (a, b) : Prog.prog K E (A * B)) = Ret (c, d) -> a = c /\ b = d. Proof. intros H. injection H. auto. Qed.
Section Fsz.
Variable I : input.
Variable Orc : oracles.
Hypothesis wf : wf_input I.
Notation N := (Nsite (T I)).
Notation Ne := (Samp.Model.Ne I).
Let HN : 0 < N := wf_sites I wf.
Let HNe : 0 < Ne := wf_ne I wf.
Variable n : nat.
Notation O r := (with_stream Orc r n).
Lemma elec_range w m : consistent_fsz N Ne w -> 0 <= m < 2 * Ne -> 0 <= eleIdx w m < N /\ 0 <= eleSpn w m <= 1 /\ eleCfg w (eleIdx w m + eleSpn w m * N) = m.
Proof. intros Hc Hm. destruct (f_elec _ _ _ Hc m Hm) as (r & s & -> & -> & A & B & C). auto. Qed.
Lemma pick_hop_fsz_eq r w p : consistent_fsz N Ne w ->
  pick_hop_fsz I (O r) w p = Ret (p + 1, let mi := r p mod (2 * Ne) in if LocSpn I (eleIdx w mi) =? 1 then None else Some (mi, eleSpn w mi, eleIdx w mi)).
Proof.
  intros Hc. unfold pick_hop_fsz. cbn [rnd with_stream]. rewrite umod_ok by lia. cbn [bindP]. assert (Hm := Z.mod_pos_bound (r p) (2 * Ne) ltac:(lia)).
  destruct (elec_range w _ Hc Hm) as (A & B & _). rewrite !get_ok by assumption. cbn [bindP]. rewrite get_ok by assumption. reflexivity.
Qed.
Lemma pick_local_eq r w p : consistent_fsz N Ne w ->
  pick_local I (O r) w p = Ret (p + 1, let mi := r p mod (2 * Ne) in if LocSpn I (eleIdx w mi) =? 0 then None else Some (mi, eleSpn w mi, eleIdx w mi)).
Proof.
  intros Hc. unfold pick_local. cbn [rnd with_stream]. rewrite umod_ok by lia. cbn [bindP]. assert (Hm := Z.mod_pos_bound (r p) (2 * Ne) ltac:(lia)).
  destruct (elec_range w _ Hc Hm) as (A & B & _). rewrite !get_ok by assumption. cbn [bindP]. rewrite get_ok by assumption. reflexivity.
Qed.
Lemma pick_single_fsz_eq r w p : consistent_fsz N Ne w ->
  pick_single_fsz I (O r) w p = Ret (p + 1, let mi := r p mod (2 * Ne) in if eleCfg w (eleIdx w mi + (1 - eleSpn w mi) * N) =? -1 then Some (mi, eleSpn w mi, eleIdx w mi) else None).
Proof.
  intros Hc. unfold pick_single_fsz. cbn [rnd with_stream]. rewrite umod_ok by lia. cbn [bindP]. assert (Hm := Z.mod_pos_bound (r p) (2 * Ne) ltac:(lia)).
  destruct (elec_range w _ Hc Hm) as (A & B & _). rewrite !get_ok by assumption. cbn [bindP]. rewrite get_ok by nia. reflexivity.
Qed.
Lemma pick_partner_fsz_eq r w t p : consistent_fsz N Ne w -> 0 <= t <= 1 ->
  pick_partner_fsz I (O r) w t p = Ret (p + 1, let mj := r p mod (2 * Ne) in if (eleSpn w mj =? t) && (eleCfg w (eleIdx w mj + (1 - eleSpn w mj) * N) =? -1) then Some (mj, eleIdx w mj) else None).
Proof.
  intros Hc Ht. unfold pick_partner_fsz. cbn [rnd with_stream]. rewrite umod_ok by lia. cbn [bindP]. assert (Hm := Z.mod_pos_bound (r p) (2 * Ne) ltac:(lia)).
  destruct (elec_range w _ Hc Hm) as (A & B & _). rewrite !get_ok by assumption. cbn [bindP]. rewrite get_ok by nia. cbn [bindP]. cbv zeta.
  destruct (Z.eqb_spec (eleSpn w (r p mod (2 * Ne))) t) as [->|E]; cbn [andb]; [now destruct (_ =? _)|]. now destruct (_ =? _).
Qed.
Lemma pick_hop_fsz_mono r w : consistent_fsz N Ne w -> forall q q' o, pick_hop_fsz I (O r) w q = Ret (q', o) -> q < q'.
Proof. intros Hc q q' o. rewrite pick_hop_fsz_eq by exact Hc. intros E. injection E as <- _. lia. Qed.
Lemma pick_local_mono r w : consistent_fsz N Ne w -> forall q q' o, pick_local I (O r) w q = Ret (q', o) -> q < q'.
Proof. intros Hc q q' o. rewrite pick_local_eq by exact Hc. intros E. injection E as <- _. lia. Qed.
Lemma pick_single_fsz_mono r w : consistent_fsz N Ne w -> forall q q' o, pick_single_fsz I (O r) w q = Ret (q', o) -> q < q'.
Proof. intros Hc q q' o. rewrite pick_single_fsz_eq by exact Hc. intros E. injection E as <- _. lia. Qed.
Lemma pick_partner_fsz_mono r w t : consistent_fsz N Ne w -> 0 <= t <= 1 -> forall q q' o, pick_partner_fsz I (O r) w t q = Ret (q', o) -> q < q'.
Proof. intros Hc Ht q q' o. rewrite pick_partner_fsz_eq by assumption. intros E. injection E as <- _. lia. Qed.
Lemma pick_hop_fsz_search r w fuel p p0 mi s ri : consistent_fsz N Ne w -> search fuel (pick_hop_fsz I (O r) w) p = Ret (p0, (mi, s, ri)) -> LocSpn I ri <> 1.
Proof.
  intros Hc. revert p. induction fuel as [|fuel IH]; intros p; cbn [search]; [discriminate|]. rewrite pick_hop_fsz_eq by exact Hc. cbn [bindP fst snd]. cbv zeta.
  destruct (Z.eqb_spec (LocSpn I (eleIdx w (r p mod (2 * Ne)))) 1) as [X|X]; [apply IH|]. intros H. injection H as <- <- <- <-. exact X.
Qed.
Lemma busy_eq_fsz {r} w x s : 0 <= x < N -> 0 <= s <= 1 -> busy I (O r) w x s = Ret (busyb I w x s).
Proof. intros Hx Hs. now apply busy_eq. Qed.
Lemma hop_target_fsz_sim r w w' a b s t :
  (forall x u, 0 <= x < N -> 0 <= u <= 1 -> let v := swap_place a b s t x u in 0 <= fst v < N /\ 0 <= snd v <= 1 /\ busyb I w' (fst v) (snd v) = busyb I w x u) ->
  forall k q p1 rj u flag, hop_target_fsz I (O r) w k q = Ret (p1, rj, u, flag) -> flag <> 1 ->
  q + 2 <= p1 /\ flag = 0 /\
  (forall r', (forall i, q <= i -> i + 1 < p1 -> (i - q) mod 2 = 0 -> (r' i mod N, coin (r' (i + 1))) = swap_place a b s t (r i mod N) (coin (r (i + 1)))) ->
     hop_target_fsz I (O r') w' k q = Ret (p1, fst (swap_place a b s t rj u), snd (swap_place a b s t rj u), 0)).
Proof.
  intros Hb. induction k as [|k IH]; intros q p1 rj u flag E Hf; cbn [hop_target_fsz] in E; cbn [rnd with_stream] in E; rewrite umod_ok in E by exact HN; cbn [bindP] in E.
  - injection E as <- <- <- <-. congruence.
  - assert (Hm := Z.mod_pos_bound (r q) N HN). assert (Hu := coin_01 (r (q + 1))). destruct (Hb _ _ Hm Hu) as (B1 & B2 & B3). cbv zeta in E. rewrite busy_eq_fsz in E by assumption. cbn [bindP] in E.
    destruct (busyb I w (r q mod N) (coin (r (q + 1)))) eqn:Eb.
    + destruct (IH _ _ _ _ _ E Hf) as (A1 & A2 & A5). split; [lia|]. split; [exact A2|]. intros r' H'. cbn [hop_target_fsz rnd with_stream]. rewrite umod_ok by exact HN. cbn [bindP]. cbv zeta.
      assert (X := H' q ltac:(lia) ltac:(lia)). rewrite Z.sub_diag in X. specialize (X eq_refl). apply pair_split in X. destruct X as (X1 & X2). rewrite X1, X2.
      rewrite busy_eq_fsz by assumption. rewrite B3. cbn [bindP]. apply A5. intros i Hi Hi' Hm'. apply H'; [lia|lia|]. replace (i - q) with (i - (q + 2) + 1 * 2) by lia. now rewrite Z.mod_add by lia.
    + injection E as <- <- <- <-. split; [lia|]. split; [reflexivity|]. intros r' H'. cbn [hop_target_fsz rnd with_stream]. rewrite umod_ok by exact HN. cbn [bindP]. cbv zeta.
      assert (X := H' q ltac:(lia) ltac:(lia)). rewrite Z.sub_diag in X. specialize (X eq_refl). apply pair_split in X. destruct X as (X1 & X2). rewrite X1, X2.
      rewrite busy_eq_fsz by assumption. rewrite B3. reflexivity.
Qed.
Definition put_elec (mi ri rj s t : Z) (w : walker) : walker :=
  Walker (upd (eleIdx w) mi rj) (upd (upd (eleCfg w) (ri + s * N) (-1)) (rj + t * N) mi) (upd (upd (eleNum w) (ri + s * N) 0) (rj + t * N) 1) (eleProjCnt w) (upd (eleSpn w) mi t).
Lemma update_fsz_eval r mi ri rj s t w : 0 <= mi < 2 * Ne -> 0 <= s <= 1 -> 0 <= t <= 1 -> 0 <= ri < N -> 0 <= rj < N ->
  update_ele_config_fsz I (O r) mi ri rj s t w = Ret (put_elec mi ri rj s t w).
Proof. intros H1 H2 H2' H3 H4. unfold update_ele_config_fsz. repeat (rewrite put_ok by nia; cbn [bindP]). reflexivity. Qed.

Section Two.
Variables w w' : walker.
Hypothesis Hc : consistent_fsz N Ne w.
Hypothesis Hc' : consistent_fsz N Ne w'.
Hypothesis Hl : locals_single I w.
Hypothesis Hl' : locals_single I w'.
Let HC := proj1 (consistent_fsz_Cons N Ne w) Hc.
Let HC' := proj1 (consistent_fsz_Cons N Ne w') Hc'.
(** one electron moved *)
Record one_facts (mi ri rj s t : Z) : Prop := {
  of_mi : 0 <= mi < 2 * Ne; of_s : 0 <= s <= 1; of_t : 0 <= t <= 1; of_ri : 0 <= ri < N; of_rj : 0 <= rj < N;
  of_idx : eleIdx w mi = ri; of_spn : eleSpn w mi = s; of_free : eleCfg w (rj + t * N) = -1; of_loc : (LocSpn I ri <> 1 /\ LocSpn I rj <> 1) \/ rj = ri
}.
Lemma one_info r p p1 mi ri rj s t flag gen :
  (gen = make_candidate_hopping_fsz I (O r) w p \/ gen = make_candidate_hopping_csz I (O r) w p \/
   gen = make_candidate_flip_localspin I (O r) w p \/ gen = make_candidate_flip_conduction I (O r) w p) ->
  gen = Ret (p1, (mi, ri, rj, s, t), flag) -> flag <> 1 -> one_facts mi ri rj s t.
Proof.
  intros Hg E Hf. destruct (proposals_range_fsz I (O r) w p gen [] (Done (p1, (mi, ri, rj, s, t), flag)) wf Hc Hl Hg) as (_ & L); [rewrite E; constructor|].
  destruct (L _ _ _ _ _ _ _ eq_refl) as (A1 & A2 & A3 & A4 & A5 & A6). destruct (A6 Hf) as (B1 & B2 & B3 & B4). constructor; try assumption.
  destruct (f_site _ _ _ Hc rj t B1 B2) as [(X & _)|(m & _ & _ & X & _)]; [exact X|lia].
Qed.
Section Moved.
Variables mi ri rj s t : Z.
Hypothesis F : one_facts mi ri rj s t.
Hypothesis Ei : forall m, 0 <= m < 2 * Ne -> eleIdx w' m = upd (eleIdx w) mi rj m.
Hypothesis Es : forall m, 0 <= m < 2 * Ne -> eleSpn w' m = upd (eleSpn w) mi t m.
Lemma swap_busy x u : LocSpn I ri <> 1 -> LocSpn I rj <> 1 -> 0 <= x < N -> 0 <= u <= 1 -> let v := swap_place ri rj s t x u in 0 <= fst v < N /\ 0 <= snd v <= 1 /\ busyb I w' (fst v) (snd v) = busyb I w x u.
Proof.
  intros L1 L2 Hx Hu v. destruct F as [F1 F2 F3 F4 F5 F6 F7 F8 _].
  assert (R := swap_place_range N ri rj F4 F5 s t F2 F3 x u Hx Hu). destruct R as (R1 & R2). split; [exact R1|]. split; [exact R2|].
  unfold busyb. assert (Q := swap_free N (2 * Ne) 0 _ _ _ _ _ _ _ _ HC HC' mi rj t F1 F5 F3 F8 Ei Es x u Hx Hu). rewrite F6, F7 in Q. fold v in Q. rewrite Q.
  destruct (eleCfg w' _ =? -1) eqn:EE; [|reflexivity]. unfold v, swap_place. destruct ((x =? ri) && (u =? s)) eqn:X1; [|destruct ((x =? rj) && (u =? t)) eqn:X2; [|reflexivity]].
  - apply andb_prop in X1. destruct X1 as (X1 & _). apply Z.eqb_eq in X1. subst x. cbn [fst]. lia.
  - apply andb_prop in X2. destruct X2 as (X2 & _). apply Z.eqb_eq in X2. subst x. cbn [fst]. lia.
Qed.
Definition pick_map (a : Z * Z * Z) : Z * Z * Z := let '(m, _, _) := a in (m, eleSpn w' m, eleIdx w' m).
Lemma pick_hop_back r r' p p0 a : LocSpn I ri <> 1 -> LocSpn I rj <> 1 -> search n (pick_hop_fsz I (O r) w) p = Ret (p0, a) -> (forall i, p <= i < p0 -> r' i = r i) ->
  p < p0 /\ search n (pick_hop_fsz I (O r') w') p = Ret (p0, pick_map a).
Proof.
  intros L1 L2 E R1. destruct F as [F1 F2 F3 F4 F5 F6 F7 F8 _]. apply (search_sim (pick_hop_fsz I (O r) w) (pick_hop_fsz I (O r') w') pick_map n p p0 a (pick_hop_fsz_mono r w Hc) E).
  intros q q' o Hq Hq'. rewrite !pick_hop_fsz_eq by assumption. intros Eo. apply ret_inj in Eo. destruct Eo as (<- & <-). rewrite !R1 by lia. cbv zeta.
  set (m := r q mod (2 * Ne)). assert (Hm : 0 <= m < 2 * Ne) by (apply Z.mod_pos_bound; lia).
  rewrite (Ei m Hm), upd_get. destruct (Z.eqb_spec m mi) as [X|X].
  - rewrite X, F6. replace (LocSpn I ri =? 1) with false by lia. replace (LocSpn I rj =? 1) with false by lia. cbn [option_map pick_map]. rewrite (Ei _ F1), upd_same. reflexivity.
  - destruct (LocSpn I (eleIdx w m) =? 1); [reflexivity|]. cbn [option_map pick_map]. rewrite (Ei m Hm), upd_other by exact X. reflexivity.
Qed.
Lemma idx_mi : eleIdx w' mi = rj. Proof. rewrite (Ei _ (of_mi _ _ _ _ _ F)). apply upd_same. Qed.
Lemma spn_mi : eleSpn w' mi = t. Proof. rewrite (Es _ (of_mi _ _ _ _ _ F)). apply upd_same. Qed.
Lemma hop_fsz_reverse r p p1 flag : make_candidate_hopping_fsz I (O r) w p = Ret (p1, (mi, ri, rj, s, t), flag) -> flag <> 1 ->
  exists p0, search n (pick_hop_fsz I (O r) w) p = Ret (p0, (mi, s, ri)) /\ p < p0 <= p1 /\
  forall r', (forall i, p <= i < p0 -> r' i = r i) ->
   (forall i, p0 <= i -> i + 1 < p1 -> (i - p0) mod 2 = 0 -> (r' i mod N, coin (r' (i + 1))) = swap_place ri rj s t (r i mod N) (coin (r (i + 1)))) ->
   make_candidate_hopping_fsz I (O r') w' p = Ret (p1, (mi, rj, ri, t, s), 0).
Proof.
  intros E Hf. unfold make_candidate_hopping_fsz in *. cbn [fuel with_stream] in *. apply bind_ret in E. destruct E as ((p0, ((mi', s'), ri')) & E1 & E2).
  apply bind_ret in E2. destruct E2 as ((((p1', rj'), t'), flag') & E2 & E3). injection E3 as -> -> -> -> -> -> ->.
  assert (LL : LocSpn I ri <> 1 /\ LocSpn I rj <> 1).
  { assert (A := pick_hop_fsz_search _ _ _ _ _ _ _ _ Hc E1).
    destruct (of_loc _ _ _ _ _ F) as [B| ->]; [exact B|]. split; exact A. }
  destruct LL as (L1 & L2). exists p0. split; [exact E1|].
  destruct (hop_target_fsz_sim r w w' ri rj s t (fun x u => swap_busy x u L1 L2)) with (k := Z.to_nat (N * N + 1)) (q := p0) (p1 := p1) (rj := rj) (u := t) (flag := flag) as (A1 & _ & A3); [exact E2|exact Hf|].
  split; [split; [exact (search_pos _ _ _ _ _ (pick_hop_fsz_mono r w Hc) E1)|lia]|]. intros r' R1 R2.
  destruct (pick_hop_back r r' p p0 _ L1 L2 E1 R1) as (_ & S). rewrite S. cbn [bindP pick_map]. rewrite (A3 r' R2). cbn [bindP]. rewrite idx_mi, spn_mi.
  assert (X : swap_place ri rj s t rj t = (ri, s)).
  { unfold swap_place. rewrite !Z.eqb_refl. destruct (Z.eqb_spec rj ri), (Z.eqb_spec t s); cbn [andb]; congruence. }
  rewrite X. reflexivity.
Qed.
Lemma hop_csz_reverse r p p1 flag : make_candidate_hopping_csz I (O r) w p = Ret (p1, (mi, ri, rj, s, t), flag) -> flag <> 1 ->
  exists p0, search n (pick_hop_fsz I (O r) w) p = Ret (p0, (mi, s, ri)) /\ p < p0 <= p1 /\
  forall r', (forall i, p <= i < p0 -> r' i = r i) ->
   (forall i, p0 <= i < p1 -> r' i mod N = swap_site ri rj (r i mod N)) ->
   make_candidate_hopping_csz I (O r') w' p = Ret (p1, (mi, rj, ri, t, s), 0).
Proof.
  intros E Hf. unfold make_candidate_hopping_csz in *. cbn [fuel with_stream] in *. apply bind_ret in E. destruct E as ((p0, ((mi', s'), ri')) & E1 & E2).
  apply bind_ret in E2. destruct E2 as (((p1', rj'), flag') & E2 & E3). injection E3 as -> -> -> -> -> Et ->. assert (Ets : t = s) by (symmetry; exact Et).
  assert (LL : LocSpn I ri <> 1 /\ LocSpn I rj <> 1).
  { assert (A := pick_hop_fsz_search _ _ _ _ _ _ _ _ Hc E1).
    destruct (of_loc _ _ _ _ _ F) as [B| ->]; [exact B|]. split; exact A. }
  destruct LL as (L1 & L2). exists p0. split; [exact E1|]. destruct F as [F1 F2 F3 F4 F5 F6 F7 F8 _].
  destruct (hop_target_sim I Orc wf n r w w' s ri rj F2) with (k := Z.to_nat (N * N + 1)) (q := p0) (p1 := p1) (rj := rj) (flag := flag) as (A1 & _ & _ & _ & A3); [| |exact E2|exact Hf|].
  - intros x Hx. destruct (swap_busy x s L1 L2 Hx F2) as (_ & _ & Q). rewrite Ets, swap_place_site in Q. exact Q.
  - intros x Hx. destruct (swap_busy x s L1 L2 Hx F2) as (Q & _). rewrite Ets, swap_place_site in Q. exact Q.
  - split; [split; [exact (search_pos _ _ _ _ _ (pick_hop_fsz_mono r w Hc) E1)|lia]|]. intros r' R1 R2.
    destruct (pick_hop_back r r' p p0 _ L1 L2 E1 R1) as (_ & S). rewrite S. cbn [bindP pick_map]. rewrite spn_mi, Ets. rewrite (A3 r' R2). cbn [bindP]. rewrite idx_mi.
    do 3 f_equal. f_equal. f_equal. unfold swap_site. rewrite Z.eqb_refl. destruct (Z.eqb_spec rj ri); congruence.
Qed.
Lemma local_reverse r p p1 flag : make_candidate_flip_localspin I (O r) w p = Ret (p1, (mi, ri, rj, s, t), flag) ->
  flag = 0 /\ make_candidate_flip_localspin I (O r) w' p = Ret (p1, (mi, rj, ri, t, s), 0).
Proof.
  intros E. unfold make_candidate_flip_localspin in *. cbn [fuel with_stream] in *. apply bind_ret in E. destruct E as ((p0, ((mi', s'), ri')) & E1 & E2).
  remember (1 - s') as t' eqn:Et'. injection E2 as -> -> -> Er -> Et <-. split; [reflexivity|].
  destruct (search_sim (pick_local I (O r) w) (pick_local I (O r) w') pick_map n p p1 (mi, s, ri) (pick_local_mono r w Hc) E1) as (_ & S).
  { intros q q' o _ _. rewrite !pick_local_eq by assumption. intros Eo. apply ret_inj in Eo. destruct Eo as (<- & <-). cbv zeta. set (m := r q mod (2 * Ne)). assert (Hm : 0 <= m < 2 * Ne) by (apply Z.mod_pos_bound; lia).
    assert (X : eleIdx w' m = eleIdx w m) by (rewrite (Ei m Hm), upd_get; destruct (Z.eqb_spec m mi) as [->|]; [rewrite <- Er; symmetry; apply (of_idx _ _ _ _ _ F)|reflexivity]). rewrite X.
    destruct (_ =? _); [reflexivity|]. cbn [option_map pick_map]. now rewrite X. }
  rewrite S. cbn [bindP pick_map]. rewrite idx_mi, spn_mi. rewrite <- Er, <- Et, Et'. do 3 f_equal. f_equal. lia.
Qed.
Lemma flip_reverse r p p1 flag : make_candidate_flip_conduction I (O r) w p = Ret (p1, (mi, ri, rj, s, t), flag) -> flag <> 1 ->
  make_candidate_flip_conduction I (O r) w' p = Ret (p1, (mi, rj, ri, t, s), 0).
Proof.
  intros E Hf. unfold make_candidate_flip_conduction in *. apply bind_ret in E. destruct E as (((((p0, mi'), s'), ri'), flag') & E1 & E2).
  remember (1 - s') as t' eqn:Et'. injection E2 as -> -> -> Er -> Et ->. assert (Ets : t = t') by (symmetry; exact Et). assert (Ers : rj = ri) by (symmetry; exact Er).
  assert (FR : forall y, 0 <= y < 2 * Ne -> (eleCfg w (eleIdx w y + (1 - eleSpn w y) * N) =? -1) = (eleCfg w' (eleIdx w' y + (1 - eleSpn w' y) * N) =? -1)).
  { intros y Hy. destruct F as [F1 F2 F3 F4 F5 F6 F7 F8 _]. apply (flip_free N (2 * Ne) 0 _ _ _ _ _ _ _ _ HC HC' mi rj t F1 F5 F3 F8 Ei Es y); [now rewrite Ers|now rewrite F7, Ets|exact Hy]. }
  assert (EI : forall m, 0 <= m < 2 * Ne -> eleIdx w' m = eleIdx w m).
  { intros m Hm. rewrite (Ei m Hm), upd_get. destruct (Z.eqb_spec m mi) as [->|]; [rewrite Ers; symmetry; apply (of_idx _ _ _ _ _ F)|reflexivity]. }
  assert (G : forall k q, flip_target I (O r) w k q = Ret (p1, mi, s, ri, flag) -> flip_target I (O r) w' k q = Ret (p1, mi, t, ri, 0)).
  { clear E1. induction k as [|k IH]; intros q; cbn [flip_target rnd with_stream]; rewrite umod_ok by lia; cbn [bindP]; set (m := r q mod (2 * Ne));
      (assert (Hm : 0 <= m < 2 * Ne) by (apply Z.mod_pos_bound; lia)); destruct (elec_range w m Hc Hm) as (A1 & A2 & _), (elec_range w' m Hc' Hm) as (B1 & B2 & _);
      rewrite !get_ok by assumption; cbn [bindP].
    - intros H. injection H as _ _ _ _ H. congruence.
    - rewrite (EI m Hm). rewrite !get_ok by exact A1. cbn [bindP]. destruct (Z.eqb_spec (LocSpn I (eleIdx w m)) 1) as [X|X]; cbn [bindP]; [apply IH|].
      rewrite !get_ok by nia. cbn [bindP]. assert (Q := FR m Hm). rewrite (EI m Hm) in Q. rewrite <- Q. destruct (eleCfg w (eleIdx w m + (1 - eleSpn w m) * N) =? -1); cbn [negb]; [|apply IH].
      intros H. injection H as <- Hmi _ Hri _. rewrite Hmi. rewrite <- Hmi at 1. rewrite Hmi, (Es _ (of_mi _ _ _ _ _ F)), upd_same. do 3 f_equal. rewrite <- Hri, <- Hmi. reflexivity. }
  rewrite (G _ _ E1). cbn [bindP]. rewrite Ers, Ets, Et'. do 3 f_equal. f_equal. lia.
Qed.
End Moved.
End Two.
End Fsz.
