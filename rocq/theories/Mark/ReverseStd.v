(** Fixed spins: the streams that undo a proposal. *)
From Coq Require Import ZArith List Bool Lia Reals.
From Verif Require Import Base.ZLoop Base.Checked Proj.Model Proj.Spec Samp.Prog Samp.Model Samp.Spec Samp.Hoare Samp.Config Samp.Exch Mark.Model Mark.Spec Mark.Words Mark.Reverse.
Import ListNotations.
Local Open Scope Z_scope.

Lemma swap_place_site a b s x : swap_place a b s s x s = (swap_site a b x, s).
Proof. unfold swap_place, swap_site. rewrite Z.eqb_refl, !andb_true_r. destruct (x =? a), (x =? b); reflexivity. Qed.
Lemma type_agree I Orc r r' n q p ut : get_update_type I (with_stream Orc r n) q = (p, ut) -> q <= p /\ ((forall i, q <= i < p -> r' i = r i) -> get_update_type I (with_stream Orc r' n) q = (p, ut)).
Proof.
  unfold get_update_type. cbn [rnd with_stream].
  destruct (NExUpdatePath I =? 0); [intros E; injection E as <- <-; split; [lia|reflexivity]|].
  destruct (NExUpdatePath I =? 1); [intros E; injection E as <- <-; split; [lia|intros H; now rewrite H by lia]|].
  destruct (NExUpdatePath I =? 2).
  { destruct (iFlgOrbitalGeneral I =? 0); [intros E; injection E as <- <-; split; [lia|reflexivity]|].
    destruct (TwoSz I =? -1); intros E; injection E as <- <-; (split; [lia|]); [intros H; now rewrite H by lia|reflexivity]. }
  destruct (NExUpdatePath I =? 3); [|intros E; injection E as <- <-; split; [lia|reflexivity]].
  destruct (coin (r q) =? 0) eqn:C; intros E; injection E as <- <-; (split; [lia|]); intros H; rewrite !H by lia; now rewrite C.
Qed.
Lemma same_idx_spec Ne w w' : same_idx Ne w w' = true <-> forall m, 0 <= m < 2 * Ne -> eleIdx w m = eleIdx w' m.
Proof.
  unfold same_idx. rewrite forallb_forall. split; intros H m Hm.
  - apply Z.eqb_eq. apply H. now apply zrange_in.
  - apply Z.eqb_eq. apply H. now apply zrange_in.
Qed.

Section Std.
Variable I : input.
Variable Orc : oracles.
Hypothesis wf : wf_input I.
Notation N := (Nsite (T I)).
Notation Ne := (Samp.Model.Ne I).
Let HN : 0 < N := wf_sites I wf.
Let HNe : 0 < Ne := wf_ne I wf.
Variable n : nat.
Notation O r := (with_stream Orc r n).
Lemma pick_hop_eq r w p : consistent N Ne w ->
  pick_hop I (O r) w p = Ret (p + 2, let mi := r p mod Ne in let s := coin (r (p + 1)) in let ri := eleIdx w (mi + s * Ne) in if LocSpn I ri =? 1 then None else Some (mi, s, ri)).
Proof.
  intros Hc. unfold pick_hop. cbn [rnd with_stream]. rewrite umod_ok by exact HNe. cbn [bindP].
  assert (Hm := Z.mod_pos_bound (r p) Ne HNe). assert (Hs := coin_01 (r (p + 1))). destruct (c_elec _ _ _ Hc _ _ Hm Hs) as (ri & E & Hr & _).
  rewrite get_ok by nia. cbn [bindP]. rewrite get_ok by (rewrite E; exact Hr). reflexivity.
Qed.
Lemma pick_single_eq r w p : consistent N Ne w ->
  pick_single I (O r) w p = Ret (p + 2, let mi := r p mod Ne in let s := coin (r (p + 1)) in let ri := eleIdx w (mi + s * Ne) in if eleCfg w (ri + (1 - s) * N) =? -1 then Some (mi, s, ri) else None).
Proof.
  intros Hc. unfold pick_single. cbn [rnd with_stream]. rewrite umod_ok by exact HNe. cbn [bindP].
  assert (Hm := Z.mod_pos_bound (r p) Ne HNe). assert (Hs := coin_01 (r (p + 1))). destruct (c_elec _ _ _ Hc _ _ Hm Hs) as (ri & E & Hr & _).
  rewrite get_ok by nia. cbn [bindP]. rewrite get_ok by (rewrite E; nia). reflexivity.
Qed.
Lemma pick_partner_eq r w t p : consistent N Ne w -> 0 <= t <= 1 ->
  pick_partner I (O r) w t p = Ret (p + 1, let mj := r p mod Ne in let rj := eleIdx w (mj + t * Ne) in if eleCfg w (rj + (1 - t) * N) =? -1 then Some (mj, rj) else None).
Proof.
  intros Hc Ht. unfold pick_partner. cbn [rnd with_stream]. rewrite umod_ok by exact HNe. cbn [bindP].
  assert (Hm := Z.mod_pos_bound (r p) Ne HNe). destruct (c_elec _ _ _ Hc _ _ Hm Ht) as (rj & E & Hr & _).
  rewrite get_ok by nia. cbn [bindP]. rewrite get_ok by (rewrite E; nia). reflexivity.
Qed.
Definition busyb (w : walker) (x s : Z) : bool := if eleCfg w (x + s * N) =? -1 then LocSpn I x =? 1 else true.
Lemma busy_eq {r} w x s : 0 <= x < N -> 0 <= s <= 1 -> busy I (O r) w x s = Ret (busyb w x s).
Proof. intros Hx Hs. unfold busy, busyb. rewrite get_ok by nia. cbn [bindP]. destruct (_ =? _); [|reflexivity]. now rewrite get_ok by exact Hx. Qed.
Lemma hop_target_sim r w w' s a b : 0 <= s <= 1 -> (forall x, 0 <= x < N -> busyb w' (swap_site a b x) s = busyb w x s) -> (forall x, 0 <= x < N -> 0 <= swap_site a b x < N) ->
  forall k q p1 rj flag, hop_target I (O r) w s k q = Ret (p1, rj, flag) -> flag <> 1 ->
  q < p1 /\ 0 <= rj < N /\ flag = 0 /\ busyb w rj s = false /\
  (forall r', (forall i, q <= i < p1 -> r' i mod N = swap_site a b (r i mod N)) -> hop_target I (O r') w' s k q = Ret (p1, swap_site a b rj, 0)).
Proof.
  intros Hs Hb Hr. induction k as [|k IH]; intros q p1 rj flag E Hf; cbn [hop_target] in E; cbn [rnd with_stream] in E; rewrite umod_ok in E by exact HN; cbn [bindP] in E.
  - injection E as <- <- <-. congruence.
  - assert (Hm := Z.mod_pos_bound (r q) N HN). rewrite busy_eq in E by assumption. cbn [bindP] in E. destruct (busyb w (r q mod N) s) eqn:Eb.
    + destruct (IH _ _ _ _ E Hf) as (A1 & A2 & A3 & A4 & A5). repeat (split; [lia || assumption|]). intros r' H'. cbn [hop_target rnd with_stream]. rewrite umod_ok by exact HN. cbn [bindP].
      rewrite (H' q) by lia. rewrite busy_eq by (auto || assumption). rewrite Hb by exact Hm. rewrite Eb. cbn [bindP]. apply A5. intros i Hi. apply H'. lia.
    + injection E as <- <- <-. repeat (split; [lia || assumption|]). intros r' H'. cbn [hop_target rnd with_stream]. rewrite umod_ok by exact HN. cbn [bindP].
      rewrite (H' q) by lia. rewrite busy_eq by (auto || assumption). rewrite Hb by exact Hm. rewrite Eb. reflexivity.
Qed.
Lemma update_eval r mi ri rj s w : 0 <= mi < Ne -> 0 <= s <= 1 -> 0 <= ri < N -> 0 <= rj < N ->
  update_ele_config I (O r) mi ri rj s w = Ret (Walker (upd (eleIdx w) (mi + s * Ne) rj) (upd (upd (eleCfg w) (ri + s * N) (-1)) (rj + s * N) mi)
    (upd (upd (eleNum w) (ri + s * N) 0) (rj + s * N) 1) (eleProjCnt w) (eleSpn w)).
Proof. intros H1 H2 H3 H4. unfold update_ele_config. repeat (rewrite put_ok by nia; cbn [bindP]). reflexivity. Qed.

(** what a proposed hop is *)
Record hop_facts (r : Z -> Z) (w : walker) (p p0 p1 mi ri rj s : Z) : Prop := {
  hf_mi : 0 <= mi < Ne; hf_s : 0 <= s <= 1; hf_ri : 0 <= ri < N; hf_rj : 0 <= rj < N;
  hf_idx : eleIdx w (mi + s * Ne) = ri; hf_free : eleCfg w (rj + s * N) = -1; hf_li : LocSpn I ri <> 1; hf_lj : LocSpn I rj <> 1;
  hf_pos : p < p0 < p1;
  hf_search : search n (pick_hop I (O r) w) p = Ret (p0, (mi, s, ri))
}.
Lemma pick_hop_mono r w : consistent N Ne w -> forall q q' o, pick_hop I (O r) w q = Ret (q', o) -> q < q'.
Proof. intros Hc q q' o. rewrite pick_hop_eq by exact Hc. intros E. injection E as <- _. lia. Qed.
Lemma pick_single_mono r w : consistent N Ne w -> forall q q' o, pick_single I (O r) w q = Ret (q', o) -> q < q'.
Proof. intros Hc q q' o. rewrite pick_single_eq by exact Hc. intros E. injection E as <- _. lia. Qed.
Lemma pick_partner_mono r w t : consistent N Ne w -> 0 <= t <= 1 -> forall q q' o, pick_partner I (O r) w t q = Ret (q', o) -> q < q'.
Proof. intros Hc Ht q q' o. rewrite pick_partner_eq by assumption. intros E. injection E as <- _. lia. Qed.
Lemma pick_hop_search r w fuel p p0 mi s ri : consistent N Ne w -> search fuel (pick_hop I (O r) w) p = Ret (p0, (mi, s, ri)) ->
  0 <= mi < Ne /\ 0 <= s <= 1 /\ eleIdx w (mi + s * Ne) = ri /\ LocSpn I ri <> 1.
Proof.
  intros Hc. revert p. induction fuel as [|fuel IH]; intros p; cbn [search]; [discriminate|]. rewrite pick_hop_eq by exact Hc. cbn [bindP fst snd]. cbv zeta.
  destruct (Z.eqb_spec (LocSpn I (eleIdx w (r p mod Ne + coin (r (p + 1)) * Ne))) 1) as [E|E]; [apply IH|]. intros H. injection H as <- <- <- <-.
  split; [now apply Z.mod_pos_bound|]. split; [apply coin_01|]. auto.
Qed.
Lemma hop_info r w p p1 mi ri rj s flag : consistent N Ne w -> make_candidate_hopping I (O r) w p = Ret (p1, (mi, ri, rj, s), flag) -> flag <> 1 ->
  exists p0, hop_facts r w p p0 p1 mi ri rj s /\ flag = 0 /\ hop_target I (O r) w s (Z.to_nat (N * N + 1)) p0 = Ret (p1, rj, 0).
Proof.
  intros Hc E Hf. unfold make_candidate_hopping in E. cbn [fuel with_stream] in E. apply bind_ret in E. destruct E as ((p0, ((mi', s'), ri')) & E1 & E2).
  apply bind_ret in E2. destruct E2 as (((p1', rj'), flag') & E2 & E3). injection E3 as -> -> -> -> -> ->.
  destruct (pick_hop_search _ _ _ _ _ _ _ _ Hc E1) as (A1 & A2 & A3 & A4).
  assert (P := search_pos _ _ _ _ _ (pick_hop_mono r w Hc) E1).
  assert (SI : forall x, swap_site 0 0 x = x) by (intros x; unfold swap_site; destruct (Z.eqb_spec x 0); congruence).
  destruct (hop_target_sim r w w s 0 0 A2) with (k := Z.to_nat (N * N + 1)) (q := p0) (p1 := p1) (rj := rj) (flag := flag) as (B1 & B2 & B3 & B4 & _);
    [intros x Hx; now rewrite SI|intros x Hx; now rewrite SI|exact E2|exact Hf|].
  destruct (c_elec _ _ _ Hc mi s A1 A2) as (r0 & F1 & F2 & _). rewrite F1 in A3. subst r0.
  exists p0. split; [|split; [exact B3|now rewrite <- B3]]. unfold busyb in B4. destruct (Z.eqb_spec (eleCfg w (rj + s * N)) (-1)) as [X|X]; [|discriminate].
  constructor; try assumption; [intros Y; rewrite Y in B4; discriminate|lia].
Qed.

(** the two walkers *)
Variables w w' : walker.
Hypothesis Hc : consistent N Ne w.
Hypothesis Hc' : consistent N Ne w'.
Let HC : Cons N (2 * Ne) Ne (eleIdx w) (eleCfg w) (eleNum w) (spn0 Ne) := proj1 (consistent_Cons N Ne w HNe) Hc.
Let HC' : Cons N (2 * Ne) Ne (eleIdx w') (eleCfg w') (eleNum w') (spn0 Ne) := proj1 (consistent_Cons N Ne w' HNe) Hc'.
Lemma spn_label mi s : 0 <= mi < Ne -> 0 <= s <= 1 -> spn0 Ne (mi + s * Ne) = s /\ 0 <= mi + s * Ne < 2 * Ne.
Proof. intros H1 H2. unfold spn0. assert (s = 0 \/ s = 1) as [-> | ->] by lia; destruct (Z.ltb_spec (mi + 0 * Ne) Ne), (Z.ltb_spec (mi + 1 * Ne) Ne); lia. Qed.
Lemma hop_reverse r r' p p0 p1 mi ri rj s : hop_facts r w p p0 p1 mi ri rj s -> hop_target I (O r) w s (Z.to_nat (N * N + 1)) p0 = Ret (p1, rj, 0) ->
  (forall m, 0 <= m < 2 * Ne -> eleIdx w' m = upd (eleIdx w) (mi + s * Ne) rj m) ->
  (forall i, p <= i < p0 -> r' i = r i) -> (forall i, p0 <= i < p1 -> r' i mod N = swap_site ri rj (r i mod N)) ->
  make_candidate_hopping I (O r') w' p = Ret (p1, (mi, rj, ri, s), 0).
Proof.
  intros [F1 F2 F3 F4 F5 F6 F7 F8 F9 F10] E Ei R1 R2. destruct (spn_label mi s F1 F2) as (L1 & L2).
  unfold make_candidate_hopping. cbn [fuel with_stream].
  destruct (search_sim (pick_hop I (O r) w) (pick_hop I (O r') w') (fun a => let '(m, s, _) := a in (m, s, eleIdx w' (m + s * Ne))) n p p0 (mi, s, ri) (pick_hop_mono r w Hc) F10) as (_ & S).
  { intros q q' o Hq Hq'. rewrite !pick_hop_eq by assumption. intros Eo. injection Eo as <- <-. rewrite !R1 by lia. cbv zeta.
    set (m := r q mod Ne). set (u := coin (r (q + 1))). assert (Hm : 0 <= m < Ne) by now apply Z.mod_pos_bound. assert (Hu : 0 <= u <= 1) by apply coin_01.
    destruct (spn_label m u Hm Hu) as (_ & Hl). rewrite (Ei _ Hl), upd_get. destruct (Z.eqb_spec (m + u * Ne) (mi + s * Ne)) as [X|X].
    - rewrite X, F5. replace (LocSpn I ri =? 1) with false by lia. replace (LocSpn I rj =? 1) with false by lia. cbn [option_map].
      rewrite X, (Ei _ L2), upd_same. reflexivity.
    - destruct (LocSpn I (eleIdx w (m + u * Ne)) =? 1); [reflexivity|]. cbn [option_map]. rewrite (Ei _ Hl), upd_other by exact X. reflexivity. }
  rewrite S. cbn [bindP].
  destruct (hop_target_sim r w w' s ri rj F2) with (k := Z.to_nat (N * N + 1)) (q := p0) (p1 := p1) (rj := rj) (flag := 0) as (_ & _ & _ & _ & S2); [| |exact E|lia|].
  - intros x Hx. unfold busyb. assert (Q := swap_free N (2 * Ne) Ne _ _ _ _ _ _ _ _ HC HC' (mi + s * Ne) rj s L2 F4 F2 F6 Ei).
    rewrite F5, L1 in Q. rewrite (Q) with (u := s) (r := x); [|intros y Hy; rewrite upd_get; destruct (Z.eqb_spec y (mi + s * Ne)) as [->|]; [exact L1|reflexivity]|exact Hx|exact F2].
    rewrite swap_place_site. cbn [fst snd]. destruct (eleCfg w' _ =? -1) eqn:EE; [|reflexivity]. unfold swap_site. destruct (Z.eqb_spec x ri) as [->|]; [|destruct (Z.eqb_spec x rj) as [->|]; [|reflexivity]]; lia.
  - intros x Hx. apply (swap_site_range N ri rj F3 F4 x Hx).
  - rewrite (S2 r' R2). cbn [bindP]. rewrite (Ei _ L2), upd_same. do 2 f_equal. f_equal. f_equal. f_equal.
    unfold swap_site. rewrite Z.eqb_refl. destruct (Z.eqb_spec rj ri); congruence.
Qed.

Lemma exchange_info r p p1 mi ri rj s : make_candidate_exchange I (O r) w p = Ret (p1, Some (mi, ri, rj, s)) ->
  0 <= mi < Ne /\ 0 <= s <= 1 /\ 0 <= ri < N /\ 0 <= rj < N /\ eleIdx w (mi + s * Ne) = ri /\ eleCfg w (ri + (1 - s) * N) = -1 /\ eleCfg w (rj + s * N) = -1 /\
  exists mj, 0 <= mj < Ne /\ eleCfg w (rj + (1 - s) * N) = mj /\ eleIdx w (mj + (1 - s) * Ne) = rj.
Proof.
  intros E. destruct (exchange_legal I wf w Hc (O r) p [] (Done (p1, Some (mi, ri, rj, s)))) as (_ & L); [rewrite E; constructor|].
  destruct (L _ _ _ _ _ eq_refl) as (A1 & A2 & A3 & (B1 & _ & B3 & B4) & (C1 & _ & C3 & C4)). replace (1 - (1 - s)) with s in C4 by lia.
  repeat (split; [assumption|]). split; [|split].
  - destruct (c_site _ _ _ Hc ri (1 - s) B1 ltac:(lia)) as [(X & _)|(m & _ & _ & X & _)]; [exact X|lia].
  - destruct (c_site _ _ _ Hc rj s C1 A2) as [(X & _)|(m & _ & _ & X & _)]; [exact X|lia].
  - destruct (c_site _ _ _ Hc rj (1 - s) C1 ltac:(lia)) as [(_ & X)|(m & M1 & M2 & _ & M3)]; [lia|]. eauto.
Qed.
Lemma exchange_reverse r p p1 mi mj ri rj s : make_candidate_exchange I (O r) w p = Ret (p1, Some (mi, ri, rj, s)) -> eleCfg w (rj + (1 - s) * N) = mj ->
  (forall m, 0 <= m < 2 * Ne -> eleIdx w' m = upd (upd (eleIdx w) (mi + s * Ne) rj) (mj + (1 - s) * Ne) ri m) ->
  make_candidate_exchange I (O r) w' p = Ret (p1, Some (mi, rj, ri, s)).
Proof.
  intros E Emj Ei. destruct (exchange_info r p p1 mi ri rj s E) as (A1 & A2 & A3 & A4 & A5 & A6 & A7 & mj' & A8 & A9 & A10). rewrite Emj in A9. subst mj'.
  destruct (spn_label mi s A1 A2) as (L1 & L2). destruct (spn_label mj (1 - s) A8 ltac:(lia)) as (L3 & L4).
  assert (FR : forall z, 0 <= z < 2 * Ne -> (eleCfg w (eleIdx w z + (1 - spn0 Ne z) * N) =? -1) = (eleCfg w' (eleIdx w' z + (1 - spn0 Ne z) * N) =? -1)).
  { apply (exch_free N (2 * Ne) Ne _ _ _ _ _ _ _ _ HC HC' (mi + s * Ne) (mj + (1 - s) * Ne) L2 L4).
    - now rewrite L1, L3.
    - now rewrite L1, A5.
    - rewrite L3, A10. now replace (1 - (1 - s)) with s by lia.
    - intros z Hz. now rewrite A5, A10, Ei.
    - reflexivity. }
  assert (Hxy : mi + s * Ne <> mj + (1 - s) * Ne) by (clear - A1 A2 A8; assert (s = 0 \/ s = 1) as [-> | ->] by lia; lia).
  assert (Ix : eleIdx w' (mi + s * Ne) = rj) by (rewrite (Ei _ L2), upd_other by exact Hxy; apply upd_same).
  assert (Iy : eleIdx w' (mj + (1 - s) * Ne) = ri) by (rewrite (Ei _ L4); apply upd_same).
  unfold make_candidate_exchange in *. cbn [fuel with_stream] in *.
  apply bind_ret in E. destruct E as (f & E0 & E). destruct (Z.eqb_spec f 1) as [Ef|Ef]; [discriminate|].
  apply bind_ret in E. destruct E as ((p0, ((mi', s'), ri')) & E1 & E). apply bind_ret in E. destruct E as ((p1', (mj', rj')) & E2 & E). injection E as -> -> -> -> ->.
  assert (Hl : forall x, In x (zrange 0 N) -> 0 <= x < N) by (intros x; apply zrange_in).
  destruct (scan_single_spec I w' (O r) (zrange 0 N) Hl) as [(_ & H)|(Es & _)].
  { exfalso. assert (SG : single N w' rj s). { rewrite <- Ix. apply (elec_single I w' Hc'); try assumption. apply Z.eqb_eq. rewrite <- L1 at 2. rewrite <- FR by exact L2. rewrite L1, A5. now apply Z.eqb_eq. }
    apply (H rj); [now apply zrange_in|]. exact (single_sum I w' rj s SG). }
  rewrite Es. cbn [bindP Z.eqb].
  destruct (search_sim (pick_single I (O r) w) (pick_single I (O r) w') (fun a => let '(m, s, _) := a in (m, s, eleIdx w' (m + s * Ne))) n p p0 (mi, s, ri) (pick_single_mono r w Hc) E1) as (_ & S).
  { intros q q' o _ _. rewrite !pick_single_eq by assumption. intros Eo. injection Eo as <- <-. cbv zeta.
    set (m := r q mod Ne). set (u := coin (r (q + 1))). assert (Hm : 0 <= m < Ne) by now apply Z.mod_pos_bound. assert (Hu : 0 <= u <= 1) by apply coin_01.
    destruct (spn_label m u Hm Hu) as (Eu & Hl'). assert (FF := FR _ Hl'). rewrite Eu in FF. rewrite <- FF. destruct (_ =? _); reflexivity. }
  rewrite S. cbn [bindP]. rewrite Ix.
  destruct (search_sim (pick_partner I (O r) w (1 - s)) (pick_partner I (O r) w' (1 - s)) (fun a => (fst a, eleIdx w' (fst a + (1 - s) * Ne))) n p0 p1 (mj', rj)
    (pick_partner_mono r w (1 - s) Hc ltac:(lia)) E2) as (_ & S2).
  { intros q q' o _ _. rewrite !pick_partner_eq by (assumption || lia). intros Eo. injection Eo as <- <-. cbv zeta.
    set (m := r q mod Ne). assert (Hm : 0 <= m < Ne) by now apply Z.mod_pos_bound.
    destruct (spn_label m (1 - s) Hm ltac:(lia)) as (Eu & Hl'). assert (FF := FR _ Hl'). rewrite Eu in FF. rewrite <- FF. destruct (_ =? _); reflexivity. }
  rewrite S2. cbn [bindP fst]. do 2 f_equal. f_equal. f_equal. f_equal.
  assert (Hmj : mj' = mj); [|now rewrite Hmj].
  assert (G : forall fuel p, search fuel (pick_partner I (O r) w (1 - s)) p = Ret (p1, (mj', rj)) -> 0 <= mj' < Ne /\ eleIdx w (mj' + (1 - s) * Ne) = rj).
  { clear E2 S2. induction fuel as [|fuel IH]; intros q; cbn [search]; [discriminate|]. rewrite pick_partner_eq by (assumption || lia). cbn [bindP fst snd]. cbv zeta.
    destruct (_ =? -1); [|apply IH]. intros X. injection X as _ <- <-. split; [now apply Z.mod_pos_bound|reflexivity]. }
  destruct (G _ _ E2) as (M1 & M2). destruct (c_elec _ _ _ Hc mj' (1 - s) M1 ltac:(lia)) as (r0 & N1 & N2 & N3). rewrite N1 in M2. subst r0. congruence.
Qed.

(** ** the stream that leads back *)
Definition first_diff : Z * Z :=
  match find (fun m => negb (eleIdx w m =? eleIdx w' m)) (zrange 0 (2 * Ne)) with Some m => (eleIdx w m, eleIdx w' m) | None => (0, 0) end.
Lemma idx_range w0 m : consistent N Ne w0 -> 0 <= m < 2 * Ne -> 0 <= eleIdx w0 m < N.
Proof. intros H Hm. apply (proj1 (consistent_Cons N Ne w0 HNe)) in H. now apply (k_elec _ _ _ _ _ _ _ H). Qed.
Lemma first_diff_range : 0 <= fst first_diff < N /\ 0 <= snd first_diff < N.
Proof.
  unfold first_diff. destruct (find _ _) as [m|] eqn:E; [|cbn; lia]. apply find_some in E. destruct E as (E & _). apply zrange_in in E. cbn [fst snd]. split; now apply idx_range.
Qed.
Lemma first_diff_one x rj : 0 <= x < 2 * Ne -> rj <> eleIdx w x -> (forall m, 0 <= m < 2 * Ne -> eleIdx w' m = upd (eleIdx w) x rj m) -> first_diff = (eleIdx w x, rj).
Proof.
  intros Hx Hne Ei. unfold first_diff. destruct (find _ _) as [m|] eqn:E.
  - apply find_some in E. destruct E as (E1 & E2). apply zrange_in in E1. rewrite (Ei m E1), upd_get in E2. destruct (Z.eqb_spec m x) as [->|]; [|now rewrite Z.eqb_refl in E2].
    rewrite (Ei x Hx), upd_same. reflexivity.
  - exfalso. assert (Q := find_none _ _ E x). cbn beta in Q. rewrite zrange_in, (Ei x Hx), upd_same in Q. specialize (Q Hx). apply negb_false_iff, Z.eqb_eq in Q. congruence.
Qed.
Definition pos (l : list Z) : option Z :=
  let (p, ut) := get_update_type I (O (word_at l)) 0 in
  match ut with HOPPING => match search n (pick_hop I (O (word_at l)) w) p with Ret (p0, _) => Some p0 | _ => None end | _ => None end.
Definition back : list Z -> list Z := change pos (swap_words wordsize N (fst first_diff) (snd first_diff)).
Lemma back_words l : In l (words wordsize n) -> In (back l) (words wordsize n) /\ back (back l) = l.
Proof.
  apply change_words.
  - intros m. destruct first_diff_range as (A1 & A2). now apply swap_words_ok.
  - intros l' _ p E. unfold pos in *. destruct (get_update_type I (O (word_at l')) 0) as (q, ut) eqn:Eq. destruct ut; try discriminate.
    destruct (search n (pick_hop I (O (word_at l')) w) q) as [(p0, a)| | | |] eqn:Es; try discriminate. injection E as ->.
    set (l2 := tail_map (Z.to_nat p) _ l'). assert (Hq := search_pos _ _ _ _ _ (pick_hop_mono (word_at l') w Hc) Es).
    destruct (type_agree I Orc (word_at l') (word_at l2) n 0 q HOPPING Eq) as (Q0 & Q).
    assert (Ag : forall i, 0 <= i < p -> word_at l2 i = word_at l' i) by (intros i Hi; apply tail_map_below; [reflexivity|lia]).
    rewrite Q by (intros i Hi; apply Ag; lia).
    destruct (search_sim (pick_hop I (O (word_at l')) w) (pick_hop I (O (word_at l2)) w) (fun a => a) n q p a (pick_hop_mono (word_at l') w Hc) Es) as (_ & S); [|now rewrite S].
    intros i i' o Hi Hi'. rewrite !pick_hop_eq by assumption. intros Eo. injection Eo as <- <-. rewrite !Ag by lia. cbv zeta. now destruct (_ =? _).
Qed.
Lemma propose_reverse l p c w1 : In l (words wordsize n) -> good N l -> propose I (O (word_at l)) w 0 = Some (p, c) -> p <= Z.of_nat n -> proposed c = Some w1 -> same_idx Ne w1 w' = true ->
  exists c' w1', propose I (O (word_at (back l))) w' 0 = Some (p, c') /\ proposed c' = Some w1' /\ same_idx Ne w1' w = true.
Proof.
  intros Hl Hgd E Hp Ec Hs. assert (Hs' := proj1 (same_idx_spec _ _ _) Hs). unfold propose in *. unfold back, change, pos.
  destruct (get_update_type I (O (word_at l)) 0) as (q, ut) eqn:Eq. destruct ut; [| |injection E as _ <-; discriminate|injection E as _ <-; discriminate].
  - unfold propose_hop in E. destruct (eval (make_candidate_hopping I (O (word_at l)) w q)) as [((p1, (((mi, ri), rj), s)), flag)|] eqn:Em; [|discriminate]. cbn [bind] in E.
    destruct (Z.eqb_spec flag 1) as [Ef|Ef]; [injection E as _ <-; discriminate|]. apply eval_some in Em.
    destruct (hop_info _ w _ _ _ _ _ _ _ Hc Em Ef) as (p0 & F & -> & Et). assert (F' := F). destruct F' as [F1 F2 F3 F4 F5 F6 F7 F8 F9 F10].
    rewrite (update_eval _ mi ri rj s w F1 F2 F3 F4) in E. cbn [eval bind] in E. injection E as -> <-. cbn [proposed] in Ec. injection Ec as <-. cbn [eleIdx] in Hs'.
    destruct (spn_label mi s F1 F2) as (L1 & L2).
    assert (Hne : rj <> eleIdx w (mi + s * Ne)). { rewrite F5. intros ->. destruct (c_elec _ _ _ Hc mi s F1 F2) as (r0 & X1 & X2 & X3). rewrite F5 in X1. subst r0. lia. }
    rewrite (first_diff_one (mi + s * Ne) rj L2 Hne) by (intros m Hm; symmetry; now apply Hs'). rewrite F5. cbn [fst snd]. rewrite F10.
    set (l2 := tail_map (Z.to_nat p0) (swap_words wordsize N ri rj) l). destruct (type_agree I Orc (word_at l) (word_at l2) n 0 q HOPPING Eq) as (Q0 & Q).
    assert (Ag : forall i, 0 <= i < p0 -> word_at l2 i = word_at l i) by (intros i Hi; apply tail_map_below; [reflexivity|lia]).
    rewrite Q by (intros i Hi; apply Ag; lia). unfold propose_hop.
    rewrite (hop_reverse (word_at l) (word_at l2) q p0 p mi ri rj s F Et); [| |intros i Hi; apply Ag; lia|].
    + cbn [eval bind Z.eqb]. rewrite (update_eval _ mi rj ri s w' F1 F2 F4 F3). cbn [eval bind]. do 2 eexists. split; [reflexivity|]. split; [reflexivity|].
      apply same_idx_spec. cbn [eleIdx]. intros m Hm. rewrite upd_get, <- (Hs' m Hm), upd_get. destruct (Z.eqb_spec m (mi + s * Ne)) as [->|]; [now symmetry|reflexivity].
    + intros m Hm. symmetry. now apply Hs'.
    + intros i Hi. unfold l2. rewrite (swap_words_at wordsize N ri rj n p0 l i Hl) by lia. apply (swap_word_mod wordsize N HN ri rj F3 F4). apply (good_word N n l i Hgd Hl). lia.
  - unfold propose_exchange in E. destruct (eval (make_candidate_exchange I (O (word_at l)) w q)) as [(p1, [(((mi, ri), rj), s)|])|] eqn:Em; [| |discriminate]; cbn [bind] in E; [|injection E as _ <-; discriminate].
    apply eval_some in Em. destruct (exchange_info _ _ _ _ _ _ _ Em) as (A1 & A2 & A3 & A4 & A5 & A6 & A7 & mj & A8 & A9 & A10).
    rewrite rd_ok in E by nia. cbn [bind] in E. rewrite A9 in E. rewrite (update_eval _ mi ri rj s w) in E by assumption. cbn [eval bind] in E.
    rewrite (update_eval _ mj rj ri (1 - s)) in E by (assumption || lia). cbn [eval bind] in E. remember (1 - s) as t eqn:Ht in E. injection E as -> <-. cbn [proposed] in Ec. injection Ec as <-. cbn [eleIdx] in Hs'. subst t.
    rewrite Eq. unfold propose_exchange. rewrite (exchange_reverse (word_at l) q p mi mj ri rj s Em A9) by (intros m Hm; symmetry; now apply Hs').
    cbn [eval bind]. rewrite rd_ok by nia. cbn [bind].
    assert (Em' : eleCfg w' (ri + (1 - s) * N) = mj).
    { destruct (spn_label mj (1 - s) A8 ltac:(lia)) as (_ & L4). destruct (c_elec _ _ _ Hc' mj (1 - s) A8 ltac:(lia)) as (r0 & X1 & X2 & X3). rewrite <- (Hs' _ L4), upd_same in X1. now subst r0. }
    rewrite Em', (update_eval _ mi rj ri s w') by assumption. cbn [eval bind]. rewrite (update_eval _ mj ri rj (1 - s)) by (assumption || lia). cbn [eval bind].
    do 2 eexists. split; [reflexivity|]. split; [reflexivity|]. apply same_idx_spec. cbn [eleIdx]. intros m Hm. rewrite !upd_get, <- (Hs' m Hm), !upd_get.
    destruct (Z.eqb_spec m (mj + (1 - s) * Ne)) as [->|]; [now symmetry|]. destruct (Z.eqb_spec m (mi + s * Ne)) as [->|]; [now symmetry|reflexivity].
Qed.
End Std.
