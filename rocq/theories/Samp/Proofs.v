(** Invariants of the sampler. *)
From Coq Require Import ZArith List Bool Lia.
From Verif Require Import Base.ZLoop Base.Checked Proj.Model Proj.Spec Proj.Proofs.
From Verif Require Import Samp.Prog Samp.Model Samp.Spec Samp.Hoare Samp.Config.
Import ListNotations.
Local Open Scope Z_scope.

Lemma coin_range w : 0 <= coin w <= 1.
Proof. unfold coin. destruct (_ <? _); lia. Qed.

Lemma same_refl w : same_tables w w.
Proof. repeat split. Qed.
Lemma same_sym w w' : same_tables w w' -> same_tables w' w.
Proof. intros (A & B & C & D & E). repeat split; intros; symmetry; auto. Qed.
Lemma same_trans w w' w'' : same_tables w w' -> same_tables w' w'' -> same_tables w w''.
Proof. intros (A & B & C & D & E) (A' & B' & C' & D' & E'). repeat split; intros; etransitivity; eauto. Qed.

Section Proofs.
Variable I : input.
Variable Orc : oracles.
Variables (rank size : Z).
Hypothesis wf : wf_input I.
Notation N := (Nsite (T I)).
Notation M := (2 * Ne I).
Notation prog := (Prog.prog (K Orc) (event (L Orc))).
Notation event := (event (L Orc)).

Let HT : wf_tables (T I) := wf_T I wf.
Let HN : 0 < N := wf_sites I wf.
Let HNe : 0 < Ne I := wf_ne I wf.

(** ** Arrays *)
(** consistency, local spins, counters *)
Record Arr (c : Z) (idx cfg num spn cnt : Z -> Z) : Prop := {
  a_cons : Cons N M c idx cfg num spn;
  a_loc : forall r, 0 <= r < N -> LocSpn I r = 1 -> occ (T I) num r = 1;
  a_cnt : is_proj_cnt (T I) num cnt
}.

Lemma Arr_ext c idx cfg num spn cnt idx' cfg' num' spn' cnt' :
  (forall i, 0 <= i < M -> idx i = idx' i) -> (forall i, 0 <= i < 2 * N -> cfg i = cfg' i) ->
  (forall i, 0 <= i < 2 * N -> num i = num' i) -> (forall i, 0 <= i < M -> spn i = spn' i) ->
  (forall i, 0 <= i < NProj (T I) -> cnt i = cnt' i) ->
  Arr c idx cfg num spn cnt -> Arr c idx' cfg' num' spn' cnt'.
Proof.
  intros E1 E2 E3 E4 E5 [H1 H2 H3].
  assert (EO : forall r, 0 <= r < N -> occ (T I) num r = occ (T I) num' r).
  { intros r Hr. unfold occ. rewrite !E3 by lia. reflexivity. }
  constructor.
  - eapply Cons_ext; eauto.
  - intros r Hr Hl. rewrite <- EO by assumption. auto.
  - eapply is_proj_cnt_cells; [eassumption| |eassumption].
    eapply is_proj_cnt_occ; eauto.
Qed.

Lemma Arr_move c idx cfg num spn cnt x r' t cnt' :
  Arr c idx cfg num spn cnt -> 0 <= x < M -> 0 <= r' < N -> 0 <= t <= 1 -> cfg (r' + t * N) = -1 ->
  0 <= x - t * c -> (LocSpn I (idx x) <> 1 /\ LocSpn I r' <> 1) \/ r' = idx x ->
  is_proj_cnt (T I) (hop N (idx x) (spn x) r' t num) cnt' ->
  Arr c (upd idx x r') (upd (upd cfg (idx x + spn x * N) (-1)) (r' + t * N) (x - t * c))
      (hop N (idx x) (spn x) r' t num) (upd spn x t) cnt'.
Proof.
  intros [H1 H2 H3] Hx Hr' Ht Hf Hlab Hloc Hc. constructor.
  - apply Cons_move; assumption.
  - intros r Hr Hl. rewrite hop_occ; [|eapply Cons_occ01; eassumption|eapply Cons_legal; eassumption|assumption].
    rewrite H2 by assumption.
    destruct (Z.eqb_spec r (idx x)), (Z.eqb_spec r r'); subst; try lia; destruct Hloc as [(A & B)|A]; congruence || lia.
  - assumption.
Qed.

Lemma Arr_exchange c idx cfg num spn cnt x y r s r' t cnt' :
  Arr c idx cfg num spn cnt -> 0 <= x < M -> 0 <= y < M -> idx x = r -> spn x = s -> idx y = r' -> spn y = t ->
  t = 1 - s -> cfg (r' + s * N) = -1 -> cfg (r + t * N) = -1 ->
  is_proj_cnt (T I) (hop N r' t r t (hop N r s r' s num)) cnt' ->
  Arr c (upd (upd idx x r') y r)
      (upd (upd (upd (upd cfg (r + s * N) (-1)) (r' + s * N) (x - s * c)) (r' + t * N) (-1)) (r + t * N) (y - t * c))
      (hop N r' t r t (hop N r s r' s num)) (upd (upd spn x s) y t) cnt' /\
  legal_hop N r s r' s num /\ legal_hop N r' t r t (hop N r s r' s num) /\ occ01 N (hop N r s r' s num) /\ occ01 N num
  /\ r <> r'.
Proof.
  intros [H1 H2 H3] Hx Hy Ex Es Ey Et Ets Hf1 Hf2 Hc.
  destruct (k_elec _ _ _ _ _ _ _ H1 x Hx) as (A1 & A2 & A3 & A4).
  destruct (k_elec _ _ _ _ _ _ _ H1 y Hy) as (B1 & B2 & B3 & B4).
  rewrite Ex, Es in *. rewrite Ey, Et in *.
  assert (Hrr : r <> r') by (intros ->; lia).
  assert (Hxy : x <> y) by congruence.
  assert (HO : occ01 N num) by (eapply Cons_occ01; eassumption).
  assert (L1 : legal_hop N r s r' s num).
  { rewrite <- Ex, <- Es. eapply Cons_legal; try eassumption; rewrite ?Es; assumption. }
  assert (M1 : Cons N M c (upd idx x r') (upd (upd cfg (r + s * N) (-1)) (r' + s * N) (x - s * c))
                 (hop N r s r' s num) (upd spn x s)).
  { rewrite <- Ex. rewrite <- Es at 1 4. apply Cons_move; try assumption. }
  assert (Iy : upd idx x r' y = r') by (rewrite upd_other by congruence; assumption).
  assert (Sy : upd spn x s y = t) by (rewrite upd_other by congruence; assumption).
  assert (Hf2' : upd (upd cfg (r + s * N) (-1)) (r' + s * N) (x - s * c) (r + t * N) = -1).
  { rewrite !upd_other; [assumption| |]; intros E; apply cell_inj in E; try assumption; lia. }
  assert (O1 : occ01 N (hop N r s r' s num)) by (eapply Cons_occ01; eassumption).
  assert (L2 : legal_hop N r' t r t (hop N r s r' s num)).
  { pose proof (Cons_legal N M c _ _ _ _ M1 y r t Hy A1 B2 Hf2') as HL. now rewrite Iy, Sy in HL. }
  split; [|repeat (split; [assumption|]); assumption]. constructor.
  - pose proof (Cons_move N M c _ _ _ _ M1 y r t Hy A1 B2 Hf2' B3) as HC. now rewrite Iy, Sy in HC.
  - intros q Hq Hl. rewrite !hop_occ by assumption. rewrite H2 by assumption.
    destruct (q =? r), (q =? r'); lia.
  - assumption.
Qed.

(** ** Generic part: any invariant of walkers that only depends on the cells *)
Section Generic.
Variable Inv : walker -> Prop.
Hypothesis Inv_same : forall w w', same_tables w w' -> Inv w -> Inv w'.
Definition Ev (e : event) : Prop := Inv (walker_of e).

Definition accepted (s : st Orc) (w0 : walker) : Prop :=
  exists w1 l word, accept Orc w0 w1 (logIpOld _ s) l word = true.
Definition Post (s : st Orc) (s' : st Orc) : Prop :=
  Inv (wk _ s') /\ (same_tables (wk _ s) (wk _ s') \/ accepted s (wk _ s)).

Lemma safe_calc_log_ip f : safe Ev (fun _ => True) (calc_log_ip I Orc rank size f).
Proof. unfold calc_log_ip. destruct (1 <? size); cbn; auto. Qed.

Lemma safe_copy dst src : safe Ev (fun c => forall j, 0 <= j < NProj (T I) -> c j = src j)
  (copy_proj I Orc dst src).
Proof.
  unfold copy_proj. destruct (copy_ok (T I) HT false dst src) as (c & -> & H & _). exact H.
Qed.

Lemma safe_metropolis s w1 cnt m p revert : Inv (wk _ s) ->
  (forall c, (forall j, 0 <= j < NProj (T I) -> c j = cnt j) -> Inv (set_cnt w1 c)) ->
  safe Ev (same_tables (wk _ s)) (revert w1) ->
  safe Ev (Post s) (metropolis I Orc rank size s (wk _ s) w1 cnt m p revert).
Proof.
  intros H0 H1 H2. unfold metropolis. eapply safe_bind; [apply safe_calc_log_ip|].
  intros l _. destruct (accept _ _ _ _ _ _) eqn:EA.
  - eapply safe_bind; [apply safe_copy|]. intros c Hc. cbn [safe]. split; cbn [wk].
    + now apply H1.
    + right. unfold accepted. eauto.
  - eapply safe_bind; [exact H2|]. intros w Hw. cbn [safe]. split; cbn [wk]; [|now left].
    eapply Inv_same; eauto.
Qed.

Lemma safe_recalc s s' : Post s s' -> safe Ev (Post s) (recalc I Orc rank size s').
Proof.
  intros H. unfold recalc. destruct (N <? nAccept Orc s').
  - split; [exact (proj1 H)|]. eapply safe_bind; [apply safe_calc_log_ip|].
    intros l _. exact H.
  - exact H.
Qed.

Variable initial : walker -> Z -> prog (Z * walker).
Variable step : st Orc -> prog (st Orc).
Hypothesis safe_initial : forall w p, safe Ev (fun r => Inv (snd r)) (initial w p).
Hypothesis safe_step : forall s, Inv (wk _ s) -> safe Ev (fun s' => Inv (wk _ s')) (step s).

Lemma safe_make_initial n w qs p :
  safe Ev (fun r => Inv (snd (fst r))) (make_initial_sample I Orc rank size initial n w qs p).
Proof.
  revert w qs p. induction n as [|n IH]; intros w qs p; cbn [make_initial_sample];
    (eapply safe_bind; [apply safe_initial|]; intros (p', w') Hw; cbn [snd] in Hw;
     eapply safe_bind with (Q := fun _ => True);
       [destruct (1 <? size); cbn; auto|intros flag _]).
  - exact Logic.I.
  - destruct (0 <? flag); [apply IH|exact Hw].
Qed.

Lemma safe_outer nOut o s : Inv (wk _ s) ->
  safe Ev (fun s' => Inv (wk _ s')) (outer_step I Orc step nOut o s).
Proof.
  intros H. unfold outer_step. eapply safe_bind with (Q := fun s' => Inv (wk _ s')).
  - apply (safe_forM_inv Ev (fun s' => Inv (wk Orc s'))); [assumption|]. intros; now apply safe_step.
  - intros s' H'. destruct (_ <=? o); cbn [safe]; [split; [exact H'|]|]; exact H'.
Qed.

Lemma safe_make_sample burn w qs p : (forall b, burn = Some b -> Inv b) ->
  safe Ev (fun r => Inv (snd (fst r))) (make_sample I Orc rank size initial step burn w qs p).
Proof.
  intros HB. unfold make_sample.
  eapply safe_bind with (Q := fun r => Inv (snd (fst r))).
  { destruct burn; [cbn; auto|apply safe_make_initial]. }
  intros ((p1, w1), qs1) Hw1. cbn [snd fst] in Hw1.
  eapply safe_bind with (Q := fun r => Inv (wk _ (fst r))).
  { split; [exact Hw1|]. eapply safe_bind; [apply safe_calc_log_ip|]. intros l _.
    destruct (finite Orc l); [exact Hw1|].
    eapply safe_bind; [apply safe_make_initial|]. intros ((p2, w2), qs2) Hw2. cbn [snd fst] in Hw2.
    split; [exact Hw2|]. eapply safe_bind; [apply safe_calc_log_ip|]. intros l' _. exact Hw2. }
  intros (s, bf) Hs. cbn [fst] in Hs.
  eapply safe_bind with (Q := fun s' => Inv (wk _ s')).
  { apply (safe_forM_inv Ev (fun s' => Inv (wk Orc s'))); [assumption|]. intros; now apply safe_outer. }
  intros s' Hs'. exact Hs'.
Qed.
End Generic.

(** ** Common proposals *)
Section Props.
Variable EvX : event -> Prop.
Lemma safe_busy w r s : 0 <= r < N -> 0 <= s <= 1 ->
  safe EvX (fun b => b = false -> eleCfg w (r + s * N) = -1 /\ LocSpn I r <> 1) (busy I Orc w r s).
Proof.
  intros Hr Hs. unfold busy. rewrite get_ok by (now apply cell_range). cbn [bindP].
  destruct (Z.eqb_spec (eleCfg w (r + s * N)) (-1)) as [E|E].
  - rewrite get_ok by assumption. cbn. intros. split; [assumption|]. lia.
  - cbn. discriminate.
Qed.

Definition free_target (w : walker) (r s : Z) : Prop :=
  0 <= r < N /\ eleCfg w (r + s * N) = -1 /\ LocSpn I r <> 1.

Lemma safe_hop_target w s k p : 0 <= s <= 1 ->
  safe EvX (fun r => 0 <= snd (fst r) < N /\ 0 <= snd r <= 1 /\ (snd r <> 1 -> free_target w (snd (fst r)) s))
    (hop_target I Orc w s k p).
Proof.
  intros Hs. revert p. induction k as [|k IH]; intros p; cbn [hop_target];
    (eapply safe_bind; [apply safe_umod, HN|]; intros rj Hrj; cbn beta in Hrj).
  - cbn. split; [exact Hrj|]. split; [lia|congruence].
  - eapply safe_bind; [now apply safe_busy|]. intros [|] Hb; [apply IH|].
    cbn. repeat split; try lia; now apply Hb.
Qed.

Lemma safe_hop_target_fsz w k p :
  safe EvX (fun r => let '(_, rj, t, flag) := r in 0 <= rj < N /\ 0 <= t <= 1 /\ 0 <= flag <= 1 /\
      (flag <> 1 -> free_target w rj t))
    (hop_target_fsz I Orc w k p).
Proof.
  revert p. induction k as [|k IH]; intros p; cbn [hop_target_fsz];
    (eapply safe_bind; [apply safe_umod, HN|]; intros rj Hrj; cbn beta in Hrj); pose proof (coin_range (rnd Orc (p + 1))) as HC.
  - cbn. split; [exact Hrj|]. split; [exact HC|]. split; [lia|congruence].
  - eapply safe_bind; [now apply safe_busy|]. intros [|] Hb; [apply IH|].
    cbn. repeat split; try lia; now apply Hb.
Qed.

Lemma safe_scan_single w l : (forall r, In r l -> 0 <= r < N) ->
  safe EvX (fun _ => True) (scan_single I Orc w l).
Proof.
  induction l as [|r l IH]; intros Hl; cbn [scan_single]; [exact Logic.I|].
  assert (0 <= r < N) by (apply Hl; now left).
  rewrite !get_ok by lia. cbn [bindP]. destruct (_ =? 1); [exact Logic.I|].
  apply IH. intros; apply Hl; now right.
Qed.
Lemma safe_scan_opposite w l a b : (forall r, In r l -> 0 <= r < N) ->
  safe EvX (fun _ => True) (scan_opposite I Orc w l a b).
Proof.
  revert a b. induction l as [|r l IH]; intros a b Hl; cbn [scan_opposite]; [exact Logic.I|].
  assert (0 <= r < N) by (apply Hl; now left).
  assert (forall r, In r l -> 0 <= r < N) by (intros; apply Hl; now right).
  rewrite !get_ok by lia. cbn [bindP]. destruct (_ =? 1); [|now apply IH].
  destruct (_ <? 0); [exact Logic.I|now apply IH].
Qed.
End Props.

(** ** Sz-conserving sampler *)
Definition InvC (w : walker) : Prop :=
  Arr (Ne I) (eleIdx w) (eleCfg w) (eleNum w) (spn0 (Ne I)) (eleProjCnt w).
Lemma InvC_same w w' : same_tables w w' -> InvC w -> InvC w'.
Proof. intros (A & B & C & D & E). apply Arr_ext; auto. Qed.

Lemma spn0_at mi s : 0 <= mi < Ne I -> 0 <= s <= 1 -> spn0 (Ne I) (mi + s * Ne I) = s /\ 0 <= mi + s * Ne I < M.
Proof.
  intros Hm Hs. unfold spn0. assert (s = 0 \/ s = 1) as [-> | ->] by lia.
  - destruct (Z.ltb_spec (mi + 0 * Ne I) (Ne I)); lia.
  - destruct (Z.ltb_spec (mi + 1 * Ne I) (Ne I)); lia.
Qed.

Section Csz.
Variable w : walker.
Hypothesis HI : InvC w.
Let HC := a_cons _ _ _ _ _ _ HI.

Lemma idx_csz mi s : 0 <= mi < Ne I -> 0 <= s <= 1 -> 0 <= eleIdx w (mi + s * Ne I) < N /\
  eleCfg w (eleIdx w (mi + s * Ne I) + s * N) = mi.
Proof.
  intros Hm Hs. destruct (spn0_at mi s Hm Hs) as (E & Hx).
  destruct (k_elec _ _ _ _ _ _ _ HC _ Hx) as (A & _ & _ & B). rewrite E in B. lia.
Qed.

Variable EvX : event -> Prop.

(** an electron that may hop *)
Definition mobile (mi s ri : Z) : Prop :=
  0 <= mi < Ne I /\ 0 <= s <= 1 /\ eleIdx w (mi + s * Ne I) = ri /\ LocSpn I ri <> 1.
Lemma safe_hopping p :
  safe EvX (fun r => let '(_, (mi, ri, rj, s), flag) := r in mobile mi s ri /\ 0 <= rj < N /\ 0 <= flag <= 1 /\
                     (flag <> 1 -> free_target w rj s))
    (make_candidate_hopping I Orc w p).
Proof.
  unfold make_candidate_hopping.
  eapply safe_bind.
  { apply safe_search with (Q := fun a => let '(mi, s, ri) := a in mobile mi s ri).
    intros q. unfold pick_hop. eapply safe_bind; [apply safe_umod, HNe|]. intros mi Hm. cbn beta in Hm.
    pose proof (coin_range (rnd Orc (q + 1))) as Hs. destruct (idx_csz mi _ Hm Hs) as (A & B).
    destruct (spn0_at mi _ Hm Hs) as (_ & Hx).
    rewrite get_ok by assumption. cbn [bindP]. rewrite get_ok by assumption. cbn [bindP safe snd].
    destruct (Z.eqb_spec (LocSpn I (eleIdx w (mi + coin (rnd Orc (q + 1)) * Ne I))) 1); [discriminate|].
    intros ((mi', s'), ri') [= <- <- <-]. repeat split; assumption || lia. }
  intros (p', ((mi, s), ri)) Hm. cbn [snd] in Hm. pose proof Hm as (Hm1 & Hs & Hm2 & Hm3).
  eapply safe_bind; [now apply safe_hop_target|].
  intros ((p'', rj), flag) (A & B & C). cbn [snd fst] in *. cbn [safe]. auto.
Qed.

Lemma safe_exchange p :
  safe EvX (fun r => match snd r with None => True | Some (mi, ri, rj, s) =>
       0 <= mi < Ne I /\ 0 <= s <= 1 /\ eleIdx w (mi + s * Ne I) = ri /\ eleCfg w (ri + (1 - s) * N) = -1 /\
       exists mj, 0 <= mj < Ne I /\ eleIdx w (mj + (1 - s) * Ne I) = rj /\ eleCfg w (rj + s * N) = -1 end)
    (make_candidate_exchange I Orc w p).
Proof.
  unfold make_candidate_exchange.
  eapply safe_bind; [apply safe_scan_single; intros r Hr; now apply zrange_in|]. intros flag _.
  destruct (flag =? 1); [exact Logic.I|].
  eapply safe_bind.
  { apply safe_search with (Q := fun a => let '(mi, s, ri) := a in
      0 <= mi < Ne I /\ 0 <= s <= 1 /\ eleIdx w (mi + s * Ne I) = ri /\ eleCfg w (ri + (1 - s) * N) = -1).
    intros q. unfold pick_single. eapply safe_bind; [apply safe_umod, HNe|]. intros mi Hm. cbn beta in Hm.
    pose proof (coin_range (rnd Orc (q + 1))) as Hs. destruct (idx_csz mi _ Hm Hs) as (A & B).
    destruct (spn0_at mi _ Hm Hs) as (_ & Hx). remember (coin (rnd Orc (q + 1))) as s eqn:Es; clear Es.
    rewrite get_ok by assumption. cbn [bindP]. rewrite get_ok by (apply cell_range; lia). cbn [bindP safe snd].
    destruct (Z.eqb_spec (eleCfg w (eleIdx w (mi + s * Ne I) + (1 - s) * N)) (-1)); [|discriminate].
    intros ((mi', s'), ri') [= <- <- <-]. auto. }
  intros (p', ((mi, s), ri)) (Hm & Hs & Hi & Hf). cbn [snd] in *.
  eapply safe_bind.
  { apply safe_search with (Q := fun a => let '(mj, rj) := a in
      0 <= mj < Ne I /\ eleIdx w (mj + (1 - s) * Ne I) = rj /\ eleCfg w (rj + s * N) = -1).
    intros q. unfold pick_partner. eapply safe_bind; [apply safe_umod, HNe|]. intros mj Hj. cbn beta in Hj.
    assert (Ht : 0 <= 1 - s <= 1) by lia. destruct (idx_csz mj _ Hj Ht) as (A & B).
    destruct (spn0_at mj _ Hj Ht) as (_ & Hx).
    rewrite get_ok by assumption. cbn [bindP]. replace (1 - (1 - s)) with s by lia.
    rewrite get_ok by (apply cell_range; lia). cbn [bindP safe snd].
    destruct (Z.eqb_spec (eleCfg w (eleIdx w (mj + (1 - s) * Ne I) + s * N)) (-1)); [|discriminate].
    intros (mj', rj') [= <- <-]. auto. }
  intros (p'', (mj, rj)) (Hj & Hrj & Hjf). cbn [safe snd]. repeat (split; [assumption|]). eauto.
Qed.
End Csz.

Definition moved (mi ri rj s : Z) (w : walker) : walker :=
  Walker (upd (eleIdx w) (mi + s * Ne I) rj) (upd (upd (eleCfg w) (ri + s * N) (-1)) (rj + s * N) mi)
         (hop N ri s rj s (eleNum w)) (eleProjCnt w) (eleSpn w).
Lemma update_ok mi ri rj s w : 0 <= mi < Ne I -> 0 <= s <= 1 -> 0 <= ri < N -> 0 <= rj < N ->
  update_ele_config I Orc mi ri rj s w = Ret (moved mi ri rj s w).
Proof.
  intros Hm Hs Hi Hj. destruct (spn0_at mi s Hm Hs) as (_ & Hx).
  pose proof (cell_range N ri s Hi Hs). pose proof (cell_range N rj s Hj Hs).
  unfold update_ele_config. repeat (rewrite put_ok by assumption; cbn [bindP]). reflexivity.
Qed.
Definition unmoved (mi ri rj s : Z) (w : walker) : walker :=
  Walker (upd (eleIdx w) (mi + s * Ne I) ri) (upd (upd (eleCfg w) (ri + s * N) mi) (rj + s * N) (-1))
         (upd (upd (eleNum w) (ri + s * N) 1) (rj + s * N) 0) (eleProjCnt w) (eleSpn w).
Lemma revert_ok mi ri rj s w : 0 <= mi < Ne I -> 0 <= s <= 1 -> 0 <= ri < N -> 0 <= rj < N ->
  revert_ele_config I Orc mi ri rj s w = Ret (unmoved mi ri rj s w).
Proof.
  intros Hm Hs Hi Hj. destruct (spn0_at mi s Hm Hs) as (_ & Hx).
  pose proof (cell_range N ri s Hi Hs). pose proof (cell_range N rj s Hj Hs).
  unfold revert_ele_config. repeat (rewrite put_ok by assumption; cbn [bindP]). reflexivity.
Qed.
Lemma unmoved_ext mi ri rj s w w' : same_tables w w' -> same_tables (unmoved mi ri rj s w) (unmoved mi ri rj s w').
Proof.
  intros (A & B & C & D & E). unfold unmoved. repeat split; cbn [eleIdx eleCfg eleNum eleSpn eleProjCnt]; auto;
    repeat apply upd_ext; assumption.
Qed.
Lemma unmoved_moved mi ri rj s w : eleIdx w (mi + s * Ne I) = ri ->
  eleCfg w (ri + s * N) = mi -> eleCfg w (rj + s * N) = -1 -> eleNum w (ri + s * N) = 1 -> eleNum w (rj + s * N) = 0 ->
  same_tables w (unmoved mi ri rj s (moved mi ri rj s w)).
Proof.
  intros E1 E2 E3 E4 E5. unfold unmoved, moved, hop. repeat split; cbn [eleIdx eleCfg eleNum eleSpn eleProjCnt]; auto;
    intros i; symmetry.
  - now apply undo_one.
  - apply undo_move; try assumption. intros E. rewrite E in E4. lia.
  - apply undo_move; try assumption. intros E. rewrite E in E4. lia.
Qed.

Lemma copied_InvC w1 (cnt : Z -> Z) : InvC (set_cnt w1 cnt) ->
  forall c, (forall j, 0 <= j < NProj (T I) -> c j = cnt j) -> InvC (set_cnt w1 c).
Proof.
  intros H c Hc. eapply Arr_ext; [..|exact H]; cbn [eleIdx eleCfg eleNum eleSpn eleProjCnt set_cnt]; auto.
  intros i Hi. symmetry. auto.
Qed.

Lemma safe_hopping_step s p : InvC (wk _ s) ->
  safe (Ev InvC) (Post InvC s) (hopping_step I Orc rank size s p).
Proof.
  intros HI. unfold hopping_step. eapply safe_bind; [now apply safe_hopping|].
  intros ((p', (((mi, ri), rj), sp)), flag) ((Hm & Hs & Hi & Hl) & Hj & Hf & Hfree).
  destruct (Z.eqb_spec flag 1) as [->|Hf1].
  - cbn [safe]. split; cbn [wk]; [assumption|left; apply same_refl].
  - destruct (Hfree Hf1) as (_ & Hc & Hlj).
    destruct (idx_csz _ HI mi sp Hm Hs) as (A & B). rewrite Hi in A, B.
    destruct (spn0_at mi sp Hm Hs) as (Es & Hx).
    pose proof (a_cons _ _ _ _ _ _ HI) as HC.
    assert (HL : legal_hop N ri sp rj sp (eleNum (wk _ s))).
    { rewrite <- Hi. rewrite <- Es at 2. apply (Cons_legal _ _ _ _ _ _ _ HC); try assumption. }
    rewrite update_ok by assumption. cbn [bindP].
    destruct (update_correct (T I) HT ri rj sp false (garbage Orc) (eleProjCnt (wk _ s)) (eleNum (wk _ s)))
      as (cnt & E & Hcnt & _); [eapply Cons_occ01; eassumption|assumption|apply (a_cnt _ _ _ _ _ _ HI)|].
    cbn [eleProjCnt eleNum moved]. rewrite E. cbn [ofOpt bindP].
    eapply safe_bind with (Q := Post InvC s); [|intros s' Hs'; now apply safe_recalc].
    apply safe_metropolis; [exact InvC_same|assumption| |].
    + apply copied_InvC. unfold InvC, set_cnt, moved. cbn [eleIdx eleCfg eleNum eleSpn eleProjCnt].
      pose proof (Arr_move (Ne I) _ _ _ _ _ (mi + sp * Ne I) rj sp cnt HI Hx Hj Hs Hc ltac:(lia)) as HM.
      rewrite Hi, Es in HM. specialize (HM (or_introl (conj Hl Hlj)) Hcnt).
      eapply Arr_ext; [..|exact HM]; auto.
      * intros i _. f_equal. lia.
      * intros i _. rewrite upd_get. destruct (Z.eqb_spec i (mi + sp * Ne I)) as [->|]; auto.
    + rewrite revert_ok by assumption. cbn [safe].
      destruct HL as (_ & _ & _ & _ & H1 & [H0|(<- & _)]).
      * apply unmoved_moved; assumption.
      * rewrite B in Hc. lia.
Qed.

Lemma safe_exchange_step s p : InvC (wk _ s) ->
  safe (Ev InvC) (Post InvC s) (exchange_step I Orc rank size s p).
Proof.
  intros HI. unfold exchange_step. eapply safe_bind; [now apply safe_exchange|].
  intros (p', [(((mi, ri), rj), sp)|]) H; cbn [snd] in H.
  2:{ cbn [safe]. split; cbn [wk]; [assumption|left; apply same_refl]. }
  destruct H as (Hm & Hs & Hi & Hc1 & mj & Hmj & Hj & Hc2).
  assert (Ht : 0 <= 1 - sp <= 1) by lia.
  destruct (idx_csz _ HI mi sp Hm Hs) as (A & B). rewrite Hi in A, B.
  destruct (idx_csz _ HI mj (1 - sp) Hmj Ht) as (A' & B'). rewrite Hj in A', B'.
  destruct (spn0_at mi sp Hm Hs) as (Es & Hx). destruct (spn0_at mj (1 - sp) Hmj Ht) as (Es' & Hx').
  rewrite get_ok by (now apply cell_range). cbn [bindP]. rewrite B'.
  rewrite update_ok by assumption. cbn [bindP].
  pose proof (a_cons _ _ _ _ _ _ HI) as HC.
  assert (HO : occ01 N (eleNum (wk _ s))) by (eapply Cons_occ01; eassumption).
  assert (HL : legal_hop N ri sp rj sp (eleNum (wk _ s))).
  { rewrite <- Hi. rewrite <- Es at 2. apply (Cons_legal _ _ _ _ _ _ _ HC); try assumption. }
  destruct (update_correct (T I) HT ri rj sp false (garbage Orc) (eleProjCnt (wk _ s)) (eleNum (wk _ s)))
    as (cnt & E & Hcnt & _); [assumption|assumption|apply (a_cnt _ _ _ _ _ _ HI)|].
  cbn [eleProjCnt eleNum moved]. rewrite E. cbn [ofOpt bindP].
  rewrite update_ok by assumption. cbn [bindP eleProjCnt eleNum moved].
  set (num2 := hop N rj (1 - sp) ri (1 - sp) (hop N ri sp rj sp (eleNum (wk Orc s)))).
  assert (HX : forall cnt', is_proj_cnt (T I) num2 cnt' ->
     Arr (Ne I) (upd (upd (eleIdx (wk Orc s)) (mi + sp * Ne I) rj) (mj + (1 - sp) * Ne I) ri)
      (upd (upd (upd (upd (eleCfg (wk Orc s)) (ri + sp * N) (-1)) (rj + sp * N) mi) (rj + (1 - sp) * N) (-1)) (ri + (1 - sp) * N) mj)
      num2 (spn0 (Ne I)) cnt' /\
      legal_hop N rj (1 - sp) ri (1 - sp) (hop N ri sp rj sp (eleNum (wk Orc s))) /\
      occ01 N (hop N ri sp rj sp (eleNum (wk Orc s))) /\ ri <> rj).
  { intros cnt' Hcnt'.
    destruct (Arr_exchange (Ne I) _ _ _ _ _ (mi + sp * Ne I) (mj + (1 - sp) * Ne I) ri sp rj (1 - sp) cnt' HI
                Hx Hx' Hi Es Hj Es' eq_refl Hc2 Hc1 Hcnt') as (R1 & _ & R2 & R3 & _ & R4).
    split; [|auto]. eapply Arr_ext; [..|exact R1]; auto.
    - intros i _. rewrite !upd_get. destruct (i =? _); [lia|]. destruct (i =? _); [reflexivity|].
      destruct (i =? _); [lia|]. reflexivity.
    - intros i _. rewrite !upd_get. destruct (Z.eqb_spec i (mj + (1 - sp) * Ne I)) as [->|]; [congruence|].
      destruct (Z.eqb_spec i (mi + sp * Ne I)) as [->|]; [congruence|reflexivity]. }
  assert (R : legal_hop N rj (1 - sp) ri (1 - sp) (hop N ri sp rj sp (eleNum (wk Orc s))) /\
      occ01 N (hop N ri sp rj sp (eleNum (wk Orc s))) /\ ri <> rj).
  { destruct (make_correct (T I) HT num2) with (c := fun _ : Z => 0) as (c0 & _ & Hc0 & _).
    - unfold num2. pose proof (hop_occ01 (T I) ri sp rj sp _ HO HL) as HO1.
      intros rs Hrs. unfold hop at 1 3. rewrite !upd_get.
      destruct (_ =? _); [tauto|]. destruct (_ =? _); [tauto|]. now apply HO1.
    - exact (proj2 (HX c0 Hc0)). }
  destruct R as (HL2 & HO2 & Hne).
  destruct (update_correct (T I) HT rj ri (1 - sp) true cnt cnt _ HO2 HL2 Hcnt) as (cnt2 & E2 & Hcnt2 & _).
  fold num2 in E2. rewrite E2. cbn [ofOpt bindP].
  eapply safe_bind with (Q := Post InvC s); [|intros s' Hs'; now apply safe_recalc].
  apply safe_metropolis; [exact InvC_same|assumption| |].
  - apply copied_InvC. exact (proj1 (HX cnt2 Hcnt2)).
  - rewrite revert_ok by assumption. cbn [bindP]. rewrite revert_ok by assumption. cbn [safe].
    set (w1 := moved mi ri rj sp (wk Orc s)).
    assert (S1 : same_tables w1 (unmoved mj rj ri (1 - sp) (moved mj rj ri (1 - sp) w1))).
    { assert (Hxy : mj + (1 - sp) * Ne I <> mi + sp * Ne I) by (intros e; rewrite e in Es'; lia).
      destruct HL2 as (_ & _ & _ & _ & H1 & [H0|(Er & _)]); [|congruence].
      apply unmoved_moved; unfold w1, moved; cbn [eleIdx eleCfg eleNum]; try assumption.
      - rewrite upd_other by assumption. assumption.
      - rewrite !upd_other; [assumption| |]; intros e; apply cell_inj in e; try assumption; lia.
      - rewrite !upd_other; [assumption| |]; intros e; apply cell_inj in e; try assumption; lia. }
    eapply same_trans; [|apply unmoved_ext; exact S1].
    destruct HL as (_ & _ & _ & _ & H1 & [H0|(Er & _)]); [|congruence].
    apply unmoved_moved; assumption.
Qed.

Lemma safe_inner_step s : InvC (wk _ s) ->
  safe (Ev InvC) (Post InvC s) (inner_step I Orc rank size s).
Proof.
  intros HI. unfold inner_step. destruct (get_update_type I Orc (pos Orc s)) as (p, ut).
  eapply safe_bind with (Q := Post InvC s).
  - destruct ut; [now apply safe_hopping_step|now apply safe_exchange_step| |];
      (apply safe_recalc; split; cbn [wk]; [assumption|left; apply same_refl]).
  - intros s' Hs'. split; [exact (proj1 Hs')|exact Hs'].
Qed.
End Proofs.
