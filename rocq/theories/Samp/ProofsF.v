(** Invariants of the sampler with general spins (vmcmake_fsz.c). *)
From Coq Require Import ZArith List Bool Lia.
From Verif Require Import Base.ZLoop Base.Checked Proj.Model Proj.Spec Proj.Proofs.
From Verif Require Import Samp.Prog Samp.Model Samp.Spec Samp.Hoare Samp.Config Samp.Proofs.
Import ListNotations.
Local Open Scope Z_scope.

Section ProofsF.
Variable I : input.
Variable Orc : oracles.
Variables (rank size : Z).
Hypothesis wf : wf_input I.
Notation N := (Nsite (T I)).
Notation M := (2 * Ne I).
Notation prog := (Prog.prog (K Orc) (event (L Orc))).
Notation event := (event (L Orc)).
Let HT : wf_tables (T I) := wf_T I wf.
Let HN : 0 < N := wf_sites I wf.
Let HNe : 0 < Ne I := wf_ne I wf.
Lemma M_pos : 0 < M. Proof. assert (0 < Ne I) by exact (wf_ne I wf). lia. Qed.

(** moves that change the spin of an electron are never proposed *)
Definition keeps : Prop := TwoSz I <> -1 /\ NExUpdatePath I <> 3.
Definition ups (spn : Z -> Z) : Z := zsum (zrange 0 M) (fun x => if spn x =? 0 then 1 else 0).
Variable up0 : Z.
Definition InvF (w : walker) : Prop :=
  Arr I 0 (eleIdx w) (eleCfg w) (eleNum w) (eleSpn w) (eleProjCnt w) /\ (keeps -> ups (eleSpn w) = up0).
Lemma InvF_same w w' : same_tables w w' -> InvF w -> InvF w'.
Proof.
  intros (A & B & C & D & E) (H1 & H2). split; [eapply Arr_ext; [exact wf|..|exact H1]; auto|].
  intros H. rewrite <- H2 by assumption. apply zsum_ext. intros x _. now rewrite D.
Qed.

(** a proposal of electron mi moving to (rj, t) *)
Definition proposal (w : walker) (mi ri rj s t flag : Z) : Prop :=
  0 <= mi < M /\ eleIdx w mi = ri /\ eleSpn w mi = s /\
  (flag <> 1 -> 0 <= rj < N /\ 0 <= t <= 1 /\ eleCfg w (rj + t * N) = -1 /\
     ((LocSpn I ri <> 1 /\ LocSpn I rj <> 1) \/ rj = ri) /\ (keeps -> t = s)).

Section Fsz.
Variable w : walker.
Hypothesis HI : InvF w.
Let HC := a_cons _ _ _ _ _ _ _ (proj1 HI).

Lemma elec x : 0 <= x < M -> 0 <= eleIdx w x < N /\ 0 <= eleSpn w x <= 1 /\ eleCfg w (eleIdx w x + eleSpn w x * N) = x.
Proof. intros Hx. destruct (k_elec _ _ _ _ _ _ _ HC x Hx) as (A & B & _ & D). lia. Qed.

Variable EvX : event -> Prop.
Lemma safe_pick_hop_fsz p : safe EvX (fun r => forall a, snd r = Some a -> let '(mi, s, ri) := a in
    0 <= mi < M /\ eleIdx w mi = ri /\ eleSpn w mi = s /\ LocSpn I ri <> 1) (pick_hop_fsz I Orc w p).
Proof.
  unfold pick_hop_fsz. eapply safe_bind; [apply safe_umod, M_pos|]. intros mi Hm. cbn beta in Hm.
  destruct (elec mi Hm) as (A & B & C). rewrite get_ok by assumption. cbn [bindP].
  rewrite get_ok by assumption. cbn [bindP]. rewrite get_ok by assumption. cbn [bindP safe snd].
  destruct (Z.eqb_spec (LocSpn I (eleIdx w mi)) 1); [discriminate|].
  intros ((mi', s'), ri') [= <- <- <-]. auto.
Qed.

Lemma safe_hopping_fsz p : ~ keeps ->
  safe EvX (fun r => let '(_, (mi, ri, rj, s, t), flag) := r in proposal w mi ri rj s t flag)
    (make_candidate_hopping_fsz I Orc w p).
Proof.
  intros HK. unfold make_candidate_hopping_fsz. eapply safe_bind.
  { apply (safe_search EvX (fun a => let '(mi, s, ri) := a in
      0 <= mi < M /\ eleIdx w mi = ri /\ eleSpn w mi = s /\ LocSpn I ri <> 1)). intros q. apply safe_pick_hop_fsz. }
  intros (p', ((mi, s), ri)) (Hm & Hi & Hs & Hl). cbn [snd] in *.
  eapply safe_bind; [now apply safe_hop_target_fsz|].
  intros (((p'', rj), t), flag) (A & B & C & D). cbn [safe].
  refine (conj _ (conj _ (conj _ _))); [assumption..|]. intros Hf. destruct (D Hf) as (_ & D1 & D2).
  repeat (split; [assumption|]). split; [left; auto|tauto].
Qed.

Lemma safe_hopping_csz p :
  safe EvX (fun r => let '(_, (mi, ri, rj, s, t), flag) := r in proposal w mi ri rj s t flag)
    (make_candidate_hopping_csz I Orc w p).
Proof.
  unfold make_candidate_hopping_csz. eapply safe_bind.
  { apply (safe_search EvX (fun a => let '(mi, s, ri) := a in
      0 <= mi < M /\ eleIdx w mi = ri /\ eleSpn w mi = s /\ LocSpn I ri <> 1)). intros q. apply safe_pick_hop_fsz. }
  intros (p', ((mi, s), ri)) (Hm & Hi & Hs & Hl). cbn [snd] in *.
  destruct (elec mi Hm) as (_ & B & _). rewrite Hs in B.
  eapply safe_bind; [now apply safe_hop_target|].
  intros ((p'', rj), flag) (A & C & D). cbn [snd fst] in *. cbn [safe].
  refine (conj _ (conj _ (conj _ _))); [assumption..|]. intros Hf. destruct (D Hf) as (_ & D1 & D2).
  repeat (split; [assumption|]). split; [left; auto|auto].
Qed.

Lemma safe_flip_localspin p : ~ keeps ->
  safe EvX (fun r => let '(_, (mi, ri, rj, s, t), flag) := r in proposal w mi ri rj s t flag)
    (make_candidate_flip_localspin I Orc w p).
Proof.
  intros HK. unfold make_candidate_flip_localspin. eapply safe_bind.
  { apply (safe_search EvX (fun a => let '(mi, s, ri) := a in
      0 <= mi < M /\ eleIdx w mi = ri /\ eleSpn w mi = s /\ LocSpn I ri <> 0)). intros q.
    unfold pick_local. eapply safe_bind; [apply safe_umod, M_pos|]. intros mi Hm. cbn beta in Hm.
    destruct (elec mi Hm) as (A & B & C). rewrite get_ok by assumption. cbn [bindP].
    rewrite get_ok by assumption. cbn [bindP]. rewrite get_ok by assumption. cbn [bindP safe snd].
    destruct (Z.eqb_spec (LocSpn I (eleIdx w mi)) 0); [discriminate|].
    intros ((mi', s'), ri') [= <- <- <-]. auto. }
  intros (p', ((mi, s), ri)) (Hm & Hi & Hs & Hl). cbn [snd] in *.
  destruct (elec mi Hm) as (A & B & C). rewrite Hi, Hs in *.
  assert (Hl1 : LocSpn I ri = 1) by (destruct (wf_loc I wf ri A); tauto).
  pose proof (a_loc _ _ _ _ _ _ _ (proj1 HI) ri A Hl1) as Ho. unfold occ in Ho.
  assert (H1 : eleNum w (ri + s * N) = 1).
  { rewrite <- Hi, <- Hs. eapply Cons_num1; [exact HC|assumption]. }
  cbn [safe]. refine (conj _ (conj _ (conj _ _))); [assumption..|]. intros _.
  split; [assumption|]. split; [lia|]. split; [|split; [right; reflexivity|tauto]].
  apply (Cons_free _ _ _ _ _ _ _ HC); [assumption|lia|].
  assert (s = 0 \/ s = 1) as [-> | ->] by lia; rewrite ?Z.mul_0_l, ?Z.mul_1_l, ?Z.add_0_r in *;
    replace (1 - 0) with 1 by lia; replace (1 - 1) with 0 by lia;
    rewrite ?Z.mul_0_l, ?Z.mul_1_l, ?Z.add_0_r in *; lia.
Qed.

Lemma safe_flip_target k p :
  safe EvX (fun r => let '(_, mi, s, ri, flag) := r in 0 <= mi < M /\ eleIdx w mi = ri /\ eleSpn w mi = s /\
      0 <= ri < N /\ 0 <= s <= 1 /\ (flag <> 1 -> eleCfg w (ri + (1 - s) * N) = -1))
    (flip_target I Orc w k p).
Proof.
  revert p. induction k as [|k IH]; intros p; cbn [flip_target];
    (eapply safe_bind; [apply safe_umod, M_pos|]; intros mi Hm; cbn beta in Hm);
    destruct (elec mi Hm) as (A & B & C); rewrite get_ok by assumption; cbn [bindP];
    rewrite get_ok by assumption; cbn [bindP].
  - cbn [safe]. repeat (split; [assumption || reflexivity|]). congruence.
  - rewrite get_ok by assumption. cbn [bindP].
    destruct (Z.eqb_spec (LocSpn I (eleIdx w mi)) 1); [cbn [bindP]; apply IH|].
    rewrite get_ok by (apply cell_range; lia). cbn [bindP].
    destruct (Z.eqb_spec (eleCfg w (eleIdx w mi + (1 - eleSpn w mi) * N)) (-1)); cbn [negb]; [|apply IH].
    cbn [safe]. repeat (split; [assumption || reflexivity|]). auto.
Qed.
Lemma safe_flip_conduction p : ~ keeps ->
  safe EvX (fun r => let '(_, (mi, ri, rj, s, t), flag) := r in proposal w mi ri rj s t flag)
    (make_candidate_flip_conduction I Orc w p).
Proof.
  intros HK. unfold make_candidate_flip_conduction. eapply safe_bind; [apply safe_flip_target|].
  intros ((((p', mi), s), ri), flag) (A & B & C & D & E & F). cbn [safe].
  refine (conj _ (conj _ (conj _ _))); [assumption..|]. intros Hf.
  split; [assumption|]. split; [lia|]. split; [auto|]. split; [right; reflexivity|tauto].
Qed.

Lemma safe_exchange_fsz p :
  safe EvX (fun r => match snd r with None => True | Some (mi, ri, rj, s) =>
       0 <= mi < M /\ eleSpn w mi = s /\ eleIdx w mi = ri /\ eleCfg w (ri + (1 - s) * N) = -1 /\
       exists mj, 0 <= mj < M /\ eleSpn w mj = 1 - s /\ eleIdx w mj = rj /\ eleCfg w (rj + s * N) = -1 end)
    (make_candidate_exchange_fsz I Orc w p).
Proof.
  unfold make_candidate_exchange_fsz.
  eapply safe_bind; [apply safe_scan_opposite; [exact wf|]; intros r Hr; now apply zrange_in|]. intros flag _.
  destruct (flag =? 1); [exact Logic.I|].
  eapply safe_bind.
  { apply safe_search with (Q := fun a => let '(mi, s, ri) := a in
      0 <= mi < M /\ eleSpn w mi = s /\ eleIdx w mi = ri /\ eleCfg w (ri + (1 - s) * N) = -1).
    intros q. unfold pick_single_fsz. eapply safe_bind; [apply safe_umod, M_pos|]. intros mi Hm. cbn beta in Hm.
    destruct (elec mi Hm) as (A & B & C). rewrite get_ok by assumption. cbn [bindP].
    rewrite get_ok by assumption. cbn [bindP]. rewrite get_ok by (apply cell_range; lia). cbn [bindP safe snd].
    destruct (Z.eqb_spec (eleCfg w (eleIdx w mi + (1 - eleSpn w mi) * N)) (-1)); [|discriminate].
    intros ((mi', s'), ri') [= <- <- <-]. auto. }
  intros (p', ((mi, s), ri)) (Hm & Hs & Hi & Hf). cbn [snd] in *.
  destruct (elec mi Hm) as (_ & Hs1 & _). rewrite Hs in Hs1.
  eapply safe_bind.
  { apply safe_search with (Q := fun a => let '(mj, rj) := a in
      0 <= mj < M /\ eleSpn w mj = 1 - s /\ eleIdx w mj = rj /\ eleCfg w (rj + s * N) = -1).
    intros q. unfold pick_partner_fsz. eapply safe_bind; [apply safe_umod, M_pos|]. intros mj Hj. cbn beta in Hj.
    destruct (elec mj Hj) as (A & B & C).
    rewrite get_ok by assumption. cbn [bindP]. replace (1 - (1 - s)) with s by lia.
    rewrite get_ok by (apply cell_range; lia). cbn [bindP].
    destruct (Z.eqb_spec (eleCfg w (eleIdx w mj + s * N)) (-1)); [|cbn; discriminate].
    rewrite get_ok by assumption. cbn [bindP safe snd].
    destruct (Z.eqb_spec (eleSpn w mj) (1 - s)); [|discriminate].
    intros (mj', rj') [= <- <-]. auto. }
  intros (p'', (mj, rj)) (Hj & Hjs & Hrj & Hjf). cbn [safe snd]. repeat (split; [assumption|]). exists mj. auto.
Qed.
End Fsz.

Definition movedF (mi ri rj s t : Z) (w : walker) : walker :=
  Walker (upd (eleIdx w) mi rj) (upd (upd (eleCfg w) (ri + s * N) (-1)) (rj + t * N) mi)
         (hop N ri s rj t (eleNum w)) (eleProjCnt w) (upd (eleSpn w) mi t).
Lemma updateF_ok mi ri rj s t w : 0 <= mi < M -> 0 <= s <= 1 -> 0 <= t <= 1 -> 0 <= ri < N -> 0 <= rj < N ->
  update_ele_config_fsz I Orc mi ri rj s t w = Ret (movedF mi ri rj s t w).
Proof.
  intros Hm Hs Ht Hi Hj.
  pose proof (cell_range N ri s Hi Hs). pose proof (cell_range N rj t Hj Ht).
  unfold update_ele_config_fsz. repeat (rewrite put_ok by assumption; cbn [bindP]). reflexivity.
Qed.
Definition unmovedF (mi ri rj s t : Z) (w : walker) : walker :=
  Walker (upd (eleIdx w) mi ri) (upd (upd (eleCfg w) (ri + s * N) mi) (rj + t * N) (-1))
         (upd (upd (eleNum w) (ri + s * N) 1) (rj + t * N) 0) (eleProjCnt w) (upd (eleSpn w) mi s).
Lemma revertF_ok mi ri rj s t w : 0 <= mi < M -> 0 <= s <= 1 -> 0 <= t <= 1 -> 0 <= ri < N -> 0 <= rj < N ->
  revert_ele_config_fsz I Orc mi ri rj s t w = Ret (unmovedF mi ri rj s t w).
Proof.
  intros Hm Hs Ht Hi Hj.
  pose proof (cell_range N ri s Hi Hs). pose proof (cell_range N rj t Hj Ht).
  unfold revert_ele_config_fsz. repeat (rewrite put_ok by assumption; cbn [bindP]). reflexivity.
Qed.
Lemma unmovedF_ext mi ri rj s t w w' : same_tables w w' -> same_tables (unmovedF mi ri rj s t w) (unmovedF mi ri rj s t w').
Proof.
  intros (A & B & C & D & E). unfold unmovedF. repeat split; cbn [eleIdx eleCfg eleNum eleSpn eleProjCnt]; auto;
    repeat apply upd_ext; assumption.
Qed.
Lemma unmovedF_movedF mi ri rj s t w : eleIdx w mi = ri -> eleSpn w mi = s ->
  eleCfg w (ri + s * N) = mi -> eleCfg w (rj + t * N) = -1 -> eleNum w (ri + s * N) = 1 -> eleNum w (rj + t * N) = 0 ->
  same_tables w (unmovedF mi ri rj s t (movedF mi ri rj s t w)).
Proof.
  intros E1 E0 E2 E3 E4 E5. unfold unmovedF, movedF, hop. repeat split; cbn [eleIdx eleCfg eleNum eleSpn eleProjCnt]; auto;
    intros i; symmetry.
  - now apply undo_one.
  - apply undo_move; try assumption. intros E. rewrite E in E4. lia.
  - apply undo_move; try assumption. intros E. rewrite E in E4. lia.
  - now apply undo_one.
Qed.

Lemma copied_InvF w1 (cnt : Z -> Z) : InvF (set_cnt w1 cnt) ->
  forall c, (forall j, 0 <= j < NProj (T I) -> c j = cnt j) -> InvF (set_cnt w1 c).
Proof.
  intros (H & HU) c Hc. split; [|exact HU].
  eapply Arr_ext; [exact wf|..|exact H]; cbn [eleIdx eleCfg eleNum eleSpn eleProjCnt set_cnt]; auto.
  intros i Hi. symmetry. auto.
Qed.

Lemma ups_move spn x t : 0 <= x < M ->
  ups (upd spn x t) = ups spn + (if t =? 0 then 1 else 0) - (if spn x =? 0 then 1 else 0).
Proof. intros Hx. unfold ups. now apply move_count. Qed.

Lemma safe_one_move b s r : InvF (wk _ s) ->
  (let '(_, (mi, ri, rj, sp, t), flag) := r in proposal (wk _ s) mi ri rj sp t flag) ->
  safe (Ev Orc InvF) (Post Orc InvF s) (one_move_fsz I Orc rank size b s r).
Proof.
  intros HI. destruct r as ((p, ((((mi, ri), rj), sp), t)), flag). intros (Hm & Hi & Hs & Hp).
  unfold one_move_fsz. destruct (Z.eqb_spec flag 1) as [->|Hf1].
  - cbn [safe]. split; cbn [wk]; [assumption|left; apply same_refl].
  - destruct (Hp Hf1) as (Hj & Ht & Hc & Hl & Hk).
    destruct (elec _ HI mi Hm) as (A & B & C). rewrite Hi, Hs in *.
    pose proof (a_cons _ _ _ _ _ _ _ (proj1 HI)) as HC.
    assert (HL : legal_hop N ri sp rj t (eleNum (wk _ s))).
    { rewrite <- Hi, <- Hs. apply (Cons_legal _ _ _ _ _ _ _ HC); assumption. }
    rewrite updateF_ok by assumption. cbn [bindP].
    assert (HU : forall cold, is_proj_cnt (T I) (eleNum (wk Orc s)) cold -> exists cnt,
       (if negb b && (sp =? t)
        then update_proj_cnt (T I) ri rj sp false (garbage Orc) cold (hop N ri sp rj t (eleNum (wk _ s)))
        else update_proj_cnt_fsz (T I) ri rj sp t false (garbage Orc) cold (hop N ri sp rj t (eleNum (wk _ s)))) = Some cnt
       /\ is_proj_cnt (T I) (hop N ri sp rj t (eleNum (wk _ s))) cnt).
    { intros cold Hcold. assert (HO : occ01 N (eleNum (wk _ s))) by (eapply Cons_occ01; eassumption).
      destruct (negb b && (sp =? t)) eqn:EB.
      - apply andb_prop in EB. destruct EB as (_ & EB). apply Z.eqb_eq in EB. subst t.
        destruct (update_correct (T I) HT ri rj sp false (garbage Orc) cold _ HO HL Hcold) as (cnt & E & Hcnt & _). eauto.
      - destruct (update_correct_gen (T I) HT ri sp rj t false (garbage Orc) cold _ HO HL Hcold) as (cnt & E & Hcnt & _). eauto. }
    destruct (HU (eleProjCnt (wk _ s))) as (cnt & E & Hcnt); [apply (a_cnt _ _ _ _ _ _ _ (proj1 HI))|].
    cbn [eleProjCnt eleNum movedF]. rewrite E. cbn [ofOpt bindP].
    eapply safe_bind with (Q := Post Orc InvF s); [|intros s' Hs'; now apply safe_recalc].
    apply safe_metropolis; [exact wf|exact InvF_same|assumption| |].
    + apply copied_InvF. unfold InvF, set_cnt, movedF. cbn [eleIdx eleCfg eleNum eleSpn eleProjCnt].
      pose proof (Arr_move I 0 _ _ _ _ _ mi rj t cnt (proj1 HI) Hm Hj Ht Hc ltac:(lia)) as HM.
      rewrite Hi, Hs in HM. specialize (HM Hl Hcnt). split.
      * eapply Arr_ext; [exact wf|..|exact HM]; auto. intros i _. f_equal. lia.
      * intros HK. rewrite ups_move by assumption. rewrite Hs, (Hk HK).
        rewrite (proj2 HI HK). lia.
    + rewrite revertF_ok by assumption. cbn [safe].
      destruct HL as (_ & _ & _ & _ & H1 & [H0|(<- & <-)]).
      * apply unmovedF_movedF; assumption.
      * lia.
Qed.

Lemma safe_hopping_step_fsz s p : InvF (wk _ s) ->
  safe (Ev Orc InvF) (Post Orc InvF s) (hopping_step_fsz I Orc rank size s p).
Proof.
  intros HI. unfold hopping_step_fsz. destruct (Z.eqb_spec (TwoSz I) (-1)) as [E|E].
  - assert (HK : ~ keeps) by (unfold keeps; tauto).
    destruct (coin _ =? 0); (eapply safe_bind; [|intros r Hr; apply safe_one_move; [assumption|exact Hr]]).
    + now apply safe_hopping_fsz.
    + now apply safe_flip_conduction.
  - eapply safe_bind; [|intros r Hr; apply safe_one_move; [assumption|exact Hr]]. now apply safe_hopping_csz.
Qed.
Lemma safe_flip_step_fsz s p : ~ keeps -> InvF (wk _ s) ->
  safe (Ev Orc InvF) (Post Orc InvF s) (flip_step_fsz I Orc rank size s p).
Proof.
  intros HK HI. unfold flip_step_fsz.
  eapply safe_bind; [|intros r Hr; apply safe_one_move; [assumption|exact Hr]]. now apply safe_flip_localspin.
Qed.

Lemma safe_exchange_step_fsz s p : InvF (wk _ s) ->
  safe (Ev Orc InvF) (Post Orc InvF s) (exchange_step_fsz I Orc rank size s p).
Proof.
  intros HI. unfold exchange_step_fsz. eapply safe_bind; [now apply safe_exchange_fsz|].
  intros (p', [(((mi, ri), rj), sp)|]) H; cbn [snd] in H.
  2:{ cbn [safe]. split; cbn [wk]; [assumption|left; apply same_refl]. }
  destruct H as (Hm & Es & Hi & Hc1 & mj & Hmj & Es' & Hj & Hc2).
  destruct (elec _ HI mi Hm) as (A & Hs & B). rewrite Hi, Es in *.
  destruct (elec _ HI mj Hmj) as (A' & Ht & B'). rewrite Hj, Es' in *.
  rewrite get_ok by (now apply cell_range). cbn [bindP]. rewrite B'.
  rewrite updateF_ok by assumption. cbn [bindP].
  pose proof (a_cons _ _ _ _ _ _ _ (proj1 HI)) as HC.
  assert (HO : occ01 N (eleNum (wk _ s))) by (eapply Cons_occ01; eassumption).
  assert (HL : legal_hop N ri sp rj sp (eleNum (wk _ s))).
  { rewrite <- Hi. rewrite <- Es at 1. apply (Cons_legal _ _ _ _ _ _ _ HC); assumption. }
  destruct (update_correct (T I) HT ri rj sp false (garbage Orc) (eleProjCnt (wk _ s)) (eleNum (wk _ s)))
    as (cnt & E & Hcnt & _); [assumption|assumption|apply (a_cnt _ _ _ _ _ _ _ (proj1 HI))|].
  cbn [eleProjCnt eleNum movedF]. rewrite E. cbn [ofOpt bindP].
  rewrite updateF_ok by assumption. cbn [bindP eleProjCnt eleNum movedF].
  set (num2 := hop N rj (1 - sp) ri (1 - sp) (hop N ri sp rj sp (eleNum (wk Orc s)))).
  assert (HX : forall cnt', is_proj_cnt (T I) num2 cnt' ->
     Arr I 0 (upd (upd (eleIdx (wk Orc s)) mi rj) mj ri)
      (upd (upd (upd (upd (eleCfg (wk Orc s)) (ri + sp * N) (-1)) (rj + sp * N) mi) (rj + (1 - sp) * N) (-1)) (ri + (1 - sp) * N) mj)
      num2 (upd (upd (eleSpn (wk Orc s)) mi sp) mj (1 - sp)) cnt' /\
      legal_hop N rj (1 - sp) ri (1 - sp) (hop N ri sp rj sp (eleNum (wk Orc s))) /\
      occ01 N (hop N ri sp rj sp (eleNum (wk Orc s))) /\ ri <> rj).
  { intros cnt' Hcnt'.
    destruct (Arr_exchange I 0 _ _ _ _ _ mi mj ri sp rj (1 - sp) cnt' (proj1 HI)
                Hm Hmj Hi Es Hj Es' eq_refl Hc2 Hc1 Hcnt') as (R1 & _ & R2 & R3 & _ & R4).
    split; [|auto]. eapply Arr_ext; [exact wf|..|exact R1]; auto.
    intros i _. rewrite !upd_get. destruct (i =? _); [lia|]. destruct (i =? _); [reflexivity|].
    destruct (i =? _); [lia|]. reflexivity. }
  assert (R : legal_hop N rj (1 - sp) ri (1 - sp) (hop N ri sp rj sp (eleNum (wk Orc s))) /\
      occ01 N (hop N ri sp rj sp (eleNum (wk Orc s))) /\ ri <> rj).
  { destruct (make_correct (T I) HT num2) with (c := fun _ : Z => 0) as (c0 & _ & Hc0 & _).
    - unfold num2. pose proof (hop_occ01 (T I) ri sp rj sp _ HO HL) as HO1.
      intros rs Hrs. unfold hop at 1 3. rewrite !upd_get.
      destruct (_ =? _); [tauto|]. destruct (_ =? _); [tauto|]. now apply HO1.
    - exact (proj2 (HX c0 Hc0)). }
  destruct R as (HL2 & HO2 & Hne).
  destruct (update_correct (T I) HT rj ri (1 - sp) true cnt cnt _ HO2 HL2 Hcnt) as (cnt2 & E2 & Hcnt2 & _).
  fold num2 in E2. rewrite E2. cbn [ofOpt bindP].
  assert (Hxy : mj <> mi) by (intros ->; lia).
  eapply safe_bind with (Q := Post Orc InvF s); [|intros s' Hs'; now apply safe_recalc].
  apply safe_metropolis; [exact wf|exact InvF_same|assumption| |].
  - apply copied_InvF. split; [exact (proj1 (HX cnt2 Hcnt2))|].
    cbn [set_cnt eleSpn movedF]. intros HK. rewrite ups_move by assumption. rewrite upd_other by assumption.
    rewrite ups_move by assumption. rewrite (proj2 HI HK), Es, Es'. lia.
  - rewrite revertF_ok by assumption. cbn [bindP]. rewrite revertF_ok by assumption. cbn [safe].
    set (w1 := movedF mi ri rj sp sp (wk Orc s)).
    assert (S1 : same_tables w1 (unmovedF mj rj ri (1 - sp) (1 - sp) (movedF mj rj ri (1 - sp) (1 - sp) w1))).
    { destruct HL2 as (_ & _ & _ & _ & H1 & [H0|(Er & _)]); [|congruence].
      apply unmovedF_movedF; unfold w1, movedF; cbn [eleIdx eleCfg eleNum eleSpn]; try assumption.
      - rewrite upd_other by assumption. assumption.
      - rewrite upd_other by assumption. assumption.
      - rewrite !upd_other; [assumption| |]; intros e; apply cell_inj in e; try assumption; lia.
      - rewrite !upd_other; [assumption| |]; intros e; apply cell_inj in e; try assumption; lia. }
    eapply same_trans; [|apply unmovedF_ext; exact S1].
    destruct HL as (_ & _ & _ & _ & H1 & [H0|(Er & _)]); [|congruence].
    apply unmovedF_movedF; assumption.
Qed.

Lemma safe_inner_step_fsz s : InvF (wk _ s) ->
  safe (Ev Orc InvF) (Post Orc InvF s) (inner_step_fsz I Orc rank size s).
Proof.
  intros HI. unfold inner_step_fsz. destruct (get_update_type I Orc (pos Orc s)) as (p, ut) eqn:EU.
  eapply safe_bind with (Q := Post Orc InvF s).
  - destruct ut; [now apply safe_hopping_step_fsz|now apply safe_exchange_step_fsz| |].
    + apply safe_flip_step_fsz; [|assumption]. unfold keeps. intros (K1 & K2).
      unfold get_update_type in EU.
      repeat match type of EU with
      | context [if ?c then _ else _] => let E := fresh in destruct c eqn:E; try discriminate EU
      end; lia.
    + apply safe_recalc. split; cbn [wk]; [assumption|left; apply same_refl].
  - intros s' Hs'. split; [exact (proj1 Hs')|exact Hs'].
Qed.
End ProofsF.
