(** Proposals: ranges, legality, existence; reverting. *)
From Coq Require Import ZArith List Bool Lia.
From Verif Require Import Base.ZLoop Base.Checked Proj.Model Proj.Spec Proj.Proofs Samp.Prog Samp.Model Samp.Spec Samp.Hoare
  Samp.Config Samp.Proofs Samp.ProofsF Samp.Trace.
Import ListNotations.
Local Open Scope Z_scope.

(** ** Proposals look neither at the correlation factors nor at the total Sz; exchanges nor at the local spins *)
Definition bare (T : tables) : tables := Tables (Nsite T) 0 0 0 0 (fun _ => 0) (fun _ _ => 0) (fun _ _ => 0) (fun _ _ => 0).
Definition bare_input (I : input) (loc : Z -> Z) : input :=
  Input (bare (T I)) (Ne I) loc (-1) (iFlgOrbitalGeneral I) (NExUpdatePath I) (NVMCWarmUp I) (NVMCSample I) (NVMCInterval I) (NQPFull I).
Lemma bare_wf I loc : wf_input I -> (forall r, 0 <= r < Nsite (T I) -> loc r = 0 \/ loc r = 1) -> wf_input (bare_input I loc).
Proof. intros [A B C D] Hl. constructor; cbn; auto. constructor; cbn; lia. Qed.
Lemma bare_counters I w loc : counters_current (bare_input I loc) w.
Proof. unfold counters_current. constructor; cbn; lia. Qed.

Lemma make_InvC I w : wf_input I -> consistent (Nsite (T I)) (Ne I) w -> locals_single I w -> InvC (bare_input I (LocSpn I)) w.
Proof. intros wf H Hl. apply consistent_Cons in H; [|apply (wf_ne I wf)]. constructor; auto. apply bare_counters. Qed.
Lemma make_InvC_free I w : wf_input I -> consistent (Nsite (T I)) (Ne I) w -> InvC (bare_input I (fun _ => 0)) w.
Proof.
  intros wf H. apply consistent_Cons in H; [|apply (wf_ne I wf)]. constructor; auto; [|apply bare_counters]. intros r _ E. discriminate E.
Qed.
Lemma make_InvF I w u : wf_input I -> consistent_fsz (Nsite (T I)) (Ne I) w -> locals_single I w -> InvF (bare_input I (LocSpn I)) u w.
Proof.
  intros wf H Hl. apply consistent_fsz_Cons in H. split; [constructor; auto; apply bare_counters|].
  intros (A & _). cbn in A. now contradiction A.
Qed.
Lemma make_InvF_free I w : wf_input I -> consistent_fsz (Nsite (T I)) (Ne I) w -> InvF (bare_input I (fun _ => 0)) 0 w.
Proof.
  intros wf H. apply consistent_fsz_Cons in H. split; [constructor; auto; [|apply bare_counters]; intros r _ E; discriminate E|].
  intros (A & _). cbn in A. now contradiction A.
Qed.

(** ** C43 *)
Definition anyE {L} : event L -> Prop := fun _ => True.
Lemma hopping_range I Orc w p tr o : wf_input I -> consistent (Nsite (T I)) (Ne I) w -> locals_single I w ->
  runs (make_candidate_hopping I Orc w p) tr o ->
  o <> Stopped Undefined /\ forall p' mi ri rj s flag, o = Done (p', (mi, ri, rj, s), flag) ->
    0 <= mi < Ne I /\ 0 <= s <= 1 /\ 0 <= ri < Nsite (T I) /\ 0 <= rj < Nsite (T I) /\ 0 <= flag <= 1 /\
    eleIdx w (mi + s * Ne I) = ri /\ LocSpn I ri <> 1 /\
    (flag = 0 -> eleNum w (rj + s * Nsite (T I)) = 0 /\ LocSpn I rj <> 1).
Proof.
  intros wf Hc Hl R. pose proof (make_InvC I w wf Hc Hl) as HI.
  pose proof (safe_hopping (bare_input I (LocSpn I)) Orc (bare_wf I _ wf (wf_loc I wf)) w HI anyE p) as S.
  change (make_candidate_hopping (bare_input I (LocSpn I)) Orc w p) with (make_candidate_hopping I Orc w p) in S.
  destruct (safe_runs _ _ _ _ _ S R) as (_ & D). split.
  - destruct o as [a|[| |]]; try discriminate. now contradiction D.
  - intros p' mi ri rj s flag ->. destruct D as ((Hm & Hs & Hi & Hl0) & Hrj & Hf & Ht). cbn in Hi.
    destruct (c_elec _ _ _ Hc mi s Hm Hs) as (r & Er & Hr & _).
    refine (conj Hm (conj Hs (conj _ (conj Hrj (conj Hf (conj Hi (conj Hl0 _))))))); [congruence|].
    intros ->. destruct (Ht ltac:(lia)) as (_ & Hfree & Hl1). cbn in Hfree. split; [|exact Hl1].
    destruct (c_site _ _ _ Hc rj s Hrj Hs) as [(_ & A)|(m & B & C & _)]; [exact A|lia].
Qed.

Lemma fsz_range I Orc w (gen : prog (K Orc) (event (L Orc)) (Z * (Z * Z * Z * Z * Z) * Z)) tr o :
  wf_input I -> consistent_fsz (Nsite (T I)) (Ne I) w ->
  safe anyE (fun r => let '(_, (mi, ri, rj, s, t), flag) := r in
               proposal (bare_input I (LocSpn I)) w mi ri rj s t flag) gen ->
  runs gen tr o ->
  o <> Stopped Undefined /\ forall p' mi ri rj s t flag, o = Done (p', (mi, ri, rj, s, t), flag) ->
    0 <= mi < 2 * Ne I /\ 0 <= s <= 1 /\ 0 <= ri < Nsite (T I) /\ eleIdx w mi = ri /\ eleSpn w mi = s /\
    (flag <> 1 -> 0 <= rj < Nsite (T I) /\ 0 <= t <= 1 /\ eleNum w (rj + t * Nsite (T I)) = 0 /\
       ((LocSpn I ri <> 1 /\ LocSpn I rj <> 1) \/ rj = ri)).
Proof.
  intros wf Hc S R. destruct (safe_runs _ _ _ _ _ S R) as (_ & D). split.
  - destruct o as [a|[| |]]; try discriminate. now contradiction D.
  - intros p' mi ri rj s t flag ->. destruct D as (Hm & Hi & Hs & Hf). cbn in Hm, Hi, Hs, Hf.
    destruct (f_elec _ _ _ Hc mi Hm) as (r & s' & A & B & C & D & _).
    refine (conj Hm (conj _ (conj _ (conj Hi (conj Hs _))))); [lia|lia|].
    intros Hfl. destruct (Hf Hfl) as (X1 & X2 & X3 & X4 & _).
    refine (conj X1 (conj X2 (conj _ X4))).
    destruct (f_site _ _ _ Hc rj t X1 X2) as [(_ & E)|(m & E & F & _)]; [exact E|lia].
Qed.

(** ** C12: reverting *)
Section Revert.
Variable I : input.
Variable Orc : oracles.
Hypothesis wf : wf_input I.
Notation N := (Nsite (T I)).
Lemma revert_hop w mi ri rj s : consistent N (Ne I) w -> 0 <= mi < Ne I -> 0 <= s <= 1 -> eleIdx w (mi + s * Ne I) = ri ->
  0 <= rj < N -> eleNum w (rj + s * N) = 0 ->
  exists w', (w1 <~ update_ele_config I Orc mi ri rj s w;; revert_ele_config I Orc mi ri rj s w1) = Ret w' /\ same_tables w w'.
Proof.
  intros Hc Hm Hs Hi Hj He. destruct (c_elec _ _ _ Hc mi s Hm Hs) as (r & Er & Hr & Ec). rewrite Hi in Er. subst r.
  destruct (c_site _ _ _ Hc ri s Hr Hs) as [(A & _)|(m & A & B & C & _)]; [lia|].
  destruct (c_site _ _ _ Hc rj s Hj Hs) as [(A' & B')|(m' & A' & B' & C' & _)]; [|lia].
  rewrite update_ok by assumption. cbn [bindP]. rewrite revert_ok by assumption. eexists. split; [reflexivity|].
  apply unmoved_moved; assumption || lia.
Qed.
Lemma revert_exchange w mi mj ri rj s : consistent N (Ne I) w -> 0 <= mi < Ne I -> 0 <= mj < Ne I -> 0 <= s <= 1 ->
  eleIdx w (mi + s * Ne I) = ri -> eleIdx w (mj + (1 - s) * Ne I) = rj ->
  eleNum w (rj + s * N) = 0 -> eleNum w (ri + (1 - s) * N) = 0 ->
  exists w', (w1 <~ update_ele_config I Orc mi ri rj s w;; w2 <~ update_ele_config I Orc mj rj ri (1 - s) w1;;
              w3 <~ revert_ele_config I Orc mj rj ri (1 - s) w2;; revert_ele_config I Orc mi ri rj s w3) = Ret w' /\ same_tables w w'.
Proof.
  intros Hc Hm Hmj Hs Hi Hj He Hf.
  destruct (c_elec _ _ _ Hc mi s Hm Hs) as (r & Er & Hr & Ec). rewrite Hi in Er. subst r.
  destruct (c_elec _ _ _ Hc mj (1 - s) Hmj ltac:(lia)) as (r & Er & Hrj & Ecj). rewrite Hj in Er. subst r.
  destruct (c_site _ _ _ Hc ri s Hr Hs) as [(A & _)|(m & A & B & C & _)]; [lia|].
  destruct (c_site _ _ _ Hc rj s Hrj Hs) as [(A' & B')|(m' & A' & B' & C' & _)]; [|lia].
  destruct (c_site _ _ _ Hc rj (1 - s) Hrj ltac:(lia)) as [(G & _)|(m' & G & H & J & _)]; [lia|].
  destruct (c_site _ _ _ Hc ri (1 - s) Hr ltac:(lia)) as [(G' & H')|(m'' & G' & H' & J' & _)]; [|lia].
  rewrite update_ok by assumption. cbn [bindP]. rewrite update_ok by (assumption || lia). cbn [bindP].
  rewrite revert_ok by (assumption || lia). cbn [bindP]. rewrite revert_ok by assumption. eexists. split; [reflexivity|].
  assert (Hd : forall q q', 0 <= q < N -> 0 <= q' < N -> q + (1 - s) * N <> q' + s * N).
  { intros q q' Hq Hq' E. apply cell_inj in E; lia. }
  assert (Hx : mj + (1 - s) * Ne I <> mi + s * Ne I) by (intros E; apply cell_inj in E; lia).
  assert (S1 : same_tables (moved I mi ri rj s w) (unmoved I mj rj ri (1 - s) (moved I mj rj ri (1 - s) (moved I mi ri rj s w)))).
  { apply unmoved_moved; unfold moved, hop; cbn [eleIdx eleCfg eleNum]; rewrite ?upd_other by (auto using Hd); assumption || lia. }
  apply (unmoved_ext I mi ri rj s) in S1.
  assert (S2 : same_tables w (unmoved I mi ri rj s (moved I mi ri rj s w))) by (apply unmoved_moved; assumption || lia).
  eapply same_trans; eassumption.
Qed.
Lemma revert_hop_fsz w mi ri rj s t : consistent_fsz N (Ne I) w -> 0 <= mi < 2 * Ne I -> eleSpn w mi = s -> eleIdx w mi = ri ->
  0 <= rj < N -> 0 <= t <= 1 -> eleNum w (rj + t * N) = 0 ->
  exists w', (w1 <~ update_ele_config_fsz I Orc mi ri rj s t w;; revert_ele_config_fsz I Orc mi ri rj s t w1) = Ret w' /\ same_tables w w'.
Proof.
  intros Hc Hm Hs Hi Hj Ht He. destruct (f_elec _ _ _ Hc mi Hm) as (r & s0 & Er & Es & Hr & Hs0 & Ec).
  rewrite Hi in Er. rewrite Hs in Es. subst r s0.
  destruct (f_site _ _ _ Hc ri s Hr Hs0) as [(A & _)|(m & A & B & C & _)]; [lia|].
  destruct (f_site _ _ _ Hc rj t Hj Ht) as [(A' & B')|(m' & A' & B' & C' & _)]; [|lia].
  rewrite updateF_ok by assumption. cbn [bindP]. rewrite revertF_ok by assumption. eexists. split; [reflexivity|].
  apply unmovedF_movedF; assumption || lia.
Qed.
End Revert.

(** the whole step, whatever was proposed *)
Lemma reject_same I Orc rank size s tr s' : wf_input I -> consistent (Nsite (T I)) (Ne I) (wk _ s) -> locals_single I (wk _ s) ->
  counters_current I (wk _ s) -> (forall w0 w1 l l' r, accept Orc w0 w1 l l' r = false) ->
  runs (inner_step I Orc rank size s) tr (Done s') -> same_tables (wk _ s) (wk _ s').
Proof.
  intros wf Hc Hl Hn Hr R. assert (HI : InvC I (wk _ s)).
  { constructor; [|exact Hl|exact Hn]. apply consistent_Cons; [apply (wf_ne I wf)|exact Hc]. }
  destruct (safe_runs _ _ _ _ _ (safe_inner_step I Orc rank size wf s HI) R) as (_ & (_ & [H|(w1 & l & r & H)])); [exact H|].
  rewrite Hr in H. discriminate.
Qed.
Lemma reject_same_fsz I Orc rank size s tr s' : wf_input I -> consistent_fsz (Nsite (T I)) (Ne I) (wk _ s) ->
  locals_single I (wk _ s) -> counters_current I (wk _ s) -> (forall w0 w1 l l' r, accept Orc w0 w1 l l' r = false) ->
  runs (inner_step_fsz I Orc rank size s) tr (Done s') -> same_tables (wk _ s) (wk _ s').
Proof.
  intros wf Hc Hl Hn Hr R. assert (HI : InvF I (ups I (eleSpn (wk _ s))) (wk _ s)).
  { split; [constructor; [|exact Hl|exact Hn]|reflexivity]. now apply consistent_fsz_Cons. }
  destruct (safe_runs _ _ _ _ _ (safe_inner_step_fsz I Orc rank size wf _ s HI) R) as (_ & (_ & [H|(w1 & l & r & H)])); [exact H|].
  rewrite Hr in H. discriminate.
Qed.

(** ** C15 *)
Lemma zsum_pos_neg (l : list Z) f : zsum l f = 0 -> (exists x, In x l /\ f x <> 0) ->
  (exists x, In x l /\ 0 < f x) /\ (exists x, In x l /\ f x < 0).
Proof.
  intros Hz (x & Hx & Hne).
  assert (G : forall g, zsum l g = 0 -> (exists x, In x l /\ g x <> 0) -> exists x, In x l /\ 0 < g x).
  { intros g Hg (y & Hy & Hgy). destruct (existsb (fun x => 0 <? g x) l) eqn:E.
    - apply existsb_exists in E. destruct E as (z & Hi & Hp). exists z. split; [exact Hi|lia].
    - exfalso.
      assert (Hall : forall z, In z l -> g z <= 0).
      { intros z Hi. destruct (Z.lt_ge_cases 0 (g z)) as [Hp|]; [|assumption].
        assert (existsb (fun x => 0 <? g x) l = true) by (apply existsb_exists; exists z; split; [exact Hi|lia]). congruence. }
      apply in_split in Hy. destruct Hy as (l1 & l2 & ->). rewrite zsum_app in Hg. cbn [zsum fold_right] in Hg.
      fold (zsum l2 g) in Hg.
      assert (zsum l1 g <= 0).
      { rewrite <- (zsum_zero l1 (fun _ => 0)) by reflexivity. apply zsum_le. intros. apply Hall. apply in_or_app; now left. }
      assert (zsum l2 g <= 0).
      { rewrite <- (zsum_zero l2 (fun _ => 0)) by reflexivity. apply zsum_le. intros. apply Hall. apply in_or_app; right; now right. }
      pose proof (Hall y ltac:(apply in_or_app; right; now left)). lia. }
  split; [apply G; eauto|].
  destruct (G (fun x => 0 - f x)) as (y & Hy & Hp).
  - rewrite zsum_sub, Hz. rewrite zsum_zero by reflexivity. reflexivity.
  - exists x. split; [assumption|lia].
  - exists y. split; [assumption|lia].
Qed.

Section Exchange.
Variable I : input.
Hypothesis wf : wf_input I.
Notation N := (Nsite (T I)).
Section Csz.
Variable w : walker.
Hypothesis Hc : consistent N (Ne I) w.
Let HNe : 0 < Ne I := wf_ne I wf.

Lemma num01 r s : 0 <= r < N -> 0 <= s <= 1 -> eleNum w (r + s * N) = 0 \/ eleNum w (r + s * N) = 1.
Proof. intros Hr Hs. destruct (c_site _ _ _ Hc r s Hr Hs) as [(_ & ->)|(m & _ & _ & -> & _)]; auto. Qed.
Lemma scan_single_spec Orc l : (forall r, In r l -> 0 <= r < N) ->
  (scan_single I Orc w l = Ret 1 /\ forall r, In r l -> eleNum w r + eleNum w (r + N) <> 1) \/
  (scan_single I Orc w l = Ret 0 /\ exists r, In r l /\ eleNum w r + eleNum w (r + N) = 1).
Proof.
  induction l as [|r l IH]; intros Hl; cbn [scan_single].
  - left. split; [reflexivity|]. intros r [].
  - assert (Hr : 0 <= r < N) by (apply Hl; now left).
    rewrite !get_ok by lia. cbn [bindP]. destruct (Z.eqb_spec (eleNum w r + eleNum w (r + N)) 1) as [E|E].
    + right. split; [reflexivity|]. exists r. split; [now left|exact E].
    + destruct IH as [(-> & H)|(-> & (r' & Hr' & E'))]; [intros; apply Hl; now right| |].
      * left. split; [reflexivity|]. intros r' [<-|Hr']; [exact E|now apply H].
      * right. split; [reflexivity|]. exists r'. split; [now right|exact E'].
Qed.
Lemma single_sum r s : single N w r s -> eleNum w r + eleNum w (r + N) = 1.
Proof.
  intros (Hr & Hs & A & B). assert (s = 0 \/ s = 1) as [->| ->] by lia;
    replace (r + 0 * N) with r in * by lia; replace (r + 1 * N) with (r + N) in * by lia;
    replace (r + (1 - 0) * N) with (r + N) in * by lia; replace (r + (1 - 1) * N) with r in * by lia; lia.
Qed.
Lemma both_single : (exists r, 0 <= r < N /\ eleNum w r + eleNum w (r + N) = 1) ->
  (exists r, single N w r 0) /\ (exists r, single N w r 1).
Proof.
  intros (r & Hr & E).
  assert (Hcount : forall s, 0 <= s <= 1 -> spin_count N w s = Ne I).
  { intros s Hs. pose proof (proj1 (consistent_Cons N (Ne I) w HNe) Hc) as HC. unfold spin_count.
    rewrite (Cons_count _ _ _ _ _ _ _ HC s Hs). apply spn0_count; [lia|assumption]. }
  destruct (zsum_pos_neg (zrange 0 N) (fun r => eleNum w (r + 0 * N) - eleNum w (r + 1 * N))) as ((u & Hu & Pu) & (d & Hd & Pd)).
  - rewrite zsum_sub. unfold spin_count in Hcount. rewrite !Hcount by lia. lia.
  - exists r. split; [now apply zrange_in|]. replace (r + 0 * N) with r by lia. replace (r + 1 * N) with (r + N) by lia.
    pose proof (num01 r 0 Hr ltac:(lia)). pose proof (num01 r 1 Hr ltac:(lia)).
    replace (r + 0 * N) with r in * by lia. replace (r + 1 * N) with (r + N) in * by lia. lia.
  - apply zrange_in in Hu, Hd. split.
    + exists u. pose proof (num01 u 0 Hu ltac:(lia)). pose proof (num01 u 1 Hu ltac:(lia)).
      unfold single. replace (u + (1 - 0) * N) with (u + 1 * N) by lia. lia.
    + exists d. pose proof (num01 d 0 Hd ltac:(lia)). pose proof (num01 d 1 Hd ltac:(lia)).
      unfold single. replace (d + (1 - 1) * N) with (d + 0 * N) by lia. lia.
Qed.

Lemma single_elec r s : single N w r s -> exists mi, 0 <= mi < Ne I /\ eleIdx w (mi + s * Ne I) = r /\ eleCfg w (r + (1 - s) * N) = -1.
Proof.
  intros (Hr & Hs & A & B). destruct (c_site _ _ _ Hc r s Hr Hs) as [(_ & E)|(mi & Hm & _ & _ & Ei)]; [lia|].
  exists mi. split; [assumption|]. split; [assumption|].
  destruct (c_site _ _ _ Hc r (1 - s) Hr ltac:(lia)) as [(E & _)|(m & _ & _ & E & _)]; [exact E|lia].
Qed.
Lemma elec_single mi s : 0 <= mi < Ne I -> 0 <= s <= 1 -> eleCfg w (eleIdx w (mi + s * Ne I) + (1 - s) * N) = -1 ->
  single N w (eleIdx w (mi + s * Ne I)) s.
Proof.
  intros Hm Hs E. destruct (c_elec _ _ _ Hc mi s Hm Hs) as (r & Er & Hr & Ec). rewrite Er in *.
  split; [assumption|]. split; [assumption|]. split.
  - destruct (c_site _ _ _ Hc r s Hr Hs) as [(X & _)|(m & _ & _ & X & _)]; [lia|exact X].
  - destruct (c_site _ _ _ Hc r (1 - s) Hr ltac:(lia)) as [(_ & X)|(m & Hm' & X & _)]; [exact X|lia].
Qed.

Lemma exchange_legal Orc p tr o : runs (make_candidate_exchange I Orc w p) tr o ->
  o <> Stopped Undefined /\ forall p' mi ri rj s, o = Done (p', Some (mi, ri, rj, s)) -> legal_exchange I w mi ri rj s.
Proof.
  intros R. pose proof (make_InvC_free I w wf Hc) as HI.
  pose proof (safe_exchange (bare_input I (fun _ => 0)) Orc (bare_wf I (fun _ => 0) wf (fun r _ => or_introl eq_refl)) w HI anyE p) as S.
  change (make_candidate_exchange (bare_input I (fun _ => 0)) Orc w p) with (make_candidate_exchange I Orc w p) in S.
  destruct (safe_runs _ _ _ _ _ S R) as (_ & D). split.
  - destruct o as [a|[| |]]; try discriminate. now contradiction D.
  - intros p' mi ri rj s ->. cbn [snd bare_input bare T Ne Nsite LocSpn] in D. destruct D as (Hm & Hs & Hi & Hf & mj & Hmj & Hj & Hfj).
    split; [assumption|]. split; [assumption|]. split; [assumption|]. split.
    + rewrite <- Hi. apply elec_single; try assumption. now rewrite Hi.
    + rewrite <- Hj. apply elec_single; try assumption; [lia|]. rewrite Hj. now replace (1 - (1 - s)) with s by lia.
Qed.
Lemma exchange_finds Orc p r0 r1 : single N w r0 0 -> single N w r1 1 -> exists rnd, (2 * Ne I <= 2 ^ 32 -> forall q, 0 <= rnd q < 2 ^ 32) /\ forall n, exists p' c,
  make_candidate_exchange I (with_stream Orc rnd (S n)) w p = Ret (p', Some c).
Proof.
  intros S0 S1. destruct (single_elec r0 0 S0) as (mi & Hm & Ei & Ci), (single_elec r1 1 S1) as (mj & Hmj & Ej & Cj).
  pose (rn := (fun q : Z => if q =? p then mi else if q =? p + 2 then mj else 0)). exists rn. split; [intros Hbig q; unfold rn; repeat destruct (_ =? _); lia|]. intros n.
  assert (E0 : rn p = mi) by (unfold rn; now rewrite Z.eqb_refl).
  assert (E1 : rn (p + 1) = 0) by (unfold rn; replace (p + 1 =? p) with false by lia; now replace (p + 1 =? p + 2) with false by lia).
  assert (E2 : rn (p + 2) = mj) by (unfold rn; replace (p + 2 =? p) with false by lia; now rewrite Z.eqb_refl).
  pose proof S0 as (H0 & _ & _). pose proof S1 as (H1 & _ & _).
  assert (Hl : forall r, In r (zrange 0 N) -> 0 <= r < N) by (intros r; apply zrange_in).
  destruct (scan_single_spec (with_stream Orc rn (S n)) (zrange 0 N) Hl) as [(_ & H)|(Es & _)].
  { exfalso. apply (H r0); [now apply zrange_in|]. exact (single_sum r0 0 S0). }
  unfold make_candidate_exchange. rewrite Es. cbn [bindP Z.eqb].
  cbn [fuel with_stream search]. unfold pick_single at 1. cbn [rnd with_stream]. rewrite E0, E1.
  rewrite umod_ok by lia. cbn [bindP]. rewrite Z.mod_small by assumption.
  change (coin 0) with 0. rewrite get_ok by lia. cbn [bindP]. rewrite Ei. rewrite get_ok by lia. cbn [bindP]. rewrite Ci. cbn [Z.eqb Pos.eqb bindP fst snd].
  unfold pick_partner at 1. cbn [rnd with_stream]. rewrite E2. rewrite umod_ok by lia. cbn [bindP].
  rewrite Z.mod_small by assumption. replace (1 - 0) with 1 by lia. rewrite get_ok by lia. cbn [bindP]. rewrite Ej. rewrite get_ok by lia. cbn [bindP].
  rewrite Cj. cbn [Z.eqb Pos.eqb bindP fst snd]. eauto.
Qed.
Lemma exchange_cases :
  ((forall r s, ~ single N w r s) /\ forall Orc p, make_candidate_exchange I Orc w p = Ret (p, None)) \/
  ((exists r, single N w r 0) /\ (exists r, single N w r 1) /\
   (forall Orc p, exists rnd, (2 * Ne I <= 2 ^ 32 -> forall q, 0 <= rnd q < 2 ^ 32) /\ forall n, exists p' c, make_candidate_exchange I (with_stream Orc rnd (S n)) w p = Ret (p', Some c))).
Proof.
  assert (Hl : forall r, In r (zrange 0 N) -> 0 <= r < N) by (intros r; apply zrange_in).
  set (b := existsb (fun r => eleNum w r + eleNum w (r + N) =? 1) (zrange 0 N)).
  destruct b eqn:Eb; unfold b in Eb.
  - apply existsb_exists in Eb. destruct Eb as (r & Hr & E). apply zrange_in in Hr. apply Z.eqb_eq in E.
    destruct both_single as ((r0 & S0) & (r1 & S1)); [exists r; auto|]. right. split; [eauto|]. split; [eauto|].
    intros Orc p. now apply exchange_finds with r0 r1.
  - assert (Hn : forall r, 0 <= r < N -> eleNum w r + eleNum w (r + N) <> 1).
    { intros r Hr E. assert (true = false); [|discriminate]. rewrite <- Eb. symmetry. apply existsb_exists.
      exists r. split; [now apply zrange_in|now apply Z.eqb_eq]. }
    left. split.
    + intros r s S. pose proof S as (Hr & _). exact (Hn r Hr (single_sum r s S)).
    + intros Orc p. unfold make_candidate_exchange.
      destruct (scan_single_spec Orc (zrange 0 N) Hl) as [(-> & _)|(_ & (r & Hr & E))]; [reflexivity|].
      apply zrange_in in Hr. destruct (Hn r Hr E).
Qed.
End Csz.

Section Fsz.
Variable w : walker.
Hypothesis Hc : consistent_fsz N (Ne I) w.
Let HNe : 0 < Ne I := wf_ne I wf.
Lemma num01_fsz r s : 0 <= r < N -> 0 <= s <= 1 -> eleNum w (r + s * N) = 0 \/ eleNum w (r + s * N) = 1.
Proof. intros Hr Hs. destruct (f_site _ _ _ Hc r s Hr Hs) as [(_ & ->)|(m & _ & _ & -> & _)]; auto. Qed.
(** up (a = 1) and down (a = -1) singles already seen *)
Lemma scan_opposite_spec Orc l a b : (forall r, In r l -> 0 <= r < N) ->
  ((a = 0 /\ b = 0) \/ ((a = 1 \/ a = -1) /\ (b = 0 \/ b = a))) ->
  let up := a = 1 \/ exists r, In r l /\ single N w r 0 in
  let down := a = -1 \/ exists r, In r l /\ single N w r 1 in
  (scan_opposite I Orc w l a b = Ret 0 /\ up /\ down) \/ (scan_opposite I Orc w l a b = Ret 1 /\ ~ (up /\ down)).
Proof.
  revert a b. induction l as [|r l IH]; intros a b Hl Hab up down; cbn [scan_opposite].
  - right. split; [reflexivity|]. intros ([H|(r & [] & _)] & [H'|(r' & [] & _)]). lia.
  - assert (Hr : 0 <= r < N) by (apply Hl; now left).
    assert (Hl' : forall r, In r l -> 0 <= r < N) by (intros; apply Hl; now right).
    rewrite !get_ok by lia. cbn [bindP].
    pose proof (num01_fsz r 0 Hr ltac:(lia)) as U0. pose proof (num01_fsz r 1 Hr ltac:(lia)) as U1.
    replace (r + 0 * N) with r in U0 by lia. replace (r + 1 * N) with (r + N) in U1 by lia.
    assert (S0 : single N w r 0 <-> eleNum w r = 1 /\ eleNum w (r + N) = 0).
    { unfold single. replace (r + 0 * N) with r by lia. replace (r + (1 - 0) * N) with (r + N) by lia. intuition lia. }
    assert (S1 : single N w r 1 <-> eleNum w r = 0 /\ eleNum w (r + N) = 1).
    { unfold single. replace (r + 1 * N) with (r + N) by lia. replace (r + (1 - 1) * N) with r by lia. intuition lia. }
    assert (Up : forall a', (a' = 1 \/ exists r0, In r0 l /\ single N w r0 0) -> (a' = 1 -> up) -> up).
    { intros a' [H|(r0 & H1 & H2)] Ha; [now apply Ha|]. right. exists r0. split; [now right|assumption]. }
    assert (Dn : forall a', (a' = -1 \/ exists r0, In r0 l /\ single N w r0 1) -> (a' = -1 -> down) -> down).
    { intros a' [H|(r0 & H1 & H2)] Ha; [now apply Ha|]. right. exists r0. split; [now right|assumption]. }
    destruct (Z.eqb_spec (eleNum w r + eleNum w (r + N)) 1) as [E|E].
    + set (v := 2 * eleNum w r - 1).
      assert (Hv : (v = 1 /\ single N w r 0) \/ (v = -1 /\ single N w r 1)).
      { unfold v. destruct U0 as [U0|U0]; [right|left]; (split; [lia|]); [apply S1|apply S0]; lia. }
      destruct (Z.eqb_spec a 0) as [->|Ha].
      * assert (b = 0) as -> by lia. replace (v * 0 <? 0) with false by lia.
        destruct (IH v 0 Hl' ltac:(lia)) as [(-> & A & B)|(-> & H)].
        -- left. split; [reflexivity|]. split.
           ++ apply (Up v A). intros Hv1. right. exists r. split; [now left|]. destruct Hv as [(_ & X)|(X & _)]; [exact X|lia].
           ++ apply (Dn v B). intros Hv1. right. exists r. split; [now left|]. destruct Hv as [(X & _)|(_ & X)]; [lia|exact X].
        -- right. split; [reflexivity|]. intros (A & B). apply H. split.
           ++ destruct A as [A|(r0 & [<-|Hi] & A)]; [lia| |right; eauto]. left. destruct Hv as [(X & _)|(_ & X)]; [exact X|].
              apply S0 in A. apply S1 in X. lia.
           ++ destruct B as [B|(r0 & [<-|Hi] & B)]; [lia| |right; eauto]. left. destruct Hv as [(_ & X)|(X & _)]; [|exact X].
              apply S1 in B. apply S0 in X. lia.
      * destruct (a * v <? 0) eqn:Ep.
        -- left. split; [reflexivity|]. apply Z.ltb_lt in Ep. destruct Hv as [(Ev & X)|(Ev & X)]; rewrite Ev in Ep.
           ++ split; [right; exists r; split; [now left|exact X]|left; lia].
           ++ split; [left; lia|right; exists r; split; [now left|exact X]].
        -- apply Z.ltb_ge in Ep. assert (a = v) by (destruct Hv as [(Ev & _)|(Ev & _)]; rewrite Ev in *; lia). subst a.
           destruct (IH v v Hl' ltac:(lia)) as [(-> & A & B)|(-> & H)].
           ++ left. split; [reflexivity|]. split; [apply (Up v A); intros; left; assumption|apply (Dn v B); intros; left; assumption].
           ++ right. split; [reflexivity|]. intros (A & B). apply H. split.
              ** destruct A as [A|(r0 & [<-|Hi] & A)]; [now left| |right; eauto]. left. destruct Hv as [(X & _)|(_ & X)]; [exact X|].
                 apply S0 in A. apply S1 in X. lia.
              ** destruct B as [B|(r0 & [<-|Hi] & B)]; [now left| |right; eauto]. left. destruct Hv as [(_ & X)|(X & _)]; [|exact X].
                 apply S1 in B. apply S0 in X. lia.
    + assert (Hno : forall s, ~ single N w r s).
      { intros s S. pose proof S as (_ & Hs & _). assert (s = 0 \/ s = 1) as [->| ->] by lia; [apply S0 in S|apply S1 in S]; lia. }
      destruct (IH a b Hl' Hab) as [(-> & A & B)|(-> & H)].
      * left. split; [reflexivity|]. split; [apply (Up a A); intros; now left|apply (Dn a B); intros; now left].
      * right. split; [reflexivity|]. intros (A & B). apply H. split.
        -- destruct A as [A|(r0 & [<-|Hi] & A)]; [now left| |right; eauto]. destruct (Hno 0 A).
        -- destruct B as [B|(r0 & [<-|Hi] & B)]; [now left| |right; eauto]. destruct (Hno 1 B).
Qed.

Lemma single_elec_fsz r s : single N w r s ->
  exists x, 0 <= x < 2 * Ne I /\ eleIdx w x = r /\ eleSpn w x = s /\ eleCfg w (r + (1 - s) * N) = -1.
Proof.
  intros (Hr & Hs & A & B). destruct (f_site _ _ _ Hc r s Hr Hs) as [(_ & E)|(x & Hx & _ & _ & Ei & Es)]; [lia|].
  exists x. refine (conj Hx (conj Ei (conj Es _))).
  destruct (f_site _ _ _ Hc r (1 - s) Hr ltac:(lia)) as [(E & _)|(m & _ & _ & E & _)]; [exact E|lia].
Qed.
Lemma elec_single_fsz x : 0 <= x < 2 * Ne I -> eleCfg w (eleIdx w x + (1 - eleSpn w x) * N) = -1 ->
  single N w (eleIdx w x) (eleSpn w x).
Proof.
  intros Hx E. destruct (f_elec _ _ _ Hc x Hx) as (r & s & Ei & Es & Hr & Hs & Ec). rewrite Ei, Es in *.
  split; [assumption|]. split; [assumption|]. split.
  - destruct (f_site _ _ _ Hc r s Hr Hs) as [(X & _)|(m & _ & _ & X & _)]; [lia|exact X].
  - destruct (f_site _ _ _ Hc r (1 - s) Hr ltac:(lia)) as [(_ & X)|(m & Hm' & X & _)]; [exact X|lia].
Qed.
Lemma exchange_legal_fsz Orc p tr o : runs (make_candidate_exchange_fsz I Orc w p) tr o ->
  o <> Stopped Undefined /\ forall p' mi ri rj s, o = Done (p', Some (mi, ri, rj, s)) -> legal_exchange_fsz I w mi ri rj s.
Proof.
  intros R. pose proof (make_InvF_free I w wf Hc) as HI.
  pose proof (safe_exchange_fsz (bare_input I (fun _ => 0)) Orc (bare_wf I (fun _ => 0) wf (fun r _ => or_introl eq_refl)) 0 w HI anyE p) as S.
  change (make_candidate_exchange_fsz (bare_input I (fun _ => 0)) Orc w p) with (make_candidate_exchange_fsz I Orc w p) in S.
  destruct (safe_runs _ _ _ _ _ S R) as (_ & D). split.
  - destruct o as [a|[| |]]; try discriminate. now contradiction D.
  - intros p' mi ri rj s ->. cbn [snd bare_input bare T Ne Nsite LocSpn] in D. destruct D as (Hm & Hs & Hi & Hf & mj & Hmj & Hsj & Hj & Hfj).
    refine (conj Hm (conj Hs (conj Hi (conj _ _)))).
    + rewrite <- Hi, <- Hs. apply elec_single_fsz; try assumption. now rewrite Hi, Hs.
    + rewrite <- Hj, <- Hsj. apply elec_single_fsz; try assumption. rewrite Hj, Hsj. now replace (1 - (1 - s)) with s by lia.
Qed.
Lemma exchange_finds_fsz Orc p r0 r1 : single N w r0 0 -> single N w r1 1 -> exists rnd, (2 * Ne I <= 2 ^ 32 -> forall q, 0 <= rnd q < 2 ^ 32) /\ forall n, exists p' c,
  make_candidate_exchange_fsz I (with_stream Orc rnd (S n)) w p = Ret (p', Some c).
Proof.
  intros S0 S1. destruct (single_elec_fsz r0 0 S0) as (mi & Hm & Ei & Esi & Ci), (single_elec_fsz r1 1 S1) as (mj & Hmj & Ej & Esj & Cj).
  pose (rn := (fun q : Z => if q =? p then mi else mj)). exists rn. split; [intros Hbig q; unfold rn; repeat destruct (_ =? _); lia|]. intros n.
  assert (E0 : rn p = mi) by (unfold rn; now rewrite Z.eqb_refl).
  assert (E1 : rn (p + 1) = mj) by (unfold rn; now replace (p + 1 =? p) with false by lia).
  pose proof S0 as (H0 & _ & _). pose proof S1 as (H1 & _ & _).
  assert (Hl : forall r, In r (zrange 0 N) -> 0 <= r < N) by (intros r; apply zrange_in).
  destruct (scan_opposite_spec (with_stream Orc rn (S n)) (zrange 0 N) 0 0 Hl ltac:(lia)) as [(Es & _)|(_ & H)].
  2:{ exfalso. apply H. split; right; [exists r0|exists r1]; (split; [now apply zrange_in|assumption]). }
  unfold make_candidate_exchange_fsz. rewrite Es. cbn [bindP Z.eqb].
  cbn [fuel with_stream search]. unfold pick_single_fsz at 1. cbn [rnd with_stream]. rewrite E0.
  rewrite umod_ok by lia. cbn [bindP]. rewrite Z.mod_small by assumption.
  rewrite get_ok by lia. cbn [bindP]. rewrite get_ok by lia. cbn [bindP]. rewrite Ei, Esi. rewrite get_ok by lia. cbn [bindP]. rewrite Ci. cbn [Z.eqb Pos.eqb bindP fst snd].
  unfold pick_partner_fsz at 1. cbn [rnd with_stream]. rewrite E1. rewrite umod_ok by lia. cbn [bindP].
  rewrite Z.mod_small by assumption. rewrite get_ok by lia. cbn [bindP]. rewrite Ej. replace (1 - 0) with 1 by lia. rewrite get_ok by lia. cbn [bindP].
  rewrite Cj. cbn [Z.eqb Pos.eqb bindP fst snd]. rewrite get_ok by lia. cbn [bindP]. rewrite Esj. cbn [Z.eqb Pos.eqb bindP fst snd]. eauto.
Qed.
Lemma exchange_cases_fsz :
  (~ ((exists r, single N w r 0) /\ (exists r, single N w r 1)) /\ forall Orc p, make_candidate_exchange_fsz I Orc w p = Ret (p, None)) \/
  ((exists r, single N w r 0) /\ (exists r, single N w r 1) /\
   (forall Orc p, exists rnd, (2 * Ne I <= 2 ^ 32 -> forall q, 0 <= rnd q < 2 ^ 32) /\ forall n, exists p' c, make_candidate_exchange_fsz I (with_stream Orc rnd (S n)) w p = Ret (p', Some c))).
Proof.
  assert (Hl : forall r, In r (zrange 0 N) -> 0 <= r < N) by (intros r; apply zrange_in).
  pose (O1 := Oracles (fun _ => 0) O (fun _ => 0) unit unit unit tt (fun _ _ => tt) (fun _ _ _ => (tt, 0)) (fun _ _ => tt) (fun _ _ _ _ => tt)
                (fun _ _ _ _ => tt) (fun _ => tt) (fun _ => true) (fun _ _ _ _ _ => true)).
  destruct (scan_opposite_spec O1 (zrange 0 N) 0 0 Hl ltac:(lia)) as [(_ & [A|(r0 & H0 & S0)] & [B|(r1 & H1 & S1)])|(_ & H)]; try lia.
  - right. split; [eauto|]. split; [eauto|]. intros Orc p. now apply exchange_finds_fsz with r0 r1.
  - assert (Hno : ~ ((exists r, single N w r 0) /\ (exists r, single N w r 1))).
    { intros ((r0 & S0) & (r1 & S1)). apply H. pose proof S0 as (H0 & _). pose proof S1 as (H1 & _).
      split; right; [exists r0|exists r1]; (split; [now apply zrange_in|assumption]). }
    left. split; [exact Hno|].
    intros Orc p. unfold make_candidate_exchange_fsz.
    destruct (scan_opposite_spec Orc (zrange 0 N) 0 0 Hl ltac:(lia)) as [(_ & [A|(r0 & H0 & S0)] & [B|(r1 & H1 & S1)])|(-> & _)]; try lia.
    + exfalso. apply Hno. eauto.
    + reflexivity.
Qed.
End Fsz.
End Exchange.

Lemma proposals_range_fsz I Orc w p gen tr o : wf_input I -> consistent_fsz (Nsite (T I)) (Ne I) w -> locals_single I w ->
  (gen = make_candidate_hopping_fsz I Orc w p \/ gen = make_candidate_hopping_csz I Orc w p \/
   gen = make_candidate_flip_localspin I Orc w p \/ gen = make_candidate_flip_conduction I Orc w p) ->
  runs gen tr o ->
  o <> Stopped Undefined /\ forall p' mi ri rj s t flag, o = Done (p', (mi, ri, rj, s, t), flag) ->
    0 <= mi < 2 * Ne I /\ 0 <= s <= 1 /\ 0 <= ri < Nsite (T I) /\ eleIdx w mi = ri /\ eleSpn w mi = s /\
    (flag <> 1 -> 0 <= rj < Nsite (T I) /\ 0 <= t <= 1 /\ eleNum w (rj + t * Nsite (T I)) = 0 /\
       ((LocSpn I ri <> 1 /\ LocSpn I rj <> 1) \/ rj = ri)).
Proof.
  intros wf Hc Hl Hg R. pose proof (make_InvF I w 0 wf Hc Hl) as HI.
  pose proof (bare_wf I _ wf (wf_loc I wf)) as wf'.
  assert (HK : ~ keeps (bare_input I (LocSpn I))) by (intros (A & _); cbn in A; now contradiction A).
  apply (fsz_range I Orc w gen tr o wf Hc); [|exact R].
  destruct Hg as [->|[->|[->| ->]]].
  - exact (safe_hopping_fsz (bare_input I (LocSpn I)) Orc wf' 0 w HI anyE p HK).
  - exact (safe_hopping_csz (bare_input I (LocSpn I)) Orc wf' 0 w HI anyE p).
  - exact (safe_flip_localspin (bare_input I (LocSpn I)) Orc wf' 0 w HI anyE p HK).
  - exact (safe_flip_conduction (bare_input I (LocSpn I)) Orc wf' 0 w HI anyE p HK).
Qed.
Lemma draw_range K E w n : 0 < n -> exists i, (umod w n : prog K E Z) = Ret i /\ 0 <= i < n.
Proof. intros H. rewrite umod_ok by assumption. eexists. split; [reflexivity|]. now apply Z.mod_pos_bound. Qed.
