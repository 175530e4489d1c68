(** The step of the sampler decides about the proposal; the share of the words that accept. *)
From Coq Require Import ZArith List Bool Reals Lia Lra.
From Verif Require Import Base.ZLoop Base.Checked Proj.Model Proj.Spec Samp.Prog Samp.Model Samp.Spec Samp.Hoare Samp.Config Samp.Proofs Samp.ProofsF
  Samp.Exch Samp.Lock Samp.LockS Mark.Model Mark.Spec Mark.Reverse Mark.ReverseStd Mark.ReverseFsz Mark.ReturnFsz Mark.Balance.
Import ListNotations.
Local Open Scope Z_scope.

(** no observation either *)
Definition quiet {K E A} (p : Prog.prog K E A) : Prop := match p with Ret _ | Stop _ => True | _ => False end.
Lemma quiet_bind {K E A B} (p : Prog.prog K E A) (f : A -> Prog.prog K E B) : quiet p -> (forall a, quiet (f a)) -> quiet (bindP p f).
Proof. intros Hp Hf. destruct p; cbn in *; auto; contradiction. Qed.
Lemma quiet_get {K E} n a i : quiet (get n a i : Prog.prog K E Z). Proof. unfold get. destruct (rd n a i); exact I. Qed.
Lemma quiet_put {K E} n a i v : quiet (put n a i v : Prog.prog K E _). Proof. unfold put. destruct (wr n a i v); exact I. Qed.
Lemma quiet_umod {K E} w n : quiet (umod w n : Prog.prog K E Z). Proof. unfold umod. destruct (0 <? n); exact I. Qed.
Lemma quiet_ofOpt {K E A} (o : option A) : quiet (ofOpt o : Prog.prog K E A). Proof. destruct o; exact I. Qed.
Lemma quiet_search {K E A} n body p : (forall p, quiet (body p : Prog.prog K E (Z * option A))) -> quiet (search n body p).
Proof.
  intros H. revert p. induction n; intros p; cbn [search]; [exact I|].
  apply quiet_bind; [auto|]. intros (q, [a|]); cbn; auto.
Qed.
Lemma quiet_runs {K E A} (p : Prog.prog K E A) tr a : quiet p -> runs p tr (Done a) -> p = Ret a /\ tr = [].
Proof. intros H R. destruct p; cbn in H; try contradiction; inversion R; auto. Qed.
Ltac quiets :=
  repeat first
    [ exact I | apply quiet_get | apply quiet_put | apply quiet_umod | apply quiet_ofOpt
    | apply quiet_bind; [|intros] | apply quiet_search; intros
    | match goal with |- quiet (match ?x with _ => _ end) => destruct x end
    | match goal with |- quiet (let _ := _ in _) => cbv zeta end ].

Section Quiet.
Variables (I : input) (Orc : oracles).
Lemma quiet_busy w r s : quiet (busy I Orc w r s). Proof. unfold busy. quiets. Qed.
Lemma quiet_hop_target w s k p : quiet (hop_target I Orc w s k p).
Proof. revert p. induction k; intros; cbn [hop_target]; quiets; first [apply quiet_busy|apply IHk]. Qed.
Lemma quiet_hop_target_fsz w k p : quiet (hop_target_fsz I Orc w k p).
Proof. revert p. induction k; intros; cbn [hop_target_fsz]; quiets; first [apply quiet_busy|apply IHk]. Qed.
Lemma quiet_flip_target w k p : quiet (flip_target I Orc w k p).
Proof. revert p. induction k; intros; cbn [flip_target]; quiets; apply IHk. Qed.
Lemma quiet_scan_single w l : quiet (scan_single I Orc w l).
Proof. induction l; cbn [scan_single]; quiets; auto. Qed.
Lemma quiet_scan_opposite w l a b : quiet (scan_opposite I Orc w l a b).
Proof. revert a b. induction l; intros; cbn [scan_opposite]; quiets; auto. Qed.
Lemma quiet_hopping w p : quiet (make_candidate_hopping I Orc w p).
Proof. unfold make_candidate_hopping, pick_hop. quiets; apply quiet_hop_target. Qed.
Lemma quiet_exchange w p : quiet (make_candidate_exchange I Orc w p).
Proof. unfold make_candidate_exchange, pick_single, pick_partner. quiets; apply quiet_scan_single. Qed.
Lemma quiet_hopping_fsz w p : quiet (make_candidate_hopping_fsz I Orc w p).
Proof. unfold make_candidate_hopping_fsz, pick_hop_fsz. quiets; apply quiet_hop_target_fsz. Qed.
Lemma quiet_hopping_csz w p : quiet (make_candidate_hopping_csz I Orc w p).
Proof. unfold make_candidate_hopping_csz, pick_hop_fsz. quiets; apply quiet_hop_target. Qed.
Lemma quiet_exchange_fsz w p : quiet (make_candidate_exchange_fsz I Orc w p).
Proof. unfold make_candidate_exchange_fsz, pick_single_fsz, pick_partner_fsz. quiets; apply quiet_scan_opposite. Qed.
Lemma quiet_flip_localspin w p : quiet (make_candidate_flip_localspin I Orc w p).
Proof. unfold make_candidate_flip_localspin, pick_local. quiets. Qed.
Lemma quiet_flip_conduction w p : quiet (make_candidate_flip_conduction I Orc w p).
Proof. unfold make_candidate_flip_conduction. quiets; apply quiet_flip_target. Qed.
Lemma quiet_update mi ri rj s w : quiet (update_ele_config I Orc mi ri rj s w). Proof. unfold update_ele_config. quiets. Qed.
Lemma quiet_update_fsz mi ri rj s t w : quiet (update_ele_config_fsz I Orc mi ri rj s t w). Proof. unfold update_ele_config_fsz. quiets. Qed.
End Quiet.

Lemma same_refl w : same_tables w w. Proof. repeat split. Qed.
Lemma cells_cnt w c : same_cells w (set_cnt w c). Proof. repeat split. Qed.

Section Link.
Variable I : input.
Variable Orc : oracles.
Variables rank size : Z.
Hypothesis wf : wf_input I.
Let N := Proj.Model.Nsite (T I).
Let Ne := Samp.Model.Ne I.
Notation st := (st Orc).

Lemma recalc_same (s : st) tr s' : runs (recalc I Orc rank size s) tr (Done s') -> wk _ s' = wk _ s /\ Samp.Model.pos _ s' = Samp.Model.pos _ s.
Proof.
  unfold recalc. destruct (_ <? _); intros R; [|inversion R; auto]. inversion R as [| |e k tr0 o R1 E1 E2| |]; subst. apply runs_bind_done in R1.
  destruct R1 as (t1 & t2 & l & _ & _ & R2). inversion R2; auto.
Qed.
(** the Metropolis step, given what the reject branch restores *)
Lemma metropolis_same (s : st) w0 w1 cnt m p rev tr s' :
  (forall w, rev w1 = Ret w -> same_tables w0 w) -> quiet (rev w1) -> runs (metropolis I Orc rank size s w0 w1 cnt m p rev) tr (Done s') ->
  Samp.Model.pos _ s' = p + 1 /\ exists cnt l, if accept Orc w0 (set_cnt w1 cnt) (logIpOld _ s) l (rnd Orc p) then same_cells w1 (wk _ s') else same_tables w0 (wk _ s').
Proof.
  intros Hr Hq R. unfold metropolis in R. apply runs_bind_done in R. destruct R as (t1 & t2 & l & _ & _ & R).
  destruct (accept Orc w0 (set_cnt w1 cnt) (logIpOld Orc s) l (rnd Orc p)) eqn:Ea.
  - apply runs_bind_done in R. destruct R as (t3 & t4 & c & _ & _ & R). inversion R; subst. split; [reflexivity|]. exists cnt, l. rewrite Ea. apply cells_cnt.
  - apply runs_bind_done in R. destruct R as (t3 & t4 & w & _ & R1 & R). apply quiet_runs in R1; [|exact Hq]. inversion R; subst. split; [reflexivity|].
    exists cnt, l. rewrite Ea. apply Hr, R1.
Qed.

Lemma cfg_num w r s : consistent N Ne w -> 0 <= r < N -> 0 <= s <= 1 -> eleCfg w (r + s * N) = -1 -> eleNum w (r + s * N) = 0.
Proof. intros Hc Hr Hs E. destruct (c_site _ _ _ Hc r s Hr Hs) as [(_ & X)|(m & A & B & C)]; [exact X|rewrite E in B; lia]. Qed.
Lemma quiet_revert mi ri rj s w : quiet (revert_ele_config I Orc mi ri rj s w). Proof. unfold revert_ele_config. quiets. Qed.
Lemma quiet_revert_fsz mi ri rj s t w : quiet (revert_ele_config_fsz I Orc mi ri rj s t w). Proof. unfold revert_ele_config_fsz. quiets. Qed.

Lemma hop_plain w p p1 mi ri rj s flag : consistent N Ne w -> make_candidate_hopping I Orc w p = Ret (p1, (mi, ri, rj, s), flag) -> flag <> 1 ->
  0 <= mi < Ne /\ 0 <= s <= 1 /\ eleIdx w (mi + s * Ne) = ri /\ 0 <= rj < N /\ eleCfg w (rj + s * N) = -1.
Proof.
  intros Hc E Hf. rewrite <- (stream_self Orc) in E. destruct (hop_info I _ wf _ _ w _ _ _ _ _ _ _ Hc E Hf) as (p0 & [F1 F2 F3 F4 F5 F6 F7 F8 F9 F10] & _ & _). auto.
Qed.
Lemma exchange_plain w p p1 mi ri rj s : consistent N Ne w -> make_candidate_exchange I Orc w p = Ret (p1, Some (mi, ri, rj, s)) ->
  0 <= mi < Ne /\ 0 <= s <= 1 /\ 0 <= ri < N /\ 0 <= rj < N /\ eleIdx w (mi + s * Ne) = ri /\ eleCfg w (ri + (1 - s) * N) = -1 /\ eleCfg w (rj + s * N) = -1 /\
  exists mj, 0 <= mj < Ne /\ eleCfg w (rj + (1 - s) * N) = mj /\ eleIdx w (mj + (1 - s) * Ne) = rj.
Proof. intros Hc E. rewrite <- (stream_self Orc) in E. exact (exchange_info I _ wf _ w Hc _ _ _ _ _ _ _ E). Qed.

Lemma step_decided (s : st) tr s' : consistent N Ne (wk _ s) -> runs (inner_step I Orc rank size s) tr (Done s') ->
  exists p c, propose I Orc (wk _ s) (Samp.Model.pos _ s) = Some (p, c) /\ decided Orc s s' p c.
Proof.
  intros Hc R. unfold inner_step, propose in *. destruct (get_update_type I Orc (Samp.Model.pos Orc s)) as (q, ut).
  apply runs_bind_done in R. destruct R as (t1 & t2 & s1 & _ & R & R').
  assert (s1 = s') as ->. { inversion R' as [| |e k tr0 o R1 E1 E2| |]; subst. now inversion R1. }
  destruct ut; try (eexists _, _; split; [reflexivity|]; apply recalc_same in R; destruct R as (E1 & E2); cbn [wk Samp.Model.pos] in E1, E2; split; [exact E2|rewrite E1; apply same_refl]).
  - unfold hopping_step in R. apply runs_bind_done in R. destruct R as (t3 & t4 & ((p, (((mi, ri), rj), sp)), flag) & _ & R1 & R).
    apply quiet_runs in R1; [|apply quiet_hopping]. destruct R1 as (E1 & _). unfold propose_hop. rewrite E1. cbn [eval bind].
    destruct (Z.eqb_spec flag 1) as [Ef|Ef]; [inversion R; subst; eexists _, _; split; [reflexivity|]; split; [reflexivity|apply same_refl]|].
    apply runs_bind_done in R. destruct R as (t5 & t6 & w1 & _ & R1 & R). apply quiet_runs in R1; [|apply quiet_update]. destruct R1 as (E2 & _). rewrite E2. cbn [eval bind].
    eexists _, _; split; [reflexivity|]. unfold decided. cbn [proposed].
    apply runs_bind_done in R. destruct R as (t7 & t8 & cnt & _ & _ & R). apply runs_bind_done in R. destruct R as (t9 & t10 & s2 & _ & R1 & R).
    apply recalc_same in R. destruct R as (-> & ->).
    refine (metropolis_same s (wk Orc s) w1 _ _ p _ _ s2 _ _ R1); [|apply quiet_revert].
    destruct (hop_plain _ _ _ _ _ _ _ _ Hc E1 Ef) as (F1 & F2 & F3 & F4 & F5).
    intros w Ew. destruct (revert_hop I Orc wf (wk Orc s) mi ri rj sp Hc F1 F2) as (w' & X & Y); try assumption; [now apply cfg_num|].
    rewrite E2 in X. cbn [bindP] in X. rewrite Ew in X. injection X as ->. exact Y.
  - unfold exchange_step in R. apply runs_bind_done in R. destruct R as (t3 & t4 & (p, r) & _ & R1 & R).
    apply quiet_runs in R1; [|apply quiet_exchange]. destruct R1 as (E1 & _). unfold propose_exchange. rewrite E1. cbn [eval bind].
    destruct r as [(((mi, ri), rj), sp)|]; [|inversion R; subst; eexists _, _; split; [reflexivity|]; split; [reflexivity|apply same_refl]]. cbv zeta in *.
    apply runs_bind_done in R. destruct R as (t5 & t6 & mj & _ & R1 & R). apply quiet_runs in R1; [|apply quiet_get]. destruct R1 as (E2 & _). unfold get in E2.
    destruct (rd (2 * Proj.Model.Nsite (T I)) (eleCfg (wk Orc s)) (rj + (1 - sp) * Proj.Model.Nsite (T I))) as [mj'|] eqn:Er; [|discriminate]. injection E2 as ->. cbn [bind].
    apply runs_bind_done in R. destruct R as (t7 & t8 & w1 & _ & R1 & R). apply quiet_runs in R1; [|apply quiet_update]. destruct R1 as (E2 & _). rewrite E2. cbn [eval bind].
    apply runs_bind_done in R. destruct R as (t9 & t10 & cnt & _ & _ & R).
    apply runs_bind_done in R. destruct R as (t11 & t12 & w2 & _ & R1 & R). apply quiet_runs in R1; [|apply quiet_update]. destruct R1 as (E3 & _). rewrite E3. cbn [eval bind].
    eexists _, _; split; [reflexivity|]. unfold decided. cbn [proposed].
    apply runs_bind_done in R. destruct R as (t13 & t14 & cnt' & _ & _ & R). apply runs_bind_done in R. destruct R as (t15 & t16 & s2 & _ & R1 & R).
    apply recalc_same in R. destruct R as (-> & ->).
    refine (metropolis_same s (wk Orc s) w2 _ _ p _ _ s2 _ _ R1); [|apply quiet_bind; intros; apply quiet_revert].
    destruct (exchange_plain _ _ _ _ _ _ _ Hc E1) as (A1 & A2 & A3 & A4 & A5 & A6 & A7 & mj' & A8 & A9 & A10).
    assert (mj = mj') as -> by (rewrite rd_ok in Er by (fold N; nia); unfold N in A9; congruence).
    intros w Ew. destruct (revert_exchange I Orc wf (wk Orc s) mi mj' ri rj sp Hc A1 A8 A2 A5 A10) as (w' & X & Y); [now apply cfg_num|apply cfg_num; (assumption || lia)|].
    rewrite E2 in X. cbn [bindP] in X. rewrite E3 in X. cbn [bindP] in X. rewrite Ew in X. injection X as ->. exact Y.
Qed.

(** ** general spins *)
Lemma cfg_num_fsz w r s : consistent_fsz N Ne w -> 0 <= r < N -> 0 <= s <= 1 -> eleCfg w (r + s * N) = -1 -> eleNum w (r + s * N) = 0.
Proof. intros Hc Hr Hs E. destruct (f_site _ _ _ Hc r s Hr Hs) as [(_ & X)|(m & A & B & C)]; [exact X|rewrite E in B; lia]. Qed.
Lemma one_plain w p p1 mi ri rj s t flag gen : consistent_fsz N Ne w -> locals_single I w ->
  (gen = make_candidate_hopping_fsz I Orc w p \/ gen = make_candidate_hopping_csz I Orc w p \/
   gen = make_candidate_flip_localspin I Orc w p \/ gen = make_candidate_flip_conduction I Orc w p) ->
  gen = Ret (p1, (mi, ri, rj, s, t), flag) -> flag <> 1 -> one_facts I w mi ri rj s t.
Proof.
  intros Hc Hl Hg E Hf. assert (X := one_info I Orc wf (fuel Orc) w Hc Hl (rnd Orc) p p1 mi ri rj s t flag).
  destruct Hg as [-> | [-> | [-> | ->]]]; rewrite <- (stream_self Orc) in E; [exact (X _ (or_introl eq_refl) E Hf)|exact (X _ (or_intror (or_introl eq_refl)) E Hf)
  |exact (X _ (or_intror (or_intror (or_introl eq_refl))) E Hf)|exact (X _ (or_intror (or_intror (or_intror eq_refl))) E Hf)].
Qed.
Lemma exchange_plain_fsz w p p1 mi ri rj s : consistent_fsz N Ne w -> make_candidate_exchange_fsz I Orc w p = Ret (p1, Some (mi, ri, rj, s)) -> exists mj, two_facts I w mi mj ri rj s.
Proof. intros Hc E. rewrite <- (stream_self Orc) in E. exact (exchange_fsz_info I Orc wf _ w Hc _ _ _ _ _ _ _ E). Qed.
Lemma revert_two w mi mj ri rj s w1 w2 w' : consistent_fsz N Ne w -> two_facts I w mi mj ri rj s ->
  update_ele_config_fsz I Orc mi ri rj s s w = Ret w1 -> update_ele_config_fsz I Orc mj rj ri (1 - s) (1 - s) w1 = Ret w2 ->
  (w <~ revert_ele_config_fsz I Orc mj rj ri (1 - s) (1 - s) w2;; revert_ele_config_fsz I Orc mi ri rj s s w) = Ret w' -> same_tables w w'.
Proof.
  intros Hc [A1 A2 A3 A4 A5 A6 A7 A8 A9 A10 A11 A12] E1 E2 E3.
  assert (D : forall q q', 0 <= q < N -> 0 <= q' < N -> q + (1 - s) * N <> q' + s * N) by (intros q q' Hq Hq' E; apply cell_inj in E; lia).
  assert (Dm : mj <> mi) by (intros ->; lia).
  rewrite updateF_ok in E1 by assumption. injection E1 as <-. rewrite updateF_ok in E2 by (assumption || lia). injection E2 as <-.
  rewrite revertF_ok in E3 by (assumption || lia). cbn [bindP] in E3. rewrite revertF_ok in E3 by assumption. injection E3 as <-.
  destruct (f_elec _ _ _ Hc mi A1) as (r & s0 & Er & Es & Hr & Hs0 & Ec). rewrite A6 in Er. rewrite A7 in Es. subst r s0.
  assert (S1 : same_tables (movedF I mi ri rj s s w) (unmovedF I mj rj ri (1 - s) (1 - s) (movedF I mj rj ri (1 - s) (1 - s) (movedF I mi ri rj s s w)))).
  { destruct (f_site _ _ _ Hc rj (1 - s) A5 ltac:(lia)) as [(X & _)|(m & _ & _ & X & _)]; [unfold N in X; lia|].
    apply unmovedF_movedF; unfold movedF, hop; cbn [eleIdx eleSpn eleCfg eleNum]; rewrite ?upd_other by (auto using D); try assumption; try (now apply cfg_num_fsz; try lia). }
  apply (unmovedF_ext I mi ri rj s s) in S1.
  assert (S2 : same_tables w (unmovedF I mi ri rj s s (movedF I mi ri rj s s w))).
  { destruct (f_site _ _ _ Hc ri s A4 A3) as [(X & _)|(m & _ & _ & X & _)]; [unfold N in X, Ec; lia|].
    apply unmovedF_movedF; try assumption. now apply cfg_num_fsz. }
  eapply same_trans; eassumption.
Qed.
Lemma one_decided (s : st) always q gen p1 mi ri rj sp t flag tr s' : consistent_fsz N Ne (wk _ s) -> locals_single I (wk _ s) ->
  (gen = make_candidate_hopping_fsz I Orc (wk _ s) q \/ gen = make_candidate_hopping_csz I Orc (wk _ s) q \/
   gen = make_candidate_flip_localspin I Orc (wk _ s) q \/ gen = make_candidate_flip_conduction I Orc (wk _ s) q) -> gen = Ret (p1, (mi, ri, rj, sp, t), flag) ->
  runs (one_move_fsz I Orc rank size always s (p1, (mi, ri, rj, sp, t), flag)) tr (Done s') ->
  exists p c, one_fsz I Orc (wk _ s) (p1, (mi, ri, rj, sp, t), flag) = Some (p, c) /\ decided Orc s s' p c.
Proof.
  intros Hc Hl Hg Eg R. unfold one_move_fsz in R. unfold one_fsz.
  destruct (Z.eqb_spec flag 1) as [Ef|Ef]; [inversion R; subst; eexists _, _; split; [reflexivity|]; split; [reflexivity|apply same_refl]|].
  destruct (one_plain _ _ _ _ _ _ _ _ _ _ Hc Hl Hg Eg Ef) as [F1 F2 F3 F4 F5 F6 F7 F8 _].
  apply runs_bind_done in R. destruct R as (t5 & t6 & w1 & _ & R1 & R). apply quiet_runs in R1; [|apply quiet_update_fsz]. destruct R1 as (E2 & _). rewrite E2. cbn [eval bind].
  eexists _, _; split; [reflexivity|]. unfold decided. cbn [proposed].
  apply runs_bind_done in R. destruct R as (t7 & t8 & cnt & _ & _ & R). apply runs_bind_done in R. destruct R as (t9 & t10 & s2 & _ & R1 & R).
  apply recalc_same in R. destruct R as (-> & ->).
  refine (metropolis_same s (wk Orc s) w1 _ _ p1 _ _ s2 _ _ R1); [|apply quiet_revert_fsz].
  intros w Ew. destruct (revert_hop_fsz I Orc (wk Orc s) mi ri rj sp t Hc F1 F7 F6 F5 F3) as (w' & X & Y); [now apply cfg_num_fsz|].
  rewrite E2 in X. cbn [bindP] in X. rewrite Ew in X. injection X as ->. exact Y.
Qed.
Lemma step_decided_fsz (s : st) tr s' : consistent_fsz N Ne (wk _ s) -> locals_single I (wk _ s) -> runs (inner_step_fsz I Orc rank size s) tr (Done s') ->
  exists p c, propose_fsz I Orc (wk _ s) (Samp.Model.pos _ s) = Some (p, c) /\ decided Orc s s' p c.
Proof.
  intros Hc Hl R. unfold inner_step_fsz, propose_fsz in *. destruct (get_update_type I Orc (Samp.Model.pos Orc s)) as (q, ut).
  apply runs_bind_done in R. destruct R as (t1 & t2 & s1 & _ & R & R').
  assert (s1 = s') as ->. { inversion R' as [| |e k tr0 o R1 E1 E2| |]; subst. now inversion R1. }
  destruct ut; [| | |eexists _, _; split; [reflexivity|]; apply recalc_same in R; destruct R as (E1 & E2); cbn [wk Samp.Model.pos] in E1, E2; split; [exact E2|rewrite E1; apply same_refl]].
  - unfold hopping_step_fsz in R. unfold propose_hop_fsz. destruct (TwoSz I =? -1); [destruct (coin (rnd Orc q) =? 0)|].
    + apply runs_bind_done in R. destruct R as (t3 & t4 & ((p1, ((((mi, ri), rj), sp), t)), flag) & _ & R1 & R). apply quiet_runs in R1; [|apply quiet_hopping_fsz].
      destruct R1 as (E1 & _). rewrite E1. cbn [eval bind]. exact (one_decided s _ _ _ _ _ _ _ _ _ _ _ _ Hc Hl (or_introl eq_refl) E1 R).
    + apply runs_bind_done in R. destruct R as (t3 & t4 & ((p1, ((((mi, ri), rj), sp), t)), flag) & _ & R1 & R). apply quiet_runs in R1; [|apply quiet_flip_conduction].
      destruct R1 as (E1 & _). rewrite E1. cbn [eval bind]. exact (one_decided s _ _ _ _ _ _ _ _ _ _ _ _ Hc Hl (or_intror (or_intror (or_intror eq_refl))) E1 R).
    + apply runs_bind_done in R. destruct R as (t3 & t4 & ((p1, ((((mi, ri), rj), sp), t)), flag) & _ & R1 & R). apply quiet_runs in R1; [|apply quiet_hopping_csz].
      destruct R1 as (E1 & _). rewrite E1. cbn [eval bind]. exact (one_decided s _ _ _ _ _ _ _ _ _ _ _ _ Hc Hl (or_intror (or_introl eq_refl)) E1 R).
  - unfold exchange_step_fsz in R. apply runs_bind_done in R. destruct R as (t3 & t4 & (p, r) & _ & R1 & R).
    apply quiet_runs in R1; [|apply quiet_exchange_fsz]. destruct R1 as (E1 & _). unfold propose_exchange_fsz. rewrite E1. cbn [eval bind].
    destruct r as [(((mi, ri), rj), sp)|]; [|inversion R; subst; eexists _, _; split; [reflexivity|]; split; [reflexivity|apply same_refl]]. cbv zeta in *.
    apply runs_bind_done in R. destruct R as (t5 & t6 & mj & _ & R1 & R). apply quiet_runs in R1; [|apply quiet_get]. destruct R1 as (E2 & _). unfold get in E2.
    destruct (rd (2 * Proj.Model.Nsite (T I)) (eleCfg (wk Orc s)) (rj + (1 - sp) * Proj.Model.Nsite (T I))) as [mj'|] eqn:Er; [|discriminate]. injection E2 as ->. cbn [bind].
    apply runs_bind_done in R. destruct R as (t7 & t8 & w1 & _ & R1 & R). apply quiet_runs in R1; [|apply quiet_update_fsz]. destruct R1 as (E2 & _). rewrite E2. cbn [eval bind].
    apply runs_bind_done in R. destruct R as (t9 & t10 & cnt & _ & _ & R).
    apply runs_bind_done in R. destruct R as (t11 & t12 & w2 & _ & R1 & R). apply quiet_runs in R1; [|apply quiet_update_fsz]. destruct R1 as (E3 & _). rewrite E3. cbn [eval bind].
    eexists _, _; split; [reflexivity|]. unfold decided. cbn [proposed].
    apply runs_bind_done in R. destruct R as (t13 & t14 & cnt' & _ & _ & R). apply runs_bind_done in R. destruct R as (t15 & t16 & s2 & _ & R1 & R).
    apply recalc_same in R. destruct R as (-> & ->).
    refine (metropolis_same s (wk Orc s) w2 _ _ p _ _ s2 _ _ R1); [|apply quiet_bind; intros; apply quiet_revert_fsz].
    destruct (exchange_plain_fsz _ _ _ _ _ _ _ Hc E1) as (mj' & F).
    assert (mj = mj') as ->. { assert (F' := F). destruct F' as [A1 A2 A3 A4 A5 A6 A7 A8 A9 A10 A11 A12]. rewrite rd_ok in Er by (fold N; nia). congruence. }
    intros w Ew. exact (revert_two _ _ _ _ _ _ _ _ _ Hc F E2 E3 Ew).
  - unfold flip_step_fsz in R. unfold propose_flip_fsz.
    apply runs_bind_done in R. destruct R as (t3 & t4 & ((p1, ((((mi, ri), rj), sp), t)), flag) & _ & R1 & R). apply quiet_runs in R1; [|apply quiet_flip_localspin].
    destruct R1 as (E1 & _). rewrite E1. cbn [eval bind]. exact (one_decided s _ _ _ _ _ _ _ _ _ _ _ _ Hc Hl (or_intror (or_intror (or_introl eq_refl))) E1 R).
Qed.
End Link.

(** ** the share of accepting words *)
Lemma below_exact (x : R) (n : nat) : (0 <= x)%R ->
  let c := INR (length (filter (fun k => if Rlt_dec (IZR k) x then true else false) (zrange 0 (Z.of_nat n)))) in
  ((INR n < x + 1 -> c = INR n) /\ (x + 1 <= INR n -> x <= c < x + 1))%R.
Proof.
  intros Hx. cbv zeta. induction n as [|n IH].
  - cbn. split; lra.
  - replace (Z.of_nat (S n)) with (Z.of_nat n + 1) by lia. rewrite zrange_snoc by lia. rewrite filter_app, app_length, plus_INR. cbn [filter].
    rewrite <- INR_IZR_INZ. rewrite S_INR. set (c := INR (length (filter _ (zrange 0 (Z.of_nat n))))) in *. clearbody c. destruct IH as (I1 & I2).
    destruct (Rlt_dec (INR n) x) as [H|H]; cbn [length INR].
    + rewrite (I1 ltac:(lra)). split; lra.
    + destruct (Rlt_dec (INR n) (x + 1)) as [H'|H']; [rewrite (I1 H'); split; lra|]. assert (X := I2 ltac:(lra)). split; lra.
Qed.
Lemma below_count (x : R) (n : nat) : (0 <= x)%R ->
  let c := INR (length (filter (fun k => if Rlt_dec (IZR k) x then true else false) (zrange 0 (Z.of_nat n)))) in (Rmin (INR n) x <= c < Rmin (INR n) x + 1)%R.
Proof.
  intros Hx. assert (X := below_exact x n Hx). cbv zeta in *. destruct X as (X1 & X2).
  destruct (Rlt_dec (INR n) (x + 1)) as [H|H]; [|rewrite Rmin_right by lra; apply X2; lra]. rewrite (X1 H).
  destruct (Rle_dec (INR n) x); [rewrite Rmin_left by lra; lra|rewrite Rmin_right by lra; lra].
Qed.
Lemma share_of (n : nat) a : (0 < n)%nat -> (0 <= a)%R ->
  let c := (INR (length (filter (fun k => if Rlt_dec (IZR k / INR n) a then true else false) (zrange 0 (Z.of_nat n)))) / INR n)%R in (Rmin 1 a <= c < Rmin 1 a + 1 / INR n)%R.
Proof.
  intros Hn Ha. assert (HB : (0 < INR n)%R) by now apply lt_0_INR.
  assert (F : forall l, filter (fun k => if Rlt_dec (IZR k / INR n) a then true else false) l = filter (fun k => if Rlt_dec (IZR k) (a * INR n) then true else false) l).
  { intros l. apply filter_ext. intros k.
    destruct (Rlt_dec (IZR k / INR n) a) as [H|H], (Rlt_dec (IZR k) (a * INR n)) as [H'|H']; auto; exfalso.
    - apply H'. apply (Rmult_lt_compat_r (INR n)) in H; [|exact HB]. unfold Rdiv in H. rewrite Rmult_assoc, Rinv_l in H by lra. lra.
    - apply H. apply (Rmult_lt_reg_r (INR n)); [exact HB|]. unfold Rdiv. rewrite Rmult_assoc, Rinv_l by lra. lra. }
  rewrite F. assert (X := below_count (a * INR n) n ltac:(apply Rmult_le_pos; lra)). cbv zeta in X. set (c := INR (length _)) in *. clearbody c. cbv zeta.
  assert (M : Rmin (INR n) (a * INR n) = (Rmin 1 a * INR n)%R).
  { destruct (Rle_dec 1 a); [rewrite !Rmin_left by nra; lra|rewrite !Rmin_right by nra; lra]. }
  rewrite M in X. assert (D : forall y, (y = y * INR n / INR n)%R) by (intros; field; lra).
  split; [rewrite (D (Rmin 1 a)); unfold Rdiv; apply Rmult_le_compat_r; [apply Rlt_le, Rinv_0_lt_compat; lra|lra]|].
  replace (Rmin 1 a + 1 / INR n)%R with ((Rmin 1 a * INR n + 1) / INR n)%R by (field; lra). unfold Rdiv. apply Rmult_lt_compat_r; [apply Rinv_0_lt_compat; lra|lra].
Qed.
Lemma share_B B a : 0 < B -> (0 <= a)%R ->
  let c := (INR (length (filter (fun k => if Rlt_dec (IZR k / IZR B) a then true else false) (zrange 0 B))) / IZR B)%R in (Rmin 1 a <= c < Rmin 1 a + 1 / IZR B)%R.
Proof.
  intros HB Ha. assert (X := share_of (Z.to_nat B) a ltac:(lia) Ha). assert (E : INR (Z.to_nat B) = IZR B) by (rewrite INR_IZR_INZ, Z2Nat.id by lia; reflexivity). rewrite E, Z2Nat.id in X by lia. exact X.
Qed.
Lemma accept_share a : (0 <= a)%R -> let c := (INR (length (accepting a)) / IZR wordsize)%R in (Rmin 1 a <= c < Rmin 1 a + 1 / IZR wordsize)%R.
Proof. exact (share_B wordsize a eq_refl). Qed.
