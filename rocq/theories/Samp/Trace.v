(** Consequences of the invariants for executions; the order of stored samples. *)
From Coq Require Import ZArith List Bool Lia.
From Verif Require Import Base.ZLoop Base.Checked Proj.Model Proj.Spec Samp.Prog Samp.Model Samp.Spec Samp.Hoare Samp.Config
  Samp.Proofs Samp.ProofsF Samp.ProofsI.
Import ListNotations.
Local Open Scope Z_scope.

(** ** Invariants of all executions *)
Lemma safe_vmc I Orc rank size burn w qs p : wf_input I -> (forall b, burn = Some b -> InvC I b) ->
  safe (Ev Orc (InvC I)) (fun r => InvC I (snd (fst r))) (vmc_make_sample I Orc rank size burn w qs p).
Proof.
  intros wf Hb. apply safe_make_sample; auto.
  - intros; now apply safe_initial_tables.
  - intros s Hs. eapply safe_post; [now apply safe_inner_step|]. intros s' (H & _); exact H.
Qed.
Lemma safe_vmc_fsz I Orc rank size burn w qs p : wf_input I -> 0 <= up_init I <= 2 * Ne I ->
  (forall b, burn = Some b -> InvF I (up_init I) b) ->
  safe (Ev Orc (InvF I (up_init I))) (fun r => InvF I (up_init I) (snd (fst r))) (vmc_make_sample_fsz I Orc rank size burn w qs p).
Proof.
  intros wf Hu Hb. apply safe_make_sample; auto.
  - intros; now apply safe_initial_tables_fsz.
  - intros s Hs. eapply safe_post; [now apply safe_inner_step_fsz|]. intros s' (H & _); exact H.
Qed.

Lemma history_InvC I burn : wf_input I -> history I burn -> forall b, burn = Some b -> InvC I b.
Proof.
  intros wf H. induction H; intros b E; [discriminate|]. injection E as <-.
  apply (safe_runs _ _ _ _ _ (safe_vmc I Orc rank size burn w qs p wf IHhistory) H0).
Qed.
Lemma history_InvF I burn : wf_input I -> 0 <= up_init I <= 2 * Ne I -> history_fsz I burn ->
  forall b, burn = Some b -> InvF I (up_init I) b.
Proof.
  intros wf Hu H. induction H; intros b E; [discriminate|]. injection E as <-.
  apply (safe_runs _ _ _ _ _ (safe_vmc_fsz I Orc rank size burn w qs p wf Hu IHhistory_fsz) H0).
Qed.

Lemma spn0_count M0 : 0 <= M0 -> forall s, 0 <= s <= 1 ->
  zsum (zrange 0 (2 * M0)) (fun x => if spn0 M0 x =? s then 1 else 0) = M0.
Proof.
  intros H s Hs.
  pose proof (ups_threshold (2 * M0) M0 ltac:(lia)) as U.
  assert (E : zsum (zrange 0 (2 * M0)) (fun x => if spn0 M0 x =? 0 then 1 else 0) = M0)
    by exact U.
  assert (s = 0 \/ s = 1) as [->| ->] by lia; [exact E|].
  assert (T0 : forall n, zsum (zrange 0 (Z.of_nat n)) (fun x => if spn0 M0 x =? 0 then 1 else 0)
     + zsum (zrange 0 (Z.of_nat n)) (fun x => if spn0 M0 x =? 1 then 1 else 0) = Z.of_nat n).
  { induction n as [|n IH]; [reflexivity|].
    rewrite Nat2Z.inj_succ, <- Z.add_1_r, !zrange_snoc by lia. rewrite !zsum_app. cbn [zsum fold_right].
    assert (spn0 M0 (Z.of_nat n) = 0 \/ spn0 M0 (Z.of_nat n) = 1) as [->| ->]
      by (unfold spn0; destruct (_ <? _); auto); cbn; lia. }
  specialize (T0 (Z.to_nat (2 * M0))). rewrite Z2Nat.id in T0 by lia. lia.
Qed.

Section Facts.
Variable I : input.
Hypothesis wf : wf_input I.
Notation N := (Nsite (T I)).
Lemma InvC_facts w : InvC I w -> consistent N (Ne I) w /\ (forall s, 0 <= s <= 1 -> spin_count N w s = Ne I) /\
  locals_single I w /\ counters_current I w.
Proof.
  intros [H1 H2 H3]. pose proof (wf_ne I wf). split; [|split; [|split]].
  - now apply consistent_Cons.
  - intros s Hs. unfold spin_count. rewrite (Cons_count _ _ _ _ _ _ _ H1 s Hs). apply spn0_count; [lia|assumption].
  - intros r Hr Hl. exact (H2 r Hr Hl).
  - exact H3.
Qed.
Lemma InvF_facts u w : InvF I u w -> consistent_fsz N (Ne I) w /\
  (TwoSz I <> -1 -> NExUpdatePath I <> 3 -> spin_count N w 0 = u) /\
  (spin_count N w 0 + spin_count N w 1 = 2 * Ne I) /\
  locals_single I w /\ counters_current I w.
Proof.
  intros ([H1 H2 H3] & H4). pose proof (wf_ne I wf). split; [|split; [|split; [|split]]].
  - now apply consistent_fsz_Cons.
  - intros A B. unfold spin_count. rewrite (Cons_count _ _ _ _ _ _ _ H1 0 ltac:(lia)). now apply H4; split.
  - unfold spin_count. rewrite !(Cons_count _ _ _ _ _ _ _ H1) by lia.
    assert (T0 : forall n, Z.of_nat n <= 2 * Ne I ->
       zsum (zrange 0 (Z.of_nat n)) (fun x => if eleSpn w x =? 0 then 1 else 0)
     + zsum (zrange 0 (Z.of_nat n)) (fun x => if eleSpn w x =? 1 then 1 else 0) = Z.of_nat n).
    { induction n as [|n IH]; intros Hn; [reflexivity|].
      rewrite Nat2Z.inj_succ, <- Z.add_1_r, !zrange_snoc by lia. rewrite !zsum_app. cbn [zsum fold_right].
      destruct (k_elec _ _ _ _ _ _ _ H1 (Z.of_nat n) ltac:(lia)) as (_ & S0 & _).
      assert (eleSpn w (Z.of_nat n) = 0 \/ eleSpn w (Z.of_nat n) = 1) as [->| ->] by lia; cbn; lia. }
    specialize (T0 (Z.to_nat (2 * Ne I))). rewrite Z2Nat.id in T0 by lia. lia.
  - intros r Hr Hl. exact (H2 r Hr Hl).
  - exact H3.
Qed.

Lemma all_shown Orc rank size burn w qs p tr o : history I burn ->
  runs (vmc_make_sample I Orc rank size burn w qs p) tr o ->
  o <> Stopped Undefined /\ forall w', shown tr o w' -> InvC I w'.
Proof.
  intros Hh R. pose proof (history_InvC I burn wf Hh) as Hb.
  destruct (safe_runs _ _ _ _ _ (safe_vmc I Orc rank size burn w qs p wf Hb) R) as (F & D). split.
  - destruct o as [a|[| |]]; try discriminate. now contradiction D.
  - intros w' [(e & Hi & <-)|(a & b & ->)].
    + rewrite Forall_forall in F. exact (F e Hi).
    + exact D.
Qed.
Lemma all_shown_fsz Orc rank size burn w qs p tr o : 0 <= up_init I <= 2 * Ne I -> history_fsz I burn ->
  runs (vmc_make_sample_fsz I Orc rank size burn w qs p) tr o ->
  o <> Stopped Undefined /\ forall w', shown tr o w' -> InvF I (up_init I) w'.
Proof.
  intros Hu Hh R. pose proof (history_InvF I burn wf Hu Hh) as Hb.
  destruct (safe_runs _ _ _ _ _ (safe_vmc_fsz I Orc rank size burn w qs p wf Hu Hb) R) as (F & D). split.
  - destruct o as [a|[| |]]; try discriminate. now contradiction D.
  - intros w' [(e & Hi & <-)|(a & b & ->)].
    + rewrite Forall_forall in F. exact (F e Hi).
    + exact D.
Qed.
End Facts.

(** ** Traces *)
Section Only.
Context {K E : Type}.
Notation prog := (Prog.prog K E).
Definition only {A} (P : E -> Prop) (p : prog A) : Prop := forall tr o, runs p tr o -> Forall P tr.
Lemma only_ret {A} P (a : A) : only P (Ret a).
Proof. intros tr o R. inversion R. constructor. Qed.
Lemma only_stop {A} P w : only P (Stop w : prog A).
Proof. intros tr o R. inversion R. constructor. Qed.
Lemma only_emit {A} (P : E -> Prop) e (k : prog A) : P e -> only P k -> only P (Emit e k).
Proof. intros He Hk tr o R. inversion R; subst. constructor; eauto. Qed.
Lemma only_sum {A} P x (k : K -> prog A) : (forall y, only P (k y)) -> only P (Sum x k).
Proof. intros Hk tr o R. inversion R; subst. eapply Hk; eassumption. Qed.
Lemma only_max {A} P x (k : Z -> prog A) : (forall y, only P (k y)) -> only P (Max x k).
Proof. intros Hk tr o R. inversion R; subst. eapply Hk; eassumption. Qed.
Lemma only_bind {A B} P (p : prog A) (f : A -> prog B) : only P p -> (forall a, only P (f a)) -> only P (bindP p f).
Proof.
  intros Hp Hf tr o R. destruct (runs_bind _ _ _ _ R) as [(t1 & t2 & a & -> & R1 & R2)|(w & _ & R1)].
  - apply Forall_app; split; [eapply Hp|eapply Hf]; eassumption.
  - eapply Hp; eassumption.
Qed.
Lemma only_get P n a i : only P (get n a i : prog Z).
Proof. unfold get. destruct (rd n a i); [apply only_ret|apply only_stop]. Qed.
Lemma only_put P n a i v : only P (put n a i v : prog _).
Proof. unfold put. destruct (wr n a i v); [apply only_ret|apply only_stop]. Qed.
Lemma only_umod P w n : only P (umod w n : prog Z).
Proof. unfold umod. destruct (0 <? n); [apply only_ret|apply only_stop]. Qed.
Lemma only_ofOpt {A} P (o : option A) : only P (ofOpt o : prog A).
Proof. destruct o; [apply only_ret|apply only_stop]. Qed.
Lemma only_forM {S} P l f (s : S) : (forall i s, only P (f i s : prog S)) -> only P (forM l f s).
Proof. intros H. revert s. induction l; intros s; cbn [forM]; [apply only_ret|]. apply only_bind; auto. Qed.
Lemma only_search {A} P n body p : (forall p, only P (body p : prog (Z * option A))) -> only P (search n body p).
Proof.
  intros H. revert p. induction n; intros p; cbn [search]; [apply only_stop|].
  apply only_bind; [auto|]. intros (q, [a|]); cbn; [apply only_ret|auto].
Qed.
End Only.

Ltac onlys :=
  repeat first
    [ apply only_ret | apply only_stop | apply only_get | apply only_put | apply only_umod | apply only_ofOpt
    | apply only_bind; [|intros] | apply only_forM; intros | apply only_search; intros
    | apply only_sum; intros | apply only_max; intros
    | match goal with |- only _ (match ?x with _ => _ end) => destruct x end
    | progress cbn beta iota zeta ].

Definition is_recalc {L} (e : event L) : Prop := match e with Recalc _ => True | _ => False end.

Section Quiet.
Variable I : input.
Variable Orc : oracles.
Variables (rank size : Z).
Notation prog := (Prog.prog (K Orc) (event (L Orc))).
Variable P : event (L Orc) -> Prop.
Lemma quiet_busy w r s : only P (busy I Orc w r s).
Proof. unfold busy. onlys. Qed.
Lemma quiet_hop_target w s k p : only P (hop_target I Orc w s k p).
Proof. revert p. induction k; intros; cbn [hop_target]; onlys; first [apply quiet_busy|apply IHk]. Qed.
Lemma quiet_hop_target_fsz w k p : only P (hop_target_fsz I Orc w k p).
Proof. revert p. induction k; intros; cbn [hop_target_fsz]; onlys; first [apply quiet_busy|apply IHk]. Qed.
Lemma quiet_flip_target w k p : only P (flip_target I Orc w k p).
Proof. revert p. induction k; intros; cbn [flip_target]; onlys; apply IHk. Qed.
Lemma quiet_scan_single w l : only P (scan_single I Orc w l).
Proof. induction l; cbn [scan_single]; onlys; auto. Qed.
Lemma quiet_scan_opposite w l a b : only P (scan_opposite I Orc w l a b).
Proof. revert a b. induction l; intros; cbn [scan_opposite]; onlys; auto. Qed.
Lemma quiet_calc_log f : only P (calc_log_ip I Orc rank size f).
Proof. unfold calc_log_ip. onlys. Qed.
Lemma quiet_update mi ri rj s w : only P (update_ele_config I Orc mi ri rj s w).
Proof. unfold update_ele_config. onlys. Qed.
Lemma quiet_revert mi ri rj s w : only P (revert_ele_config I Orc mi ri rj s w).
Proof. unfold revert_ele_config. onlys. Qed.
Lemma quiet_update_fsz mi ri rj s t w : only P (update_ele_config_fsz I Orc mi ri rj s t w).
Proof. unfold update_ele_config_fsz. onlys. Qed.
Lemma quiet_revert_fsz mi ri rj s t w : only P (revert_ele_config_fsz I Orc mi ri rj s t w).
Proof. unfold revert_ele_config_fsz. onlys. Qed.
Lemma quiet_metropolis s w0 w1 cnt m p rv : (forall w, only P (rv w)) -> only P (metropolis I Orc rank size s w0 w1 cnt m p rv).
Proof. intros H. unfold metropolis, copy_proj. onlys; auto using quiet_calc_log. Qed.
Lemma quiet_hopping w p : only P (make_candidate_hopping I Orc w p).
Proof. unfold make_candidate_hopping, pick_hop. onlys; apply quiet_hop_target. Qed.
Lemma quiet_exchange w p : only P (make_candidate_exchange I Orc w p).
Proof. unfold make_candidate_exchange, pick_single, pick_partner. onlys; apply quiet_scan_single. Qed.
Lemma quiet_hopping_fsz w p : only P (make_candidate_hopping_fsz I Orc w p).
Proof. unfold make_candidate_hopping_fsz, pick_hop_fsz. onlys; apply quiet_hop_target_fsz. Qed.
Lemma quiet_hopping_csz w p : only P (make_candidate_hopping_csz I Orc w p).
Proof. unfold make_candidate_hopping_csz, pick_hop_fsz. onlys; apply quiet_hop_target. Qed.
Lemma quiet_exchange_fsz w p : only P (make_candidate_exchange_fsz I Orc w p).
Proof. unfold make_candidate_exchange_fsz, pick_single_fsz, pick_partner_fsz. onlys; apply quiet_scan_opposite. Qed.
Lemma quiet_flip_localspin w p : only P (make_candidate_flip_localspin I Orc w p).
Proof. unfold make_candidate_flip_localspin, pick_local. onlys. Qed.
Lemma quiet_flip_conduction w p : only P (make_candidate_flip_conduction I Orc w p).
Proof. unfold make_candidate_flip_conduction. onlys; apply quiet_flip_target. Qed.
Lemma quiet_initial w p : only P (initial_tables I Orc w p).
Proof. unfold initial_tables, fill, place_local, place_itinerant, fill_num, pick_site, pick_free. onlys. Qed.
Lemma quiet_initial_fsz w p : only P (initial_tables_fsz I Orc w p).
Proof. unfold initial_tables_fsz, initial_spin, fill, place_local_fsz, place_itinerant_fsz, fill_num, pick_site, pick_free_fsz. onlys. Qed.
Lemma quiet_make_initial initial n w qs p : (forall w p, only P (initial w p)) ->
  only P (make_initial_sample I Orc rank size initial n w qs p).
Proof.
  intros H. revert w qs p. induction n; intros; cbn [make_initial_sample]; onlys; auto.
Qed.
End Quiet.

Section Steps.
Variable I : input.
Variable Orc : oracles.
Variables (rank size : Z).
Notation prog := (Prog.prog (K Orc) (event (L Orc))).
Hint Resolve quiet_busy quiet_hop_target quiet_hop_target_fsz quiet_flip_target quiet_scan_single quiet_scan_opposite quiet_calc_log quiet_update quiet_revert quiet_update_fsz quiet_revert_fsz quiet_hopping
  quiet_exchange quiet_hopping_fsz quiet_hopping_csz quiet_exchange_fsz quiet_flip_localspin quiet_flip_conduction
  quiet_metropolis : quiet.

Lemma recalc_only s : only is_recalc (recalc I Orc rank size s).
Proof. unfold recalc. destruct (_ <? _); [|onlys]. apply only_emit; [exact Logic.I|]. onlys. apply quiet_calc_log. Qed.
Hint Resolve recalc_only : quiet.
Lemma hopping_step_only s p : only is_recalc (hopping_step I Orc rank size s p).
Proof. unfold hopping_step. onlys; auto with quiet. Qed.
Lemma exchange_step_only s p : only is_recalc (exchange_step I Orc rank size s p).
Proof.
  unfold exchange_step. onlys; auto with quiet.
Qed.
Lemma one_move_only b s r : only is_recalc (one_move_fsz I Orc rank size b s r).
Proof. unfold one_move_fsz. onlys; auto with quiet. Qed.
Hint Resolve one_move_only : quiet.
Lemma hopping_step_fsz_only s p : only is_recalc (hopping_step_fsz I Orc rank size s p).
Proof. unfold hopping_step_fsz. onlys; auto with quiet. Qed.
Lemma flip_step_fsz_only s p : only is_recalc (flip_step_fsz I Orc rank size s p).
Proof. unfold flip_step_fsz. onlys; auto with quiet. Qed.
Lemma exchange_step_fsz_only s p : only is_recalc (exchange_step_fsz I Orc rank size s p).
Proof.
  unfold exchange_step_fsz. onlys; auto with quiet.
Qed.

(** a step shows recalculations and, at its end, the walker *)
Definition step_shape (step : st Orc -> prog (st Orc)) : Prop := forall s tr s', runs (step s) tr (Done s') ->
  exists t0, tr = t0 ++ [AtStep (wk _ s')] /\ Forall is_recalc t0.
Lemma shape_emit (p : prog (st Orc)) tr s' : only is_recalc p ->
  runs (s <~ p;; Emit (AtStep (wk _ s)) (Ret s)) tr (Done s') ->
  exists t0, tr = t0 ++ [AtStep (wk _ s')] /\ Forall is_recalc t0.
Proof.
  intros Ho R. destruct (runs_bind_done _ _ _ _ R) as (t1 & t2 & a & -> & R1 & R2).
  inversion R2; subst. inversion H3; subst. exists t1. split; [reflexivity|]. eapply Ho; eassumption.
Qed.
Lemma inner_shape : step_shape (inner_step I Orc rank size).
Proof.
  intros s tr s' R. unfold inner_step in R. destruct (get_update_type I Orc (pos _ s)) as (p, ut).
  eapply shape_emit in R; [exact R|].
  destruct ut; auto using hopping_step_only, exchange_step_only, recalc_only.
Qed.
Lemma inner_shape_fsz : step_shape (inner_step_fsz I Orc rank size).
Proof.
  intros s tr s' R. unfold inner_step_fsz in R. destruct (get_update_type I Orc (pos _ s)) as (p, ut).
  eapply shape_emit in R; [exact R|].
  destruct ut; auto using hopping_step_fsz_only, exchange_step_fsz_only, flip_step_fsz_only, recalc_only.
Qed.
End Steps.

Lemma marks_app {L} (a b : list (event L)) : marks (a ++ b) = marks a ++ marks b.
Proof. apply flat_map_app. Qed.
Lemma marks_recalc {L} (a : list (event L)) : Forall is_recalc a -> marks a = [].
Proof. induction 1 as [|e l H _ IH]; [reflexivity|]. destruct e; try contradiction. exact IH. Qed.
Lemma saves_app {L} c (a b : list (event L)) : saves_current c a -> saves_current (current c a) b -> saves_current c (a ++ b).
Proof.
  revert c. induction a as [|e a IH]; intros c H1 H2; [exact H2|].
  destruct e; cbn in *; try (apply IH; assumption). destruct H1. split; [assumption|]. now apply IH.
Qed.
Lemma saves_recalc {L} c (a : list (event L)) : Forall is_recalc a -> saves_current c a.
Proof.
  intros H. revert c. induction H as [|e l H _ IH]; intros c; [exact I|]. destruct e; try contradiction. apply IH.
Qed.
Lemma current_app {L} c (a b : list (event L)) : current c (a ++ b) = current (current c a) b.
Proof. apply fold_left_app. Qed.

(** ** The order of samples *)
Section Slots.
Variable I : input.
Variable Orc : oracles.
Variables (rank size : Z).
Notation prog := (Prog.prog (K Orc) (event (L Orc))).
Variable initial : walker -> Z -> prog (Z * walker).
Variable step : st Orc -> prog (st Orc).
Hypothesis Hinit : forall P w p, only P (initial w p).
Hypothesis Hstep : step_shape Orc step.

Definition frag (s s' : st Orc) (tr : list (event (L Orc))) (m : list mark) : Prop :=
  marks tr = m /\ saves_current (Some (wk _ s)) tr /\ current (Some (wk _ s)) tr = Some (wk _ s').
Lemma frag_app s s' s'' t t' m m' : frag s s' t m -> frag s' s'' t' m' -> frag s s'' (t ++ t') (m ++ m').
Proof.
  intros (A & B & C) (A' & B' & C'). split; [|split].
  - rewrite marks_app. congruence.
  - apply saves_app; [assumption|]. now rewrite C.
  - rewrite current_app. now rewrite C.
Qed.
Lemma frag_step s tr s' : runs (step s) tr (Done s') -> frag s s' tr [Step].
Proof.
  intros R. destruct (Hstep _ _ _ R) as (t0 & -> & F). split; [|split].
  - rewrite marks_app, marks_recalc by assumption. reflexivity.
  - apply saves_app; [now apply saves_recalc|exact Logic.I].
  - rewrite current_app. reflexivity.
Qed.
Lemma frag_inner l s tr s' : runs (forM l (fun _ s => step s) s) tr (Done s') -> frag s s' tr (repeat Step (length l)).
Proof.
  revert s tr. induction l as [|i l IH]; intros s tr R; cbn [forM] in R.
  - inversion R; subst. repeat split.
  - destruct (runs_bind_done _ _ _ _ R) as (t1 & t2 & a & -> & R1 & R2).
    change (repeat Step (length (i :: l))) with ([Step] ++ repeat Step (length l)).
    eapply frag_app; [apply frag_step; eassumption|apply IH; assumption].
Qed.
Let nIn := Z.to_nat (NVMCInterval I * Nsite (T I)).
Definition slot_marks nOut o : list mark :=
  repeat Step nIn ++ (if nOut - NVMCSample I <=? o then [Slot (o - (nOut - NVMCSample I))] else []).
Lemma frag_outer nOut o s tr s' : runs (outer_step I Orc step nOut o s) tr (Done s') -> frag s s' tr (slot_marks nOut o).
Proof.
  intros R. unfold outer_step in R. destruct (runs_bind_done _ _ _ _ R) as (t1 & t2 & a & -> & R1 & R2).
  apply frag_inner in R1. rewrite zrange_length, Z.sub_0_r in R1. fold nIn in R1. unfold slot_marks.
  eapply frag_app; [exact R1|]. destruct (_ <=? _); [|inversion R2; subst; repeat split].
  inversion R2; subst. inversion H3; subst. repeat split.
Qed.
Lemma frag_outers nOut l s tr s' : runs (forM l (outer_step I Orc step nOut) s) tr (Done s') ->
  frag s s' tr (flat_map (slot_marks nOut) l).
Proof.
  revert s tr. induction l as [|i l IH]; intros s tr R; cbn [forM] in R.
  - inversion R; subst. repeat split.
  - destruct (runs_bind_done _ _ _ _ R) as (t1 & t2 & a & -> & R1 & R2).
    cbn [flat_map]. eapply frag_app; [apply frag_outer; eassumption|apply IH; assumption].
Qed.
Lemma marks_all nWarm : 0 <= nWarm -> 0 <= NVMCSample I ->
  flat_map (slot_marks (nWarm + NVMCSample I)) (zrange 0 (nWarm + NVMCSample I)) =
  expected_marks nWarm (NVMCInterval I * Nsite (T I)) (NVMCSample I).
Proof.
  intros Hw Hs. rewrite (zrange_app 0 nWarm) by lia. rewrite flat_map_app. unfold expected_marks. f_equal.
  - assert (G : forall n, Z.of_nat n <= nWarm -> flat_map (slot_marks (nWarm + NVMCSample I)) (zrange 0 (Z.of_nat n)) = repeat Step (n * nIn)).
    { induction n as [|n IH]; intros Hn; [reflexivity|].
      rewrite Nat2Z.inj_succ, <- Z.add_1_r, zrange_snoc by lia. rewrite flat_map_app, IH by lia. cbn [flat_map].
      unfold slot_marks. destruct (_ <=? _) eqn:El; [apply Z.leb_le in El; lia|].
      rewrite !app_nil_r, <- repeat_app. f_equal. lia. }
    specialize (G (Z.to_nat nWarm)). rewrite Z2Nat.id in G by assumption. rewrite G by lia. f_equal.
    unfold nIn. destruct (Z.le_gt_cases 0 (NVMCInterval I * Nsite (T I))).
    + now rewrite (Z2Nat.inj_mul nWarm) by assumption.
    + assert (nWarm * (NVMCInterval I * Nsite (T I)) <= 0) by nia. 
      assert (NP : forall z, z <= 0 -> Z.to_nat z = 0%nat) by (intros z; destruct z; cbn; lia).
      rewrite (NP (nWarm * _)), (NP (NVMCInterval I * _)) by lia. lia.
  - assert (G : forall n, Z.of_nat n <= NVMCSample I ->
      flat_map (slot_marks (nWarm + NVMCSample I)) (zrange nWarm (nWarm + Z.of_nat n)) =
      flat_map (fun k => repeat Step nIn ++ [Slot k]) (zrange 0 (Z.of_nat n))).
    { induction n as [|n IH]; intros Hn; [now rewrite Z.add_0_r, !zrange_nil by lia|].
      rewrite Nat2Z.inj_succ, <- Z.add_1_r, Z.add_assoc, !zrange_snoc by lia. rewrite !flat_map_app, IH by lia.
      f_equal. cbn [flat_map]. unfold slot_marks. destruct (_ <=? _) eqn:El; [|apply Z.leb_gt in El; lia].
      do 4 f_equal. lia. }
    specialize (G (Z.to_nat (NVMCSample I))). rewrite Z2Nat.id in G by assumption. apply G. lia.
Qed.

Lemma quiet_nil {A} (p : prog A) tr o : (forall P, only P p) -> runs p tr o -> tr = [].
Proof. intros H R. pose proof (H (fun _ => False) _ _ R) as F. destruct tr; [reflexivity|]. inversion F; contradiction. Qed.
Lemma quiet_initials n w qs p : forall P, only P (make_initial_sample I Orc rank size initial n w qs p).
Proof. intros P. apply quiet_make_initial. intros; apply Hinit. Qed.

Lemma slots_ok burn w qs0 p tr pf wf qf : 0 <= NVMCSample I -> 0 <= NVMCWarmUp I ->
  runs (make_sample I Orc rank size initial step burn w qs0 p) tr (Done (pf, wf, qf)) ->
  exists nWarm, (nWarm = NVMCWarmUp I \/ (nWarm = 1 /\ burn <> None)) /\
    marks tr = expected_marks nWarm (NVMCInterval I * Nsite (T I)) (NVMCSample I) /\
    saves_current None tr /\ current None tr = Some wf.
Proof.
  intros Hs Hw R. unfold make_sample in R.
  destruct (runs_bind_done _ _ _ _ R) as (t1 & t2 & ((p1, w1), q1) & -> & R1 & R2).
  assert (t1 = []) as -> by (destruct burn; [inversion R1; reflexivity|];
    eapply quiet_nil; [|exact R1]; apply quiet_initials).
  clear R R1. cbn [app].
  destruct (runs_bind_done _ _ _ _ R2) as (t3 & t4 & (s, bf) & -> & R3 & R4). clear R2.
  assert (H3 : (bf = 0 \/ (bf = 1 /\ burn <> None)) /\ Forall is_recalc t3 /\ current None t3 = Some (wk _ s)).
  { inversion R3 as [| | ? ? ? ? U0 | |]; subst. clear R3.
    destruct (runs_bind_done _ _ _ _ U0) as (u1 & u2 & l & -> & U1 & U2). clear U0.
    assert (u1 = []) as -> by (eapply quiet_nil; [|exact U1]; intros; apply quiet_calc_log). cbn [app].
    destruct (finite Orc l).
    - inversion U2; subst. split; [destruct burn; [right; split; [reflexivity|discriminate]|now left]|].
      split; [repeat constructor|reflexivity].
    - destruct (runs_bind_done _ _ _ _ U2) as (v1 & v2 & ((p2, w2), q2) & -> & V1 & V2).
      assert (v1 = []) as -> by (exact (quiet_nil _ _ _ (quiet_initials 100 _ _ _) V1)). cbn [app].
      inversion V2 as [| | ? ? ? ? X0 | |]; subst.
      destruct (runs_bind_done _ _ _ _ X0) as (x1 & x2 & l2 & -> & X1 & X2).
      assert (x1 = []) as -> by (eapply quiet_nil; [|exact X1]; intros; apply quiet_calc_log).
      inversion X2; subst. split; [now left|]. split; [repeat constructor|reflexivity]. }
  destruct H3 as (Hbf & Fr & Hc).
  destruct (runs_bind_done _ _ _ _ R4) as (t5 & t6 & s' & -> & R5 & R6). inversion R6; subst. rewrite app_nil_r.
  apply frag_outers in R5. destruct R5 as (A & B & C).
  exists (if bf =? 0 then NVMCWarmUp I else 1).
  split; [destruct Hbf as [->|(-> & ?)]; cbn; auto|].
  split; [|split].
  - rewrite marks_app, marks_recalc by assumption. cbn [app]. rewrite A.
    destruct Hbf as [->|(-> & _)]; cbn [Z.eqb].
    + now apply marks_all.
    + change (if 1 =? 0 then _ else NVMCSample I + 1) with (NVMCSample I + 1).
      rewrite (Z.add_comm (NVMCSample I) 1). apply marks_all; lia.
  - apply saves_app; [now apply saves_recalc|]. now rewrite Hc.
  - rewrite current_app, Hc. exact C.
Qed.
End Slots.

(** each slot once and in order *)
Lemma saved_marks {L} (tr : list (event L)) :
  map fst (saved tr) = flat_map (fun m => match m with Slot k => [k] | Step => [] end) (marks tr).
Proof. induction tr as [|e tr IH]; [reflexivity|]. unfold saved, marks in *. destruct e; cbn; rewrite IH; reflexivity. Qed.
Lemma expected_slots nWarm nIn nSample : 
  flat_map (fun m => match m with Slot k => [k] | Step => [] end) (expected_marks nWarm nIn nSample) = zrange 0 nSample.
Proof.
  unfold expected_marks. set (g := fun m => match m with Slot k => [k] | Step => [] end).
  assert (R0 : forall n, flat_map g (repeat Step n) = []) by (induction n; auto).
  rewrite flat_map_app, R0. cbn [app]. induction (zrange 0 nSample) as [|k l IH]; [reflexivity|].
  cbn [flat_map]. rewrite !flat_map_app, R0, IH. reflexivity.
Qed.
