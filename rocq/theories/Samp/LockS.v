(** The sampler on a group of processes. *)
From Coq Require Import ZArith List Bool Lia.
From Verif Require Import Base.ZLoop Base.Checked Proj.Model Proj.Spec Par.Model Par.Proofs Samp.Prog Samp.Model Samp.Spec
  Samp.Lock.
Import ListNotations.
Local Open Scope Z_scope.

Ltac locals :=
  repeat first
    [ apply local_ret | apply local_stop | apply local_get | apply local_put | apply local_umod | apply local_ofOpt
    | apply local_bind; [|intros] | apply local_forM; intros | apply local_search; intros
    | match goal with |- local (match ?x with _ => _ end) => destruct x end
    | progress cbn beta iota zeta ].

Section Local.
Variable I : input.
Variable Orc : oracles.
Lemma local_busy w r s : local (busy I Orc w r s).
Proof. unfold busy. locals. Qed.
Lemma local_hop_target w s k p : local (hop_target I Orc w s k p).
Proof. revert p. induction k; intros; cbn [hop_target]; locals; first [apply local_busy|apply IHk]. Qed.
Lemma local_hop_target_fsz w k p : local (hop_target_fsz I Orc w k p).
Proof. revert p. induction k; intros; cbn [hop_target_fsz]; locals; first [apply local_busy|apply IHk]. Qed.
Lemma local_flip_target w k p : local (flip_target I Orc w k p).
Proof. revert p. induction k; intros; cbn [flip_target]; locals; apply IHk. Qed.
Lemma local_scan_single w l : local (scan_single I Orc w l).
Proof. induction l; cbn [scan_single]; locals; auto. Qed.
Lemma local_scan_opposite w l a b : local (scan_opposite I Orc w l a b).
Proof. revert a b. induction l; intros; cbn [scan_opposite]; locals; auto. Qed.
Lemma local_update mi ri rj s w : local (update_ele_config I Orc mi ri rj s w).
Proof. unfold update_ele_config. locals. Qed.
Lemma local_revert mi ri rj s w : local (revert_ele_config I Orc mi ri rj s w).
Proof. unfold revert_ele_config. locals. Qed.
Lemma local_update_fsz mi ri rj s t w : local (update_ele_config_fsz I Orc mi ri rj s t w).
Proof. unfold update_ele_config_fsz. locals. Qed.
Lemma local_revert_fsz mi ri rj s t w : local (revert_ele_config_fsz I Orc mi ri rj s t w).
Proof. unfold revert_ele_config_fsz. locals. Qed.
Lemma local_hopping w p : local (make_candidate_hopping I Orc w p).
Proof. unfold make_candidate_hopping, pick_hop. locals; apply local_hop_target. Qed.
Lemma local_exchange w p : local (make_candidate_exchange I Orc w p).
Proof. unfold make_candidate_exchange, pick_single, pick_partner. locals; apply local_scan_single. Qed.
Lemma local_hopping_fsz w p : local (make_candidate_hopping_fsz I Orc w p).
Proof. unfold make_candidate_hopping_fsz, pick_hop_fsz. locals; apply local_hop_target_fsz. Qed.
Lemma local_hopping_csz w p : local (make_candidate_hopping_csz I Orc w p).
Proof. unfold make_candidate_hopping_csz, pick_hop_fsz. locals; apply local_hop_target. Qed.
Lemma local_exchange_fsz w p : local (make_candidate_exchange_fsz I Orc w p).
Proof. unfold make_candidate_exchange_fsz, pick_single_fsz, pick_partner_fsz. locals; apply local_scan_opposite. Qed.
Lemma local_flip_localspin w p : local (make_candidate_flip_localspin I Orc w p).
Proof. unfold make_candidate_flip_localspin, pick_local. locals. Qed.
Lemma local_flip_conduction w p : local (make_candidate_flip_conduction I Orc w p).
Proof. unfold make_candidate_flip_conduction. locals; apply local_flip_target. Qed.
Lemma local_initial w p : local (initial_tables I Orc w p).
Proof. unfold initial_tables, fill, place_local, place_itinerant, fill_num, pick_site, pick_free. locals. Qed.
Lemma local_initial_fsz w p : local (initial_tables_fsz I Orc w p).
Proof. unfold initial_tables_fsz, initial_spin, fill, place_local_fsz, place_itinerant_fsz, fill_num, pick_site, pick_free_fsz. locals. Qed.
End Local.

Section Lockstep.
Variable I : input.
Variable Orc : oracles.
Variable size : Z.
Hypothesis Hsize : 1 < size.
Notation prog := (Prog.prog (K Orc) (event (L Orc))).
Let rs := zrange 0 size.
Lemma rs_ne : rs <> [].
Proof. unfold rs. rewrite zrange_cons by lia. discriminate. Qed.
Notation LS := (@Lock.LS (K Orc) (event (L Orc)) (kzero Orc) (kadd Orc) rs _).

(** all ranks have the same position, walker, logarithm and acceptance counter *)
Definition Agree (s : Z -> st Orc) : Prop :=
  exists p w l n q, forall r, In r rs -> s r = St Orc p w (q r) l n.
Definition Same {A} (a : Z -> A) : Prop := exists x, forall r, In r rs -> a r = x.

Lemma LS_log (f : Z -> Z -> K Orc) : LS Same (fun r => calc_log_ip I Orc r size (f r)).
Proof.
  unfold calc_log_ip. rewrite (proj2 (Z.ltb_lt 1 size) Hsize).
  eapply LS_sum; [intros; reflexivity|]. cbn. eapply LS_ret; [intros; reflexivity|].
  eexists. intros r _. reflexivity.
Qed.
Lemma LS_log_bind {B} (R : (Z -> B) -> Prop) (f : Z -> Z -> K Orc) (g : Z -> L Orc -> prog B) :
  (forall l, LS R (fun r => g r l)) -> LS R (fun r => bindP (calc_log_ip I Orc r size (f r)) (g r)).
Proof.
  intros H. eapply LS_bind; [apply LS_log|]. intros a (x & Hx).
  eapply LS_ext; [|apply (H x)]. intros r Hr. cbn. now rewrite Hx.
Qed.

Lemma LS_metropolis p0 w0 q l n w1 cnt m p revert : (forall w, local (revert w)) ->
  LS Agree (fun r => metropolis I Orc r size (St Orc p0 w0 (q r) l n) w0 w1 cnt m p revert).
Proof.
  intros Hr. unfold metropolis. cbn [qs logIpOld nAccept].
  eapply LS_log_bind. intros l'. destruct (accept _ _ _ _ _ _).
  - eapply LS_local_bind; [apply local_ofOpt|]. intros c.
    eapply LS_ret; [intros; reflexivity|]. do 5 eexists. intros r _. reflexivity.
  - eapply LS_local_bind; [apply Hr|]. intros w.
    eapply LS_ret; [intros; reflexivity|]. do 5 eexists. intros r _. reflexivity.
Qed.
Lemma Agree_intro p w q l n : Agree (fun r => St Orc p w (q r) l n).
Proof. do 5 eexists. intros r _. reflexivity. Qed.
Lemma LS_agree (f : Z -> st Orc -> prog (st Orc)) (s : Z -> st Orc) : Agree s ->
  (forall p w l n q, LS Agree (fun r => f r (St Orc p w (q r) l n))) -> LS Agree (fun r => f r (s r)).
Proof.
  intros (p & w & l & n & q & E) H. eapply LS_ext; [|apply (H p w l n q)]. intros r Hr. cbn. now rewrite E.
Qed.
Lemma LS_recalc s : Agree s -> LS Agree (fun r => recalc I Orc r size (s r)).
Proof.
  intros Hs. apply (LS_agree (fun r s => recalc I Orc r size s) s Hs). intros p w l n q. unfold recalc. cbn [nAccept wk qs pos].
  destruct (_ <? _).
  - eapply LS_emit; [intros; reflexivity|]. cbn beta. eapply LS_log_bind. intros l'.
    eapply LS_ret; [intros; reflexivity|]. apply (Agree_intro p w (fun r => fst (calc_all I Orc r size w (q r)))).
  - eapply LS_ret; [intros; reflexivity|]. apply Agree_intro.
Qed.
Lemma LS_ret_agree p w q l n : LS Agree (fun r => Ret (St Orc p w (q r) l n)).
Proof. eapply LS_ret; [intros; reflexivity|]. apply Agree_intro. Qed.
Lemma LS_metro_recalc p0 w0 q l n w1 cnt m p revert : (forall w, local (revert w)) ->
  LS Agree (fun r => bindP (metropolis I Orc r size (St Orc p0 w0 (q r) l n) w0 w1 cnt m p revert)
                           (fun s' => recalc I Orc r size s')).
Proof.
  intros Hr. eapply LS_bind; [now apply LS_metropolis|]. intros a Ha. now apply LS_recalc.
Qed.

Lemma LS_hopping p w q l n p' : LS Agree (fun r => hopping_step I Orc r size (St Orc p w (q r) l n) p').
Proof.
  unfold hopping_step. cbn [wk qs logIpOld nAccept].
  eapply LS_local_bind; [apply local_hopping|]. intros ((p1, (((mi, ri), rj), sp)), flag).
  destruct (flag =? 1); [apply LS_ret_agree|].
  eapply LS_local_bind; [apply local_update|]. intros w1.
  eapply LS_local_bind; [apply local_ofOpt|]. intros cnt.
  apply LS_metro_recalc. intros; apply local_revert.
Qed.
Lemma LS_exchange p w q l n p' : LS Agree (fun r => exchange_step I Orc r size (St Orc p w (q r) l n) p').
Proof.
  unfold exchange_step. cbn [wk qs logIpOld nAccept].
  eapply LS_local_bind; [apply local_exchange|]. intros (p1, [(((mi, ri), rj), sp)|]); [|apply LS_ret_agree].
  eapply LS_local_bind; [apply local_get|]. intros mj.
  eapply LS_local_bind; [apply local_update|]. intros w1.
  eapply LS_local_bind; [apply local_ofOpt|]. intros cnt.
  eapply LS_local_bind; [apply local_update|]. intros w2.
  eapply LS_local_bind; [apply local_ofOpt|]. intros cnt'.
  apply LS_metro_recalc. intros; apply local_bind; intros; apply local_revert.
Qed.
Lemma LS_one_move b x p w q l n : LS Agree (fun r => one_move_fsz I Orc r size b (St Orc p w (q r) l n) x).
Proof.
  unfold one_move_fsz. cbn [wk qs logIpOld nAccept]. destruct x as ((p1, ((((mi, ri), rj), sp), t)), flag).
  destruct (flag =? 1); [apply LS_ret_agree|].
  eapply LS_local_bind; [apply local_update_fsz|]. intros w1.
  eapply LS_local_bind; [apply local_ofOpt|]. intros cnt.
  apply LS_metro_recalc. intros; apply local_revert_fsz.
Qed.
Lemma LS_hopping_fsz p w q l n p' : LS Agree (fun r => hopping_step_fsz I Orc r size (St Orc p w (q r) l n) p').
Proof.
  unfold hopping_step_fsz. cbn [wk].
  destruct (_ =? _); [destruct (_ =? _)|].
  - eapply LS_local_bind; [apply local_hopping_fsz|]. intros; apply LS_one_move.
  - eapply LS_local_bind; [apply local_flip_conduction|]. intros; apply LS_one_move.
  - eapply LS_local_bind; [apply local_hopping_csz|]. intros; apply LS_one_move.
Qed.
Lemma LS_flip_fsz p w q l n p' : LS Agree (fun r => flip_step_fsz I Orc r size (St Orc p w (q r) l n) p').
Proof.
  unfold flip_step_fsz. cbn [wk]. eapply LS_local_bind; [apply local_flip_localspin|]. intros; apply LS_one_move.
Qed.
Lemma LS_exchange_fsz p w q l n p' : LS Agree (fun r => exchange_step_fsz I Orc r size (St Orc p w (q r) l n) p').
Proof.
  unfold exchange_step_fsz. cbn [wk qs logIpOld nAccept].
  eapply LS_local_bind; [apply local_exchange_fsz|]. intros (p1, [(((mi, ri), rj), sp)|]); [|apply LS_ret_agree].
  eapply LS_local_bind; [apply local_get|]. intros mj.
  eapply LS_local_bind; [apply local_update_fsz|]. intros w1.
  eapply LS_local_bind; [apply local_ofOpt|]. intros cnt.
  eapply LS_local_bind; [apply local_update_fsz|]. intros w2.
  eapply LS_local_bind; [apply local_ofOpt|]. intros cnt'.
  apply LS_metro_recalc. intros; apply local_bind; intros; apply local_revert_fsz.
Qed.
Lemma LS_at_step (P : Z -> prog (st Orc)) : LS Agree P -> LS Agree (fun r => bindP (P r) (fun s' => Emit (AtStep (wk _ s')) (Ret s'))).
Proof.
  intros H. eapply LS_bind; [exact H|]. intros a Ha.
  apply (LS_agree (fun r s' => Emit (AtStep (wk _ s')) (Ret s')) a Ha). intros. cbn [wk].
  eapply LS_emit; [intros; reflexivity|]. apply LS_ret_agree.
Qed.
Lemma LS_inner s : Agree s -> LS Agree (fun r => inner_step I Orc r size (s r)).
Proof.
  intros Hs. apply (LS_agree (fun r s => inner_step I Orc r size s) s Hs). intros p w l n q.
  unfold inner_step. cbn [pos wk qs logIpOld nAccept]. destruct (get_update_type I Orc p) as (p1, ut).
  apply LS_at_step. destruct ut; [apply LS_hopping|apply LS_exchange| |]; apply LS_recalc; apply Agree_intro.
Qed.
Lemma LS_inner_fsz s : Agree s -> LS Agree (fun r => inner_step_fsz I Orc r size (s r)).
Proof.
  intros Hs. apply (LS_agree (fun r s => inner_step_fsz I Orc r size s) s Hs). intros p w l n q.
  unfold inner_step_fsz. cbn [pos wk qs logIpOld nAccept]. destruct (get_update_type I Orc p) as (p1, ut).
  apply LS_at_step. destruct ut; [apply LS_hopping_fsz|apply LS_exchange_fsz|apply LS_flip_fsz|].
  apply LS_recalc; apply Agree_intro.
Qed.

Section Whole.
Variable initial : walker -> Z -> prog (Z * walker).
Variable step : Z -> st Orc -> prog (st Orc).
Hypothesis Hinit : forall w p, local (initial w p).
Hypothesis Hstep : forall s, Agree s -> LS Agree (fun r => step r (s r)).
(** position and walker are the same on all ranks *)
Definition Agree3 (a : Z -> Z * walker * (Z -> Q Orc)) : Prop :=
  exists p w, forall r, In r rs -> fst (a r) = (p, w).
Lemma LS_initial n w q p : LS Agree3 (fun r => make_initial_sample I Orc r size initial n w (q r) p).
Proof.
  revert w q p. induction n as [|n IH]; intros w q p; cbn [make_initial_sample].
  - eapply LS_local_bind; [apply Hinit|]. intros (p1, w1). rewrite (proj2 (Z.ltb_lt 1 size) Hsize).
    eapply LS_max; [intros; reflexivity|]. cbn. eapply LS_stop; intros; reflexivity.
  - eapply LS_local_bind; [apply Hinit|]. intros (p1, w1). rewrite (proj2 (Z.ltb_lt 1 size) Hsize).
    eapply (LS_max _ _ _ _ _ _ (fun r y => if 0 <? y then make_initial_sample I Orc r size initial n w1 (fst (calc_all I Orc r size w1 (q r))) p1
                                            else Ret (p1, w1, fst (calc_all I Orc r size w1 (q r))))); [intros; reflexivity|].
    cbn beta. destruct (0 <? _).
    + apply (IH w1 (fun r => fst (calc_all I Orc r size w1 (q r))) p1).
    + eapply LS_ret; [intros; reflexivity|]. exists p1, w1. reflexivity.
Qed.
Lemma LS_outer nOut o s : Agree s -> LS Agree (fun r => outer_step I Orc (step r) nOut o (s r)).
Proof.
  intros Hs. unfold outer_step. eapply LS_bind.
  - apply (LS_forM _ _ _ Agree _ (fun r _ s => step r s)); [exact Hs|]. intros; now apply Hstep.
  - intros a Ha. apply (LS_agree (fun r s => if nOut - NVMCSample I <=? o
      then Emit (Save (o - (nOut - NVMCSample I)) (wk _ s) (logIpOld _ s)) (Ret s) else Ret s) a Ha).
    intros. cbn [wk logIpOld]. destruct (_ <=? _); [eapply LS_emit; [intros; reflexivity|]|]; apply LS_ret_agree.
Qed.
Definition AgreeB (a : Z -> st Orc * Z) : Prop := Agree (fun r => fst (a r)) /\ Same (fun r => snd (a r)).
Lemma LS_make_sample burn w q p : LS Agree3 (fun r => make_sample I Orc r size initial (step r) burn w (q r) p).
Proof.
  unfold make_sample.
  apply (LS_bind _ _ _ Agree3).
  { destruct burn; [|apply LS_initial]. eapply LS_ret; [intros; reflexivity|]. do 2 eexists. intros; reflexivity. }
  intros a (p1 & w1 & E1).
  eapply LS_ext with (P := fun r => _).
  { intros r Hr. specialize (E1 r Hr). destruct (a r) as ((p2, w2), q2) eqn:Ea. cbn in E1. injection E1 as -> ->.
    replace q2 with (snd (a r)) by (now rewrite Ea). reflexivity. }
  cbn beta. apply (LS_bind _ _ _ AgreeB).
  - eapply LS_emit; [intros; reflexivity|]. cbn beta. apply LS_log_bind. intros l. destruct (finite Orc l).
    + eapply LS_ret; [intros; reflexivity|]. split; [apply (Agree_intro p1 w1 (fun r => fst (calc_all I Orc r size w1 (snd (a r)))))|].
      exists (match burn with None => 0 | Some _ => 1 end). reflexivity.
    + apply (LS_bind _ _ _ Agree3); [apply (LS_initial 100 w1 (fun r => fst (calc_all I Orc r size w1 (snd (a r)))))|].
      intros a2 (p2 & w2 & E2).
      eapply LS_ext with (P := fun r => _).
      { intros r Hr. specialize (E2 r Hr). destruct (a2 r) as ((p3, w3), q3) eqn:Ea. cbn in E2. injection E2 as -> ->.
        replace q3 with (snd (a2 r)) by (now rewrite Ea). reflexivity. }
      cbn beta. eapply LS_emit; [intros; reflexivity|]. cbn beta. apply LS_log_bind. intros l2.
      eapply LS_ret; [intros; reflexivity|].
      split; [apply (Agree_intro p2 w2 (fun r => fst (calc_all I Orc r size w2 (snd (a2 r)))))|]. exists 0. reflexivity.
  - intros b (Hb & bf & Ebf). 
    set (nOut := if bf =? 0 then NVMCWarmUp I + NVMCSample I else NVMCSample I + 1).
    eapply LS_ext with (P := fun r => bindP (forM (zrange 0 nOut) (outer_step I Orc (step r) nOut) (fst (b r)))
       (fun s => Ret (pos _ s, wk _ s, qs _ s))).
    { intros r Hr. specialize (Ebf r Hr). destruct (b r) as (s, bf'). cbn in Ebf. subst bf'. reflexivity. }
    apply (LS_bind _ _ _ Agree).
    + apply (LS_forM _ _ _ Agree _ (fun r o s => outer_step I Orc (step r) nOut o s)); [exact Hb|]. intros; now apply LS_outer.
    + intros c (pc & wc & lc & nc & qc & Ec). eapply LS_ret; [intros; reflexivity|].
      exists pc, wc. intros r Hr. rewrite Ec by assumption. reflexivity.
Qed.
End Whole.
End Lockstep.
