(** General spins: detailed balance. *)
From Coq Require Import ZArith List Bool Lia Reals Lra FunctionalExtensionality.
From Coquelicot Require Import Complex.
From Verif Require Import Base.ZLoop Base.Checked Base.RSum Proj.Model Proj.Spec Pf.Pfaffian Pf.Spec Slater.Model Slater.Spec
  Rbm.Spec Green.Model Green.Spec Fsz.Spec Gfz.Spec Gfz.Proofs
  Samp.Prog Samp.Model Samp.Spec Samp.Config Mark.Model Mark.Spec Mark.Words Mark.Reverse Mark.ReverseStd Mark.ReverseFsz Mark.ReturnFsz Mark.WeightFsz Mark.Chain Mark.Balance.
Import ListNotations.
Local Open Scope Z_scope.

Lemma fpsi_same V x y : (forall m, In m (flabels V) -> x m = y m) -> fpsi V x = fpsi V y.
Proof.
  intros H. assert (E : foccupation (flabels V) x = foccupation (flabels V) y).
  { apply functional_extensionality. intros c. unfold foccupation. replace (existsb (fun m => x m =? c) (flabels V)) with (existsb (fun m => y m =? c) (flabels V)); [reflexivity|].
    induction (flabels V) as [|m l IH]; [reflexivity|]. cbn [existsb]. rewrite H by now left. f_equal. apply IH. intros; apply H; now right. }
  unfold fpsi. rewrite E. f_equal. unfold fpairs, amplitude_fsz. apply csum_ext. intros o _. apply csum_ext. intros m _. f_equal.
  unfold pfaffian_fsz. apply (pf_ext _ _ _ _ (le_n _)). intros i j Hi Hj. fold (flabels V) in Hi, Hj. now rewrite (H i Hi), (H j Hj).
Qed.

Section B.
Variable I : input.
Variable V : fwave.
Hypothesis wf : wf_input I.
Hypothesis HV : wf_fwave V.
Hypothesis HF : fits_fsz I V.
Notation N := (Proj.Model.Nsite (T I)).
Notation Ne := (Samp.Model.Ne I).
Lemma fN_eq : N = fsites V. Proof. destruct HF as (-> & _). apply (Gfz.Spec.wf_sites V HV). Qed.
Lemma fNe_eq : Ne = Slater.Model.Ne (fS V). Proof. apply HF. Qed.
Lemma fstate_consistent G w ip : sampled_fsz V G w ip -> consistent_fsz N Ne w.
Proof. intros H. rewrite fN_eq, fNe_eq. apply (sf_tables _ _ _ _ H). Qed.
Definition wratio (w w1 : walker) : R := ((Cmod (fpsi V (config V w1)) / Cmod (fpsi V (config V w))) ^ 2)%R.
Lemma put_eq mi ri rj s t w : put_elec I mi ri rj s t w = put_in V mi ri rj s t w.
Proof. unfold put_elec, put_in. now rewrite fN_eq. Qed.
Lemma weight_fsz_stream Orc n r G w ip b q p c : sampled_fsz V G w ip -> is_log (gclog G) -> locals_single I w -> propose_fsz I (with_stream Orc r n) w q = Some (p, c) ->
  proposed c = None \/ exists w1, proposed c = Some w1 /\ weight_fsz G b w (gclog G ip) c = Some (wratio w w1).
Proof.
  intros HS Hlog Hl E. assert (Hc := fstate_consistent _ _ _ HS). unfold propose_fsz in E.
  destruct (get_update_type I (with_stream Orc r n) q) as (q1, ut).
  assert (ONE : forall gen q2 mi ri rj s t p1 flag, one_fsz I (with_stream Orc r n) w (p1, (mi, ri, rj, s, t), flag) = Some (p, c) ->
    (gen = make_candidate_hopping_fsz I (with_stream Orc r n) w q2 \/ gen = make_candidate_hopping_csz I (with_stream Orc r n) w q2 \/
     gen = make_candidate_flip_localspin I (with_stream Orc r n) w q2 \/ gen = make_candidate_flip_conduction I (with_stream Orc r n) w q2) ->
    gen = Ret (p1, (mi, ri, rj, s, t), flag) -> proposed c = None \/ exists w1, proposed c = Some w1 /\ weight_fsz G b w (gclog G ip) c = Some (wratio w w1)).
  { intros gen q2 mi ri rj s t p1 flag E1 Hg Eg. unfold one_fsz in E1. destruct (Z.eqb_spec flag 1) as [Ef|Ef]; [injection E1 as _ <-; now left|].
    assert (F := one_info I Orc wf n w Hc Hl r q2 p1 mi ri rj s t flag gen Hg Eg Ef). destruct F as [F1 F2 F3 F4 F5 F6 F7 F8 _].
    rewrite (update_fsz_eval I Orc wf n r mi ri rj s t w F1 F2 F3 F4 F5) in E1. cbn [eval bind] in E1. rewrite put_eq in E1.
    assert (X : one_weight_fsz G b w (gclog G ip) mi ri rj s t (put_in V mi ri rj s t w) = Some (wratio w (put_in V mi ri rj s t w))).
    { rewrite fN_eq, fNe_eq in *. now apply one_fsz_ok. }
    right. remember (put_in V mi ri rj s t w) as w1. injection E1 as -> <-. exists w1. split; [reflexivity|exact X]. }
  destruct ut; [| | |injection E as _ <-; now left].
  - unfold propose_hop_fsz in E. destruct (TwoSz I =? -1); [destruct (_ =? 0)|].
    + destruct (eval (make_candidate_hopping_fsz I (with_stream Orc r n) w (q1 + 1))) as [((p1, ((((mi, ri), rj), s), t)), flag)|] eqn:Em; [|discriminate]. cbn [bind] in E. apply eval_some in Em.
      exact (ONE _ _ mi ri rj s t p1 flag E (or_introl eq_refl) Em).
    + destruct (eval (make_candidate_flip_conduction I (with_stream Orc r n) w (q1 + 1))) as [((p1, ((((mi, ri), rj), s), t)), flag)|] eqn:Em; [|discriminate]. cbn [bind] in E. apply eval_some in Em.
      exact (ONE _ _ mi ri rj s t p1 flag E (or_intror (or_intror (or_intror eq_refl))) Em).
    + destruct (eval (make_candidate_hopping_csz I (with_stream Orc r n) w q1)) as [((p1, ((((mi, ri), rj), s), t)), flag)|] eqn:Em; [|discriminate]. cbn [bind] in E. apply eval_some in Em.
      exact (ONE _ _ mi ri rj s t p1 flag E (or_intror (or_introl eq_refl)) Em).
  - unfold propose_exchange_fsz in E. destruct (eval (make_candidate_exchange_fsz I (with_stream Orc r n) w q1)) as [(p1, [(((mi, ri), rj), s)|])|] eqn:Em; [| |discriminate]; cbn [bind] in E; [|injection E as _ <-; now left].
    apply eval_some in Em. destruct (exchange_fsz_info I Orc wf n w Hc _ _ _ _ _ _ _ Em) as (mj & [A1 A2 A3 A4 A5 A6 A7 A8 A9 A10 A11 A12]).
    rewrite rd_ok in E by nia. cbn [bind] in E. rewrite A12 in E. rewrite (update_fsz_eval I Orc wf n r mi ri rj s s w) in E by assumption. cbn [eval bind] in E.
    rewrite (update_fsz_eval I Orc wf n r mj rj ri (1 - s) (1 - s)) in E by (assumption || lia). cbn [eval bind] in E. rewrite !put_eq in E.
    assert (X : two_weight_fsz G b w (gclog G ip) mi mj ri rj s (put_in V mi ri rj s s w) (put_in V mj rj ri (1 - s) (1 - s) (put_in V mi ri rj s s w))
      = Some (wratio w (put_in V mj rj ri (1 - s) (1 - s) (put_in V mi ri rj s s w)))).
    { rewrite fN_eq, fNe_eq in *. now apply two_fsz_ok. }
    right. remember (put_in V mi ri rj s s w) as w1. remember (put_in V mj rj ri (1 - s) (1 - s) w1) as w2. injection E as -> <-. exists w2. split; [reflexivity|exact X].
  - unfold propose_flip_fsz in E. destruct (eval (make_candidate_flip_localspin I (with_stream Orc r n) w q1)) as [((p1, ((((mi, ri), rj), s), t)), flag)|] eqn:Em; [|discriminate]. cbn [bind] in E. apply eval_some in Em.
    exact (ONE _ _ mi ri rj s t p1 flag E (or_intror (or_intror (or_introl eq_refl))) Em).
Qed.
Lemma weight_fsz_ok Orc G w ip b q p c w1 : sampled_fsz V G w ip -> is_log (gclog G) -> locals_single I w -> propose_fsz I Orc w q = Some (p, c) -> proposed c = Some w1 ->
  weight_fsz G b w (gclog G ip) c = Some (wratio w w1).
Proof.
  intros HS Hg Hl E Ec. destruct (weight_fsz_stream Orc (fuel Orc) (rnd Orc) G w ip b q p c HS Hg Hl) as [X|(w1' & X & Y)]; [now rewrite stream_self|congruence|].
  rewrite Ec in X. injection X as <-. exact Y.
Qed.

Variable Orc : oracles.
Variable n : nat.
Lemma density_fsz_pos x : legal_fsz I V x -> (0 < density_fsz V x)%R.
Proof. intros (H & _). unfold density_fsz. apply pow_lt. apply Cmod_gt_0. exact (fpsi_nz V HV (ftG x) (ftW x) (ftIp x) H). Qed.
Lemma wratio_density x w1 : legal_fsz I V x -> wratio (ftW x) w1 = ((Cmod (fpsi V (config V w1))) ^ 2 / density_fsz V x)%R.
Proof.
  intros Hx. assert (P := density_fsz_pos x Hx). assert (Q : (Cmod (fpsi V (config V (ftW x))) <> 0)%R) by (intros Z0; unfold density_fsz in P; rewrite Z0 in P; cbn in P; lra).
  unfold wratio, density_fsz, Rdiv. rewrite Rpow_mult_distr. f_equal. now rewrite pow_inv.
Qed.
Lemma step_fsz_facts x l p w1 a : legal_fsz I V x -> step_fsz I Orc n x (word_at l) = Some (p, Some (w1, a)) ->
  (exists c, propose_fsz I (with_stream Orc (word_at l) n) (ftW x) 0 = Some (p, c) /\ proposed c = Some w1) /\ a = ((Cmod (fpsi V (config V w1))) ^ 2 / density_fsz V x)%R.
Proof.
  intros Hx E. unfold step_fsz in E. destruct (propose_fsz I (with_stream Orc (word_at l) n) (ftW x) 0) as [(p', c)|] eqn:Ep; [|discriminate].
  destruct (proposed c) as [w1'|] eqn:Ec; [|discriminate]. assert (Hx' := Hx). destruct Hx' as (H1 & H2 & H3). rewrite (weight_fsz_ok _ _ _ _ (ftBuf x) _ _ _ _ H1 H2 H3 Ep Ec) in E.
  rewrite (wratio_density x w1' Hx) in E.
  match type of E with Some (_, Some (_, ?v)) = _ => remember v as vv eqn:Hv end. injection E as -> -> <-. split; [eauto|exact Hv].
Qed.
Lemma step_fsz_of x l p c w1 : legal_fsz I V x -> propose_fsz I (with_stream Orc (word_at l) n) (ftW x) 0 = Some (p, c) -> proposed c = Some w1 ->
  step_fsz I Orc n x (word_at l) = Some (p, Some (w1, ((Cmod (fpsi V (config V w1))) ^ 2 / density_fsz V x)%R)).
Proof.
  intros Hx Ep Ec. assert (Hx' := Hx). destruct Hx' as (H1 & H2 & H3). unfold step_fsz. now rewrite Ep, Ec, (weight_fsz_ok _ _ _ _ (ftBuf x) _ _ _ _ H1 H2 H3 Ep Ec), (wratio_density x w1 Hx).
Qed.
Lemma same_fpsi w1 w2 : same_idx_spn Ne w1 w2 = true -> fpsi V (config V w1) = fpsi V (config V w2).
Proof.
  intros H. apply fpsi_same. intros m Hm. apply zrange_in in Hm. rewrite <- fNe_eq in Hm. destruct (proj1 (same_idx_spn_spec _ _ _) H m Hm) as (A & B). unfold config, spin_orbital. now rewrite A, B.
Qed.
Lemma half_balance_fsz x y : legal_fsz I V x -> legal_fsz I V y -> (density_fsz V x * transition_fsz I Orc n x y <= density_fsz V y * transition_fsz I Orc n y x + density_fsz V x * bias n N)%R.
Proof.
  intros Hx Hy. assert (Cx := fstate_consistent _ _ _ (proj1 Hx)). assert (Cy := fstate_consistent _ _ _ (proj1 Hy)).
  unfold transition_fsz. apply chance_le with (N := N) (bk := back_fsz I Orc n (ftW x) (ftW y)) (a1 := (density_fsz V y / density_fsz V x)%R) (a2 := (density_fsz V x / density_fsz V y)%R).
  - exact (Samp.Spec.wf_sites I wf).
  - intros l Hl. now apply (back_fsz_words I Orc wf n (ftW x) (ftW y) Cx Cy).
  - intros l p w1 a Hl Hgd E Hp Hs. destruct (step_fsz_facts x l p w1 a Hx E) as ((c & Ep & Ec) & ->). rewrite (same_fpsi _ _ Hs). split; [reflexivity|].
    destruct (propose_fsz_reverse I Orc wf n (ftW x) (ftW y) Cx Cy (proj2 (proj2 Hx)) l p c w1 Hl Hgd Ep Hp Ec Hs) as (c' & w1' & E1 & E2 & E3).
    exists w1'. rewrite (step_fsz_of y _ p c' w1' Hy E1 E2). rewrite (same_fpsi _ _ E3). split; [reflexivity|exact E3].
  - apply min_swap; now apply density_fsz_pos.
  - left. now apply density_fsz_pos.
  - left. now apply density_fsz_pos.
  - intros l p w1 a Hl E. destruct (step_fsz_facts y l p w1 a Hy E) as (_ & ->). apply Rmult_le_pos; [apply pow_le, Cmod_ge_0|]. left. apply Rinv_0_lt_compat. now apply density_fsz_pos.
Qed.
Lemma near_balance_fsz x y : legal_fsz I V x -> legal_fsz I V y ->
  (Rabs (density_fsz V x * transition_fsz I Orc n x y - density_fsz V y * transition_fsz I Orc n y x) <= Rmax (density_fsz V x) (density_fsz V y) * bias n N)%R.
Proof.
  intros Hx Hy. assert (H1 := half_balance_fsz x y Hx Hy). assert (H2 := half_balance_fsz y x Hy Hx). assert (B0 := bias_nonneg n N (Samp.Spec.wf_sites I wf)).
  assert (M1 := Rmult_le_compat_r _ _ _ B0 (Rmax_l (density_fsz V x) (density_fsz V y))). assert (M2 := Rmult_le_compat_r _ _ _ B0 (Rmax_r (density_fsz V x) (density_fsz V y))).
  apply Rabs_le. lra.
Qed.
Lemma balance_fsz x y : wordsize mod N = 0 -> legal_fsz I V x -> legal_fsz I V y -> (density_fsz V x * transition_fsz I Orc n x y = density_fsz V y * transition_fsz I Orc n y x)%R.
Proof. intros HB Hx Hy. assert (H1 := half_balance_fsz x y Hx Hy). assert (H2 := half_balance_fsz y x Hy Hx). rewrite (bias_0 n N HB) in *. lra. Qed.
Lemma same_eq_fsz w1 w2 w3 : same_idx_spn Ne w1 w2 = true -> same_idx_spn Ne w1 w3 = true -> same_idx_spn Ne w2 w3 = true.
Proof. rewrite !same_idx_spn_spec. intros H1 H2 m Hm. destruct (H1 m Hm) as (<- & <-). now apply H2. Qed.
Lemma flow_fsz L : (forall x, In x L -> legal_fsz I V x) -> closed_fsz I Orc n L -> forall y, In y L ->
  (next_fsz I Orc n L (density_fsz V) y - density_fsz V y = rsum L (fun x => density_fsz V x * transition_fsz I Orc n x y - density_fsz V y * transition_fsz I Orc n y x))%R.
Proof.
  intros HL (Hnd & Hd & Hcov) y Hy. unfold next_fsz. rewrite rsum_sub, (rsum_scal L (density_fsz V y)).
  unfold transition_fsz at 3. rewrite (leaving_sum (same_idx_spn Ne) n ftW L (step_fsz I Orc n y)); [ring| | |exact Hnd|].
  - intros l p w1 a Hl E _. destruct (step_fsz_facts y l p w1 a (HL y Hy) E) as (_ & ->). apply Rmult_le_pos; [apply pow_le, Cmod_ge_0|]. left. apply Rinv_0_lt_compat. now apply density_fsz_pos, HL.
  - intros a b Ha Hb w1 E1 E2. apply Hd; try assumption. now apply (same_eq_fsz w1).
  - intros l p w1 a Hl E Hp Ha. now apply (Hcov y l p w1 a).
Qed.
Lemma near_stationary_fsz L : (forall x, In x L -> legal_fsz I V x) -> closed_fsz I Orc n L -> forall y, In y L ->
  (Rabs (next_fsz I Orc n L (density_fsz V) y - density_fsz V y) <= rsum L (fun x => Rmax (density_fsz V x) (density_fsz V y)) * bias n N)%R.
Proof.
  intros HL Hcl y Hy. rewrite (flow_fsz L HL Hcl y Hy). rewrite <- rsum_scal_r. apply rsum_abs_le. intros x Hx. apply near_balance_fsz; now apply HL.
Qed.
Lemma stationary_fsz L : wordsize mod N = 0 -> (forall x, In x L -> legal_fsz I V x) -> closed_fsz I Orc n L -> forall y, In y L -> next_fsz I Orc n L (density_fsz V) y = density_fsz V y.
Proof.
  intros HB HL Hcl y Hy. assert (E := flow_fsz L HL Hcl y Hy). rewrite rsum_zero in E; [lra|]. intros x Hx. rewrite (balance_fsz x y HB); [ring| |]; now apply HL.
Qed.
End B.
