(** Fixed spins: detailed balance. *)
From Coq Require Import ZArith List Bool Lia Reals Lra FunctionalExtensionality.
From Coquelicot Require Import Complex.
From Verif Require Import Base.ZLoop Base.Checked Base.RSum Proj.Model Proj.Spec Pf.Pfaffian Pf.Spec Slater.Model Slater.Spec
  Rbm.Spec Green.Model Green.Spec Green.Anti Green.Moves Green.Core
  Samp.Prog Samp.Model Samp.Spec Samp.Config Mark.Model Mark.Spec Mark.Words Mark.Reverse Mark.ReverseStd Mark.Weight Mark.Chain.
Import ListNotations.
Local Open Scope Z_scope.

Lemma psi_same V x y : (forall m, In m (labels V) -> x m = y m) -> psi V x = psi V y.
Proof.
  intros H. assert (O : forall m, In m (labels V) -> orb V x m = orb V y m) by (intros m Hm; unfold orb, orbital; now rewrite H).
  assert (E : occupation V x = occupation V y).
  { apply functional_extensionality. intros rs. unfold occupation. replace (existsb (fun m => orb V x m =? rs) (labels V)) with (existsb (fun m => orb V y m =? rs) (labels V)); [reflexivity|].
    clear H. induction (labels V) as [|m l IH]; [reflexivity|]. cbn [existsb]. rewrite O by now left. f_equal. apply IH. intros; apply O; now right. }
  unfold psi. rewrite E. f_equal. unfold pairs, amplitude. apply csum_ext. intros o _. apply csum_ext. intros m _. apply csum_ext. intros s _. f_equal.
  unfold pfaffian. apply (pf_ext _ _ _ _ (le_n _)). intros i j Hi Hj. fold (labels V) in Hi, Hj. assert (Oi := O i Hi). assert (Oj := O j Hj). unfold orb, sites in Oi, Oj. now rewrite Oi, Oj.
Qed.
Lemma stream_self Orc : with_stream Orc (rnd Orc) (fuel Orc) = Orc. Proof. now destruct Orc. Qed.

Section B.
Variable I : input.
Variable V : wave.
Hypothesis wf : wf_input I.
Hypothesis HV : wf_wave V.
Hypothesis HF : fits I V.
Notation N := (Proj.Model.Nsite (T I)).
Notation Ne := (Samp.Model.Ne I).
Lemma N_eq : N = sites V. Proof. destruct HF as (-> & _). apply (wv_sites V HV). Qed.
Lemma Ne_eq : Ne = Slater.Model.Ne (vS V). Proof. apply HF. Qed.
Lemma state_consistent K w rcnt ip : sampled V K w rcnt ip -> consistent N Ne w.
Proof. intros H. rewrite N_eq, Ne_eq. apply (sa_tables _ _ _ _ _ H). Qed.

Lemma weight_stream Orc n r K w rcnt ip b q p c : sampled V K w rcnt ip -> propose I (with_stream Orc r n) w q = Some (p, c) ->
  proposed c = None \/ exists w1, proposed c = Some w1 /\ weight (env_of V K) b w rcnt (sclog K ip) c = Some ((Cmod (psi V (Samp.Model.eleIdx w1)) / Cmod (psi V (Samp.Model.eleIdx w))) ^ 2)%R.
Proof.
  intros HS E. assert (Hc := state_consistent _ _ _ _ HS). unfold propose in E.
  destruct (get_update_type I (with_stream Orc r n) q) as (q1, ut). destruct ut; [| |injection E as _ <-; now left|injection E as _ <-; now left].
  - unfold propose_hop in E. destruct (eval (make_candidate_hopping I (with_stream Orc r n) w q1)) as [((p1, (((mi, ri), rj), s)), flag)|] eqn:Em; [|discriminate]. cbn [bind] in E.
    destruct (Z.eqb_spec flag 1) as [Ef|Ef]; [injection E as _ <-; now left|]. apply eval_some in Em.
    destruct (hop_info _ _ wf _ _ w _ _ _ _ _ _ _ Hc Em Ef) as (p0 & [F1 F2 F3 F4 F5 F6 F7 F8 F9 F10] & -> & Et).
    rewrite (update_eval I Orc wf n r mi ri rj s w F1 F2 F3 F4) in E. cbn [eval bind] in E.
    assert (X : one_weight (env_of V K) b w rcnt (sclog K ip) mi ri rj s (hopped V mi ri rj s w) = Some ((Cmod (psi V (Samp.Model.eleIdx (hopped V mi ri rj s w))) / Cmod (psi V (Samp.Model.eleIdx w))) ^ 2)%R).
    { rewrite N_eq, Ne_eq in *. now apply one_ok. }
    right. rewrite N_eq, Ne_eq in E. fold (hopped V mi ri rj s w) in E. remember (hopped V mi ri rj s w) as w1. injection E as -> <-. exists w1. split; [reflexivity|exact X].
  - unfold propose_exchange in E. destruct (eval (make_candidate_exchange I (with_stream Orc r n) w q1)) as [(p1, [(((mi, ri), rj), s)|])|] eqn:Em; [| |discriminate]; cbn [bind] in E; [|injection E as _ <-; now left].
    apply eval_some in Em. destruct (exchange_info _ _ wf _ w Hc _ _ _ _ _ _ _ Em) as (A1 & A2 & A3 & A4 & A5 & A6 & A7 & mj & A8 & A9 & A10).
    rewrite rd_ok in E by nia. cbn [bind] in E. rewrite A9 in E. rewrite (update_eval I Orc wf n r mi ri rj s w) in E by assumption. cbn [eval bind] in E.
    rewrite (update_eval I Orc wf n r mj rj ri (1 - s)) in E by (assumption || lia). cbn [eval bind] in E.
    assert (X : two_weight (env_of V K) b w rcnt (sclog K ip) mi mj ri rj s (hopped V mi ri rj s w) (hopped V mj rj ri (1 - s) (hopped V mi ri rj s w))
      = Some ((Cmod (psi V (Samp.Model.eleIdx (hopped V mj rj ri (1 - s) (hopped V mi ri rj s w)))) / Cmod (psi V (Samp.Model.eleIdx w))) ^ 2)%R).
    { rewrite N_eq, Ne_eq in *. now apply two_ok. }
    right. rewrite N_eq, Ne_eq in E. fold (hopped V mi ri rj s w) in E. fold (hopped V mj rj ri (1 - s) (hopped V mi ri rj s w)) in E.
    remember (hopped V mi ri rj s w) as w1. remember (hopped V mj rj ri (1 - s) w1) as w2. injection E as -> <-. exists w2. split; [reflexivity|exact X].
Qed.
Lemma weight_ok Orc K w rcnt ip b q p c w1 : sampled V K w rcnt ip -> propose I Orc w q = Some (p, c) -> proposed c = Some w1 ->
  weight (env_of V K) b w rcnt (sclog K ip) c = Some ((Cmod (psi V (Samp.Model.eleIdx w1)) / Cmod (psi V (Samp.Model.eleIdx w))) ^ 2)%R.
Proof.
  intros HS E Ec. destruct (weight_stream Orc (fuel Orc) (rnd Orc) K w rcnt ip b q p c HS) as [X|(w1' & X & Y)]; [now rewrite stream_self|congruence|].
  rewrite Ec in X. injection X as <-. exact Y.
Qed.

Variable Orc : oracles.
Variable n : nat.
Lemma density_pos x : legal V x -> (0 < density V x)%R.
Proof.
  intros H. unfold density. apply pow_lt. apply Cmod_gt_0. exact (psi_nz V HV (stW x) (sa_tables _ _ _ _ _ H) (stK x) (stCnt x) (stIp x) H).
Qed.
Lemma step_facts x l p w1 a : legal V x -> step I V Orc n x (word_at l) = Some (p, Some (w1, a)) ->
  (exists c, propose I (with_stream Orc (word_at l) n) (stW x) 0 = Some (p, c) /\ proposed c = Some w1) /\ a = ((Cmod (psi V (Samp.Model.eleIdx w1))) ^ 2 / density V x)%R.
Proof.
  intros Hx E. unfold step in E. destruct (propose I (with_stream Orc (word_at l) n) (stW x) 0) as [(p', c)|] eqn:Ep; [|discriminate].
  destruct (proposed c) as [w1'|] eqn:Ec; [|discriminate]. rewrite (weight_ok _ _ _ _ _ (stBuf x) _ _ _ _ Hx Ep Ec) in E.
  assert (P := density_pos x Hx). assert (Q : (Cmod (psi V (Samp.Model.eleIdx (stW x))) <> 0)%R) by (intros Z0; unfold density in P; rewrite Z0 in P; cbn in P; lra).
  match type of E with Some (_, Some (_, ?v)) = _ => remember v as vv eqn:Hv end. injection E as -> -> <-. split; [eauto|]. rewrite Hv. unfold density. unfold Rdiv. rewrite Rpow_mult_distr. f_equal. now rewrite pow_inv.
Qed.
Lemma step_of x l p c w1 : legal V x -> propose I (with_stream Orc (word_at l) n) (stW x) 0 = Some (p, c) -> proposed c = Some w1 ->
  step I V Orc n x (word_at l) = Some (p, Some (w1, ((Cmod (psi V (Samp.Model.eleIdx w1))) ^ 2 / density V x)%R)).
Proof.
  intros Hx Ep Ec. unfold step. rewrite Ep, Ec, (weight_ok _ _ _ _ _ (stBuf x) _ _ _ _ Hx Ep Ec). do 3 f_equal. f_equal.
  assert (P := density_pos x Hx). assert (Q : (Cmod (psi V (Samp.Model.eleIdx (stW x))) <> 0)%R) by (intros Z0; unfold density in P; rewrite Z0 in P; cbn in P; lra).
  unfold density. unfold Rdiv. rewrite Rpow_mult_distr. f_equal. now rewrite pow_inv.
Qed.
Lemma same_psi w1 w2 : same_idx Ne w1 w2 = true -> psi V (Samp.Model.eleIdx w1) = psi V (Samp.Model.eleIdx w2).
Proof. intros H. apply psi_same. intros m Hm. unfold labels in Hm. apply zrange_in in Hm. apply (proj1 (same_idx_spec _ _ _) H). now rewrite Ne_eq. Qed.
Lemma half_balance x y : legal V x -> legal V y -> (density V x * transition I V Orc n x y <= density V y * transition I V Orc n y x + density V x * bias n N)%R.
Proof.
  intros Hx Hy. assert (Cx := state_consistent _ _ _ _ Hx). assert (Cy := state_consistent _ _ _ _ Hy).
  unfold transition. apply chance_le with (N := N) (bk := back I Orc n (stW x) (stW y)) (a1 := (density V y / density V x)%R) (a2 := (density V x / density V y)%R).
  - exact (Samp.Spec.wf_sites I wf).
  - intros l Hl. now apply back_words.
  - intros l p w1 a Hl Hgd E Hp Hs. destruct (step_facts x l p w1 a Hx E) as ((c & Ep & Ec) & ->). rewrite (same_psi _ _ Hs). split; [reflexivity|].
    destruct (propose_reverse I Orc wf n (stW x) (stW y) Cx Cy l p c w1 Hl Hgd Ep Hp Ec Hs) as (c' & w1' & E1 & E2 & E3).
    exists w1'. rewrite (step_of y _ p c' w1' Hy E1 E2). rewrite (same_psi _ _ E3). split; [reflexivity|exact E3].
  - apply min_swap; now apply density_pos.
  - left. now apply density_pos.
  - left. now apply density_pos.
  - intros l p w1 a Hl E. destruct (step_facts y l p w1 a Hy E) as (_ & ->). apply Rmult_le_pos; [apply pow_le, Cmod_ge_0|]. left. apply Rinv_0_lt_compat. now apply density_pos.
Qed.
Lemma near_balance x y : legal V x -> legal V y ->
  (Rabs (density V x * transition I V Orc n x y - density V y * transition I V Orc n y x) <= Rmax (density V x) (density V y) * bias n N)%R.
Proof.
  intros Hx Hy. assert (H1 := half_balance x y Hx Hy). assert (H2 := half_balance y x Hy Hx). assert (B0 := bias_nonneg n N (Samp.Spec.wf_sites I wf)).
  assert (M1 := Rmult_le_compat_r _ _ _ B0 (Rmax_l (density V x) (density V y))). assert (M2 := Rmult_le_compat_r _ _ _ B0 (Rmax_r (density V x) (density V y))).
  apply Rabs_le. lra.
Qed.
Lemma balance x y : wordsize mod N = 0 -> legal V x -> legal V y -> (density V x * transition I V Orc n x y = density V y * transition I V Orc n y x)%R.
Proof. intros HB Hx Hy. assert (H1 := half_balance x y Hx Hy). assert (H2 := half_balance y x Hy Hx). rewrite (bias_0 n N HB) in *. lra. Qed.
Lemma same_eq w1 w2 w3 : same_idx Ne w1 w2 = true -> same_idx Ne w1 w3 = true -> same_idx Ne w2 w3 = true.
Proof. rewrite !same_idx_spec. intros H1 H2 m Hm. rewrite <- H1 by exact Hm. now apply H2. Qed.
Lemma flow L : (forall x, In x L -> legal V x) -> closed I V Orc n L -> forall y, In y L ->
  (next I V Orc n L (density V) y - density V y = rsum L (fun x => density V x * transition I V Orc n x y - density V y * transition I V Orc n y x))%R.
Proof.
  intros HL (Hnd & Hd & Hcov) y Hy. unfold next. rewrite rsum_sub, (rsum_scal L (density V y)).
  unfold transition at 3. rewrite (leaving_sum (same_idx Ne) n stW L (step I V Orc n y)); [ring| | |exact Hnd|].
  - intros l p w1 a Hl E _. destruct (step_facts y l p w1 a (HL y Hy) E) as (_ & ->). apply Rmult_le_pos; [apply pow_le, Cmod_ge_0|]. left. apply Rinv_0_lt_compat. now apply density_pos, HL.
  - intros a b Ha Hb w1 E1 E2. apply Hd; try assumption. now apply (same_eq w1).
  - intros l p w1 a Hl E Hp Ha. now apply (Hcov y l p w1 a).
Qed.
Lemma near_stationary L : (forall x, In x L -> legal V x) -> closed I V Orc n L -> forall y, In y L ->
  (Rabs (next I V Orc n L (density V) y - density V y) <= rsum L (fun x => Rmax (density V x) (density V y)) * bias n N)%R.
Proof.
  intros HL Hcl y Hy. rewrite (flow L HL Hcl y Hy). rewrite <- rsum_scal_r. apply rsum_abs_le. intros x Hx. apply near_balance; now apply HL.
Qed.
Lemma stationary L : wordsize mod N = 0 -> (forall x, In x L -> legal V x) -> closed I V Orc n L -> forall y, In y L -> next I V Orc n L (density V) y = density V y.
Proof.
  intros HB HL Hcl y Hy. assert (E := flow L HL Hcl y Hy). rewrite rsum_zero in E; [lra|]. intros x Hx. rewrite (balance x y HB); [ring| |]; now apply HL.
Qed.
End B.
