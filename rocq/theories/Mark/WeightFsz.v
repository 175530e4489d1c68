(** General spins: the weight of a proposal is the ratio of the probabilities. *)
From Coq Require Import ZArith List Bool Lia Reals Lra FunctionalExtensionality.
From Coquelicot Require Import Complex.
From Verif Require Import Base.ZLoop Base.Checked Base.RSum Proj.Model Proj.Spec Proj.Proofs Pf.Pfaffian Pf.Model Pf.Spec Pf.Proofs Slater.Model Slater.Spec Slater.Proofs Slater.ProofsElm
  Rbm.Spec Green.Model Green.Spec Green.Core Fsz.Model Fsz.Spec Fsz.ProofsPf Fsz.ProofsElm Fsz.ProofsDer Gfz.Model Gfz.Spec Gfz.Anti Gfz.Proofs
  Samp.Prog Samp.Model Samp.Spec Mark.Model Mark.Spec Mark.Weight Mark.ReverseFsz.
Import ListNotations.
Local Open Scope Z_scope.

Section W.
Variable V : fwave.
Hypothesis HV : wf_fwave V.
Let N := fsites V.
Let Ne := Slater.Model.Ne (fS V).
Let L := flabels V.
Variables (G : env) (w : walker) (ip : C).
Hypothesis HS : sampled_fsz V G w ip.
Hypothesis Hlog : is_log (gclog G).
Let Hc : consistent_fsz N Ne w := sf_tables _ _ _ _ HS.
Let X := config V w.
Let e := Samp.Model.eleNum w.
Let idx := Samp.Model.eleIdx w.
Let spn := Samp.Model.eleSpn w.
Let cfg := Samp.Model.eleCfg w.

Lemma weight_moved i s e' p pfm : placed N (2 * Ne) i s -> (forall c, 0 <= c < 2 * N -> occ_at L (spin_orbital N i s) e' c) -> is_proj_cnt (fT V) e' p ->
  (forall q, 0 <= q < gNQPFull G - 0 -> pfm q = pf (pair_matrix_fsz N (gSl G) (q + 0) i s) L) ->
  metropolis_weight G (RtoC (log_proj_ratio G p (eleProjCnt w))) (calculate_ip (gA G) 0 (gNQPFull G) pfm) (gclog G ip)
   = ((Cmod (fpsi V (spin_orbital N i s)) / Cmod (fpsi V X)) ^ 2)%R.
Proof.
  intros Hp Ho Hq Hpf. rewrite metropolis_ok; [|exact Hlog|apply (sf_nz _ _ _ _ HS)]. f_equal.
  rewrite <- Cmod_div by (apply (fpsi_nz V HV G w ip HS)). assert (R := ratio_fsz V HV G w ip HS i s e' p pfm Hp Ho Hq Hpf). fold N X in R. rewrite <- R.
  rewrite Cmod_div by (apply (sf_nz _ _ _ _ HS)). rewrite Cmod_mult, Cmod_R. unfold proj_ratio, log_proj_ratio. rewrite Rabs_pos_eq by (left; apply exp_pos). reflexivity.
Qed.
Definition put_in (mi ri rj s t : Z) (v : walker) : walker :=
  Walker (upd (Samp.Model.eleIdx v) mi rj) (upd (upd (Samp.Model.eleCfg v) (ri + s * N) (-1)) (rj + t * N) mi)
    (upd (upd (Samp.Model.eleNum v) (ri + s * N) 0) (rj + t * N) 1) (eleProjCnt v) (upd (Samp.Model.eleSpn v) mi t).
Lemma free_num r s : 0 <= r < N -> 0 <= s <= 1 -> cfg (r + s * N) = -1 -> e (r + s * N) = 0.
Proof. intros Hr Hs E. destruct (f_site _ _ _ Hc r s Hr Hs) as [(_ & Z1)|(m & Z1 & Z2 & _)]; [exact Z1|fold cfg in Z2; lia]. Qed.
Lemma elec_num m r s : 0 <= m < 2 * Ne -> idx m = r -> spn m = s -> 0 <= r < N -> 0 <= s <= 1 -> e (r + s * N) = 1 /\ cfg (r + s * N) = m.
Proof.
  intros Hm E1 E2 Hr Hs. destruct (f_elec _ _ _ Hc m Hm) as (r0 & s0 & A1 & A2 & _ & _ & A3). fold idx in A1. fold spn in A2. rewrite <- A1, <- A2, E1, E2 in A3. fold cfg in A3. split; [|exact A3].
  destruct (f_site _ _ _ Hc r s Hr Hs) as [(Z1 & _)|(m' & _ & _ & Z1 & _)]; [fold cfg in Z1; lia|exact Z1].
Qed.
Lemma one_fsz_ok b mi ri rj s t : 0 <= mi < 2 * Ne -> 0 <= s <= 1 -> 0 <= t <= 1 -> 0 <= ri < N -> 0 <= rj < N -> idx mi = ri -> spn mi = s -> cfg (rj + t * N) = -1 ->
  one_weight_fsz G b w (gclog G ip) mi ri rj s t (put_in mi ri rj s t w) = Some ((Cmod (fpsi V (config V (put_in mi ri rj s t w))) / Cmod (fpsi V X)) ^ 2)%R.
Proof.
  intros Hm Hs Ht Hi Hj Ei Es Ef. destruct (elec_num mi ri s Hm Ei Es Hi Hs) as (E1 & Ec). assert (E0 := free_num rj t Hj Ht Ef).
  unfold one_weight_fsz, put_in. cbn [Samp.Model.eleIdx Samp.Model.eleNum Samp.Model.eleSpn]. fold e idx spn.
  change (upd (upd e (ri + s * N) 0) (rj + t * N) 1) with (hop N ri s rj t e).
  assert (Hlh : legal_hop N ri s rj t e) by (repeat split; try lia; left; exact E0).
  assert (Ho1 : occ01 N e) by (apply (occ01_of V w X), (x_occ V HV G w ip HS)).
  assert (Q : exists p, (if s =? t then update_proj_cnt (gT G) ri rj s false (cntBuf b) (eleProjCnt w) (hop N ri s rj t e)
    else update_proj_cnt_fsz (gT G) ri rj s t false (cntBuf b) (eleProjCnt w) (hop N ri s rj t e)) = Some p /\ is_proj_cnt (fT V) (hop N ri s rj t e) p).
  { rewrite (ld_T _ _ (sf_loaded _ _ _ _ HS)). destruct (Z.eqb_spec s t) as [Est|Est].
    - subst t. destruct (update_correct (fT V) (Gfz.Spec.wf_T V HV) ri rj s false (cntBuf b) (eleProjCnt w) e) as (p & Ep & Hp & _); rewrite ?(Gfz.Spec.wf_sites V HV); try assumption; [apply (sf_cnt _ _ _ _ HS)|].
      rewrite (Gfz.Spec.wf_sites V HV) in Ep, Hp. eauto.
    - destruct (update_correct_gen (fT V) (Gfz.Spec.wf_T V HV) ri s rj t false (cntBuf b) (eleProjCnt w) e) as (p & Ep & Hp & _); rewrite ?(Gfz.Spec.wf_sites V HV); try assumption; [apply (sf_cnt _ _ _ _ HS)|].
      rewrite (Gfz.Spec.wf_sites V HV) in Ep, Hp. eauto. }
  destruct Q as (p & Ep & Hp). rewrite Ep. cbn [bind]. f_equal.
  unfold config. cbn [Samp.Model.eleIdx Samp.Model.eleSpn]. fold N.
  assert (SS : site_spin N rj t) by (split; assumption).
  apply (weight_moved (upd idx mi rj) (upd spn mi t) (hop N ri s rj t e)).
  - apply Fsz.ProofsPf.placed_upd; [exact (x_placed V G w ip HS)|now apply (place_of V w)].
  - intros c Hcc. rewrite spin_orbital_upd. assert (Hmi : In mi L) by (now apply zrange_in).
    assert (Hx : X mi = ri + s * N) by (unfold X, config, spin_orbital; fold idx spn N; now rewrite Ei, Es).
    apply (occ_move L (2 * N) X e mi (rj + t * N) (ri + s * N)); try assumption; [exact (x_inj V G w ip HS)|exact (x_occ V HV G w ip HS)|now apply (range_of V w)|]. intros Z0. rewrite Z0 in E0. congruence.
  - exact Hp.
  - intros q Hq. rewrite (ld_N _ _ (sf_loaded _ _ _ _ HS)), (ld_Ne _ _ (sf_loaded _ _ _ _ HS)).
    apply (one_calc N Ne (fNe_pos V HV) (gSl G) idx spn (gInvM G) (gPfM G) (pfBuf b) mi rj t 0 (gNQPFull G)); try assumption; [exact (tab_skew V HV G w ip HS)|now apply (place_of V w)|exact (x_placed V G w ip HS)|apply (sf_mat _ _ _ _ HS)].
Qed.
Lemma two_fsz_ok b mi mj ri rj s : 0 <= mi < 2 * Ne -> 0 <= mj < 2 * Ne -> 0 <= s <= 1 -> 0 <= ri < N -> 0 <= rj < N -> idx mi = ri -> spn mi = s -> idx mj = rj -> spn mj = 1 - s ->
  cfg (rj + s * N) = -1 -> cfg (ri + (1 - s) * N) = -1 ->
  let w1 := put_in mi ri rj s s w in let w2 := put_in mj rj ri (1 - s) (1 - s) w1 in
  two_weight_fsz G b w (gclog G ip) mi mj ri rj s w1 w2 = Some ((Cmod (fpsi V (config V w2)) / Cmod (fpsi V X)) ^ 2)%R.
Proof.
  intros Hmi Hmj Hs Hi Hj Ei Es Ej Esj Fj Fi w1 w2. set (t := 1 - s) in *. assert (Ht : 0 <= t <= 1) by (unfold t; lia).
  destruct (elec_num mi ri s Hmi Ei Es Hi Hs) as (E1 & Ec1). destruct (elec_num mj rj t Hmj Ej Esj Hj Ht) as (E2 & Ec2).
  assert (F1 := free_num rj s Hj Hs Fj). assert (F2 := free_num ri t Hi Ht Fi).
  assert (SI : site_spin N ri t) by (split; assumption). assert (SJ : site_spin N rj s) by (split; assumption).
  set (a := ri + t * N) in *. set (b0 := rj + t * N) in *. set (c := rj + s * N) in *. set (d := ri + s * N) in *.
  assert (Ncd : c <> d) by (intros Z0; rewrite Z0 in F1; congruence). assert (Nab : a <> b0) by (intros Z0; rewrite Z0 in F2; congruence).
  assert (Nst : s <> t) by (unfold t; lia).
  assert (Nac : a <> c) by (intros Z0; apply (same_of V w) in Z0; [destruct Z0; congruence|exact SI|exact SJ]).
  assert (Nbc : b0 <> c) by (intros Z0; rewrite Z0 in E2; congruence). assert (Nad : a <> d) by (intros Z0; rewrite Z0 in F2; congruence).
  assert (Nbd : b0 <> d) by (intros Z0; apply (same_of V w) in Z0; [destruct Z0; congruence|split; assumption|split; assumption]).
  assert (Hm : mi <> mj) by (intros Z0; rewrite Z0 in Es; congruence).
  assert (Ra := range_of V w _ _ SI). assert (Rc := range_of V w _ _ SJ). fold N a in Ra. fold N c in Rc.
  assert (Xi : X mi = d) by (unfold X, config, spin_orbital; fold idx spn N; now rewrite Ei, Es).
  assert (Xj : X mj = b0) by (unfold X, config, spin_orbital; fold idx spn N; now rewrite Ej, Esj).
  assert (Li : In mi L) by (now apply zrange_in). assert (Lj : In mj L) by (now apply zrange_in).
  unfold two_weight_fsz, w2, w1, put_in. cbn [Samp.Model.eleIdx Samp.Model.eleNum Samp.Model.eleSpn]. fold t. fold a b0 c d. fold e idx spn.
  assert (Ho0 : occ01 N e) by (apply (occ01_of V w X), (x_occ V HV G w ip HS)).
  assert (Hlh : legal_hop N ri s rj s e) by (repeat split; first [exact E1|left; exact F1|lia]).
  change (upd (upd e d 0) c 1) with (hop N ri s rj s e). rewrite (ld_T _ _ (sf_loaded _ _ _ _ HS)).
  destruct (update_correct (fT V) (Gfz.Spec.wf_T V HV) ri rj s false (cntBuf b) (eleProjCnt w) e) as (p & Ep & Hp & _); rewrite ?(Gfz.Spec.wf_sites V HV); try assumption; [apply (sf_cnt _ _ _ _ HS)|].
  rewrite (Gfz.Spec.wf_sites V HV) in Ep, Hp. fold N in Ep, Hp. rewrite Ep. cbn [bind]. set (e1 := hop N ri s rj s e) in *.
  assert (X1 : forall m1 m2, In m1 L -> In m2 L -> upd X mi c m1 = upd X mi c m2 -> m1 = m2).
  { apply (moved_unique L X (x_inj V G w ip HS) e c); try assumption. exact (x_occ V HV G w ip HS c Rc). }
  assert (Occ1 : forall y, 0 <= y < 2 * N -> occ_at L (upd X mi c) e1 y) by (apply (occ_move L (2 * N) X e mi c d); try assumption; [exact (x_inj V G w ip HS)|exact (x_occ V HV G w ip HS)]).
  assert (Eb1 : e1 b0 = 1) by (unfold e1, hop; fold c d; rewrite !upd_other by assumption; exact E2).
  assert (Ea1 : e1 a = 0) by (unfold e1, hop; fold c d; rewrite !upd_other by assumption; exact F2).
  assert (Hlh1 : legal_hop N rj t ri t e1) by (repeat split; first [exact Eb1|left; exact Ea1|lia]).
  assert (Ho1 : occ01 N e1) by (apply (occ01_of V w (upd X mi c)), Occ1).
  change (upd (upd e1 b0 0) a 1) with (hop N rj t ri t e1).
  destruct (update_correct (fT V) (Gfz.Spec.wf_T V HV) rj ri t true p p e1) as (p' & Ep' & Hp' & _); rewrite ?(Gfz.Spec.wf_sites V HV); try assumption.
  rewrite (Gfz.Spec.wf_sites V HV) in Ep', Hp'. fold N in Ep', Hp'. rewrite Ep'. cbn [bind]. f_equal.
  assert (Occ2 : forall y, 0 <= y < 2 * N -> occ_at L (upd (upd X mi c) mj a) (hop N rj t ri t e1) y).
  { apply (occ_move L (2 * N) (upd X mi c) e1 mj a b0); try assumption. rewrite upd_other by congruence. exact Xj. }
  assert (EX : upd (upd X mi c) mj a = spin_orbital N (upd (upd idx mi rj) mj ri) (upd (upd spn mi s) mj t)) by (rewrite !spin_orbital_upd; reflexivity).
  unfold config. cbn [Samp.Model.eleIdx Samp.Model.eleSpn]. fold N.
  apply (weight_moved _ _ (hop N rj t ri t e1)).
  - apply Fsz.ProofsPf.placed_upd; [|now apply (place_of V w)]. apply Fsz.ProofsPf.placed_upd; [exact (x_placed V G w ip HS)|now apply (place_of V w)].
  - intros y Hy. rewrite <- EX. now apply Occ2.
  - exact Hp'.
  - intros q Hq. rewrite (ld_N _ _ (sf_loaded _ _ _ _ HS)), (ld_Ne _ _ (sf_loaded _ _ _ _ HS)).
    apply (two_calc N Ne (fNe_pos V HV) (gSl G) idx spn (gInvM G) (gPfM G) (pfBuf b) mi rj s mj ri t 0 (gNQPFull G)); try assumption;
      [exact (tab_skew V HV G w ip HS)|congruence|now apply (place_of V w)|now apply (place_of V w)|exact (x_placed V G w ip HS)|apply (sf_mat _ _ _ _ HS)].
Qed.
End W.
