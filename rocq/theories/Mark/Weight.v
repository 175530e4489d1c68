(** Fixed spins: the weight of a proposal is the ratio of the probabilities. *)
From Coq Require Import ZArith List Bool Lia Reals Lra FunctionalExtensionality.
From Coquelicot Require Import Complex.
From Verif Require Import Base.ZLoop Base.Checked Base.RSum Proj.Model Proj.Spec Proj.Proofs Pf.Pfaffian Pf.Model Pf.Spec Pf.Proofs Pf.ProofsTwo Slater.Model Slater.Spec Slater.Proofs Slater.ProofsElm
  Rbm.Model Rbm.Spec Rbm.Proofs Rbm.ProofsRatio Green.Model Green.Spec Green.Anti Green.Moves Green.Core Green.Proofs
  Samp.Prog Samp.Model Samp.Spec Samp.Hoare Samp.Config Samp.Exch Mark.Model Mark.Spec Mark.Words Mark.Reverse Mark.ReverseStd.
Import ListNotations.
Local Open Scope Z_scope.

Lemma metropolis_ok G x ip ip0 : is_log (gclog G) -> ip0 <> RtoC 0 ->
  metropolis_weight G x ip (gclog G ip0) = ((exp (fst x) * Cmod ip / Cmod ip0) ^ 2)%R.
Proof.
  intros HL H0. assert (P0 := proj1 (Cmod_gt_0 _) H0). unfold metropolis_weight. destruct (Ceq_dec ip (RtoC 0)) as [->|Hn].
  - rewrite Cmod_0. field. lra.
  - assert (L : forall z, z <> RtoC 0 -> Cmod z = exp (fst (gclog G z))) by (intros z Hz; rewrite <- (HL z Hz) at 1; apply cexp_mod).
    rewrite (L ip Hn), (L ip0 H0). unfold Rdiv. rewrite <- exp_Ropp, <- !exp_plus. cbn [pow]. rewrite Rmult_1_r, <- exp_plus. f_equal.
    unfold Cminus, Cplus, Copp. cbn [fst snd]. ring.
Qed.

Section W.
Variable V : wave.
Hypothesis HV : wf_wave V.
Let N := sites V.
Let Ne := Slater.Model.Ne (vS V).
Variables (w : walker) (K : setting) (rcnt : Z -> C) (ip : C).
Hypothesis HS : sampled V K w rcnt ip.
Let Hc : consistent N Ne w := sa_tables _ _ _ _ _ HS.
Let x := Samp.Model.eleIdx w.
Let e := Samp.Model.eleNum w.
Let HN : 0 < N := N_pos V HV.
Let HNe : 0 < Ne := Ne_pos V HV.
Let G := env_of V K.
Let Sl := elements_of V (sopt0 K) (sE0 K).

Lemma log_ratio_mod p r : exp (fst (log_ratio G p (eleProjCnt w) r rcnt)) = Cmod (Cmult (RtoC (proj_ratio G p (eleProjCnt w))) (machine_part V K rcnt r)).
Proof.
  unfold log_ratio, machine_part. change (gFlagRBM G) with (vFlagRBM V). rewrite Cmod_mult, Cmod_R. unfold proj_ratio, log_proj_ratio.
  match goal with |- context [exp ?a] => match goal with |- context [Rabs (exp ?b)] => rewrite (Rabs_pos_eq (exp b)) by (left; apply exp_pos) end end.
  destruct (vFlagRBM V).
  - unfold rbm_ratio. rewrite cexp_mod, <- exp_plus. reflexivity.
  - rewrite Cmod_1, Rmult_1_r. reflexivity.
Qed.
Lemma weight_moves q p r pfm : clean V w q -> is_proj_cnt (vT V) (occs w q) p -> (vFlagRBM V = true -> is_rbm_cnt (vM V) (vRBM V) (occs w q) r) ->
  (forall k, 0 <= k < Slater.Model.NQPFull (vS V) -> pfm k = pf (pair_matrix N Ne Sl k (moves V w q)) (labels V)) ->
  metropolis_weight G (log_ratio G p (eleProjCnt w) r rcnt) (calculate_ip (gA G) 0 (gNQPFull G) pfm) (sclog K ip) = ((Cmod (psi V (moves V w q)) / Cmod (psi V x)) ^ 2)%R.
Proof.
  intros Hq Hp Hr Hpf. change (sclog K ip) with (gclog G ip). rewrite metropolis_ok; [|apply (sa_log _ _ _ _ _ HS)|apply (sa_nz _ _ _ _ _ HS)].
  rewrite log_ratio_mod. f_equal. rewrite <- Cmod_mult, <- Cmod_div by (apply (sa_nz _ _ _ _ _ HS)). rewrite <- Cmod_div by (apply (psi_nz V HV w Hc K rcnt ip HS)).
  f_equal. exact (ratio_moves V HV w Hc K rcnt ip HS q p r pfm Hq Hp Hr Hpf).
Qed.

Lemma elec_at m u r : 0 <= m < Ne -> 0 <= u <= 1 -> x (m + u * Ne) = r -> e (r + u * N) = 1 /\ Samp.Model.eleCfg w (r + u * N) = m.
Proof.
  intros Hm Hu Er. destruct (c_elec _ _ _ Hc m u Hm Hu) as (r0 & X1 & X2 & X3). fold x Ne in X1. rewrite X1 in Er. subst r0. split; [|exact X3].
  destruct (c_site _ _ _ Hc r u X2 Hu) as [(Y & _)|(m' & _ & _ & Y & _)]; [lia|exact Y].
Qed.
Definition hopped (mi ri rj s : Z) (v : walker) : walker :=
  Walker (upd (Samp.Model.eleIdx v) (mi + s * Ne) rj) (upd (upd (Samp.Model.eleCfg v) (ri + s * N) (-1)) (rj + s * N) mi)
    (upd (upd (Samp.Model.eleNum v) (ri + s * N) 0) (rj + s * N) 1) (eleProjCnt v) (eleSpn v).
Lemma one_ok b mi ri rj s : 0 <= mi < Ne -> 0 <= s <= 1 -> 0 <= ri < N -> 0 <= rj < N -> x (mi + s * Ne) = ri -> Samp.Model.eleCfg w (rj + s * N) = -1 ->
  one_weight G b w rcnt (sclog K ip) mi ri rj s (hopped mi ri rj s w) = Some ((Cmod (psi V (Samp.Model.eleIdx (hopped mi ri rj s w))) / Cmod (psi V x)) ^ 2)%R.
Proof.
  intros Hm Hs Hi Hj Ei Ef. assert (Hop := op_of V HV w K rj ri s Hj Hi Hs).
  destruct (orbit_of V HV w K ri s Hi Hs) as (Oi & Di & Mi), (orbit_of V HV w K rj s Hj Hs) as (Oj & Dj & Mj).
  fold N in Oi, Di, Mi, Oj, Dj, Mj, Hop.
  assert (E2 := elec_at mi s ri Hm Hs Ei).
  destruct E2 as (E2 & Ecf).
  assert (E1 : e (rj + s * N) = 0). { destruct (c_site _ _ _ Hc rj s Hj Hs) as [(_ & X)|(m & X1 & X2 & _)]; [exact X|fold N in X2; lia]. }
  assert (Hab : rj + s * N <> ri + s * N) by (intros X; rewrite X in E1; congruence).
  assert (Hcl : clean V w [(rj + s * N, ri + s * N)]) by (apply step_clean; [exact Hop|exact I|intros o []|exact E2|exact Hab|intros o []|exact E1]).
  destruct (elec V HV w K rcnt ip HS ri s Hi Hs E2) as (He & Hl & Hm' & Hx). fold N Ne in He, Hl, Hm', Hx. rewrite Ecf in He, Hl, Hm'.
  unfold one_weight, hopped. cbn [Samp.Model.eleIdx Samp.Model.eleNum]. fold e. set (e1 := upd (upd e (ri + s * N) 0) (rj + s * N) 1).
  destruct (wv_sites V HV) as (S1 & S2). fold N in S1, S2.
  assert (Hlh : legal_hop N ri s rj s e) by (repeat split; try lia; left; exact E1).
  assert (Ho1 : occ01 N e) by (apply (e_01 V HV w Hc)).
  destruct (update_correct (vT V) (wv_T V HV) ri rj s false (cntBuf b) (eleProjCnt w) e) as (p & Ep & Hp & _); rewrite ?S1; try assumption; [apply (sa_cnt _ _ _ _ _ HS)|].
  rewrite S1 in Ep, Hp. change (hop N ri s rj s e) with e1 in Ep, Hp. change (gT G) with (vT V). rewrite Ep. cbn [bind].
  assert (Q : exists r, (if gFlagRBM G then update_rbm_cnt (gM G) (gRBM G) ri rj s false (rbmBuf b) rcnt e1 else Some (rbmBuf b)) = Some r /\ (vFlagRBM V = true -> is_rbm_cnt (vM V) (vRBM V) e1 r)).
  { change (gFlagRBM G) with (vFlagRBM V). change (gM G) with (vM V). change (gRBM G) with (vRBM V). destruct (vFlagRBM V) eqn:F.
    - destruct (hop_update (vM V) (wv_M V HV) (vRBM V) e ri s rj false (rbmBuf b) rcnt e1) as (r & Er & Hr); [now apply (sa_rcnt _ _ _ _ _ HS)|rewrite S2; exact Hlh|].
      rewrite S2 in Hr. exists r. split; [exact Er|]. intros _. exact Hr.
    - exists (rbmBuf b). split; [reflexivity|discriminate]. }
  destruct Q as (r & Er & Hr). rewrite Er. cbn [bind]. f_equal.
  assert (Emv : moves V w [(rj + s * N, ri + s * N)] = upd x (mi + s * Ne) rj).
  { cbn [moves]. fold N. rewrite Mj. rewrite Hl. reflexivity. }
  fold x. rewrite <- Emv.
  apply weight_moves; [exact Hcl|exact Hp|exact Hr|].
  intros q Hq. rewrite Emv. rewrite <- (Z.add_0_r q) at 2.
  apply (calc_one N Ne HNe Sl x (gInvM G) (gPfM G) (pfBuf b) mi s rj 0 (gNQPFull G)); [|exact He|exact Hj|exact (lat V HV w K rcnt ip HS)|apply (sa_mat _ _ _ _ _ HS)|change (gNQPFull G) with (Slater.Model.NQPFull (vS V)); lia].
  intros q' Hq'. apply (skew V HV K). change (gNQPFull G) with (Slater.Model.NQPFull (vS V)) in Hq'. lia.
Qed.

Lemma two_ok b mi mj ri rj s : 0 <= mi < Ne -> 0 <= mj < Ne -> 0 <= s <= 1 -> 0 <= ri < N -> 0 <= rj < N -> x (mi + s * Ne) = ri -> x (mj + (1 - s) * Ne) = rj ->
  Samp.Model.eleCfg w (rj + s * N) = -1 -> Samp.Model.eleCfg w (ri + (1 - s) * N) = -1 ->
  let w1 := hopped mi ri rj s w in let w2 := hopped mj rj ri (1 - s) w1 in
  two_weight G b w rcnt (sclog K ip) mi mj ri rj s w1 w2 = Some ((Cmod (psi V (Samp.Model.eleIdx w2)) / Cmod (psi V x)) ^ 2)%R.
Proof.
  intros Hmi Hmj Hs Hi Hj Exi Exj Fj Fi w1 w2. set (t := 1 - s) in *. assert (Ht : 0 <= t <= 1) by (unfold t; lia).
  assert (O1 := op_of V HV w K ri rj t Hi Hj Ht). assert (O2 := op_of V HV w K rj ri s Hj Hi Hs).
  destruct (orbit_of V HV w K ri t Hi Ht) as (Oa & Da & Ma), (orbit_of V HV w K rj t Hj Ht) as (Ob & Db & Mb), (orbit_of V HV w K rj s Hj Hs) as (Oc & Dc & Mc), (orbit_of V HV w K ri s Hi Hs) as (Od & Dd & Md).
  fold N in O1, O2, Oa, Da, Ma, Ob, Db, Mb, Oc, Dc, Mc, Od, Dd, Md. set (a := ri + t * N) in *. set (b0 := rj + t * N) in *. set (c := rj + s * N) in *. set (d := ri + s * N) in *.
  assert (X := elec_at).
  destruct (X mi s ri Hmi Hs Exi) as (Ed & Cd). destruct (X mj t rj Hmj Ht Exj) as (Eb & Cb). fold d in Ed, Cd. fold b0 in Eb, Cb.
  assert (Y : forall r u, 0 <= r < N -> 0 <= u <= 1 -> Samp.Model.eleCfg w (r + u * N) = -1 -> e (r + u * N) = 0).
  { intros r u Hr Hu Ec. destruct (c_site _ _ _ Hc r u Hr Hu) as [(_ & Z1)|(m & Z1 & Z2 & _)]; [exact Z1|fold N in Z2; lia]. }
  assert (Ec := Y rj s Hj Hs Fj). assert (Ea := Y ri t Hi Ht Fi). fold c in Ec. fold a in Ea.
  assert (D : s <> t) by (unfold t; lia).
  assert (Dad : a <> d) by (intros E; rewrite <- E in Dd; congruence). assert (Dbc : b0 <> c) by (intros E; rewrite E in Db; congruence).
  assert (Dcd : c <> d) by congruence. assert (Dbd : b0 <> d) by (intros E; rewrite E in Db; congruence). assert (Dab : a <> b0) by congruence. assert (Dac : a <> c) by (intros E; rewrite E in Da; congruence).
  assert (Hcl := two_clean V HV w K rcnt ip HS a b0 c d O1 O2 Dcd Dbc Dbd Dab Dac Ea Eb Ec Ed).
  destruct (elec V HV w K rcnt ip HS rj t Hj Ht Eb) as (Heb & Hlb & Hmb & Hxb). destruct (elec V HV w K rcnt ip HS ri s Hi Hs Ed) as (Hed & Hld & Hmd & Hxd).
  fold N Ne in Heb, Hlb, Hmb, Hxb, Hed, Hld, Hmd, Hxd. fold b0 in Heb, Hlb, Hmb, Hxb. fold d in Hed, Hld, Hmd, Hxd. rewrite Cb in Heb, Hlb, Hmb. rewrite Cd in Hed, Hld, Hmd.
  unfold two_weight, w2, w1, hopped. cbn [Samp.Model.eleIdx Samp.Model.eleNum]. fold t. fold a b0 c d. fold e. set (e1 := upd (upd e d 0) c 1).
  destruct (wv_sites V HV) as (S1 & S2). fold N in S1, S2.
  assert (Hlh : legal_hop N ri s rj s e) by (repeat split; try lia; [exact Ed|left; exact Ec]).
  assert (Ho1 : occ01 N e) by (apply (e_01 V HV w Hc)).
  destruct (update_correct (vT V) (wv_T V HV) ri rj s false (cntBuf b) (eleProjCnt w) e) as (p & Ep & Hp & _); rewrite ?S1; try assumption; [apply (sa_cnt _ _ _ _ _ HS)|].
  rewrite S1 in Ep, Hp. change (hop N ri s rj s e) with e1 in Ep, Hp. change (gT G) with (vT V). rewrite Ep. cbn [bind].
  assert (Q : exists r, (if gFlagRBM G then update_rbm_cnt (gM G) (gRBM G) ri rj s false (rbmBuf b) rcnt e1 else Some (rbmBuf b)) = Some r /\ (vFlagRBM V = true -> is_rbm_cnt (vM V) (vRBM V) e1 r)).
  { change (gFlagRBM G) with (vFlagRBM V). change (gM G) with (vM V). change (gRBM G) with (vRBM V). destruct (vFlagRBM V) eqn:F.
    - destruct (hop_update (vM V) (wv_M V HV) (vRBM V) e ri s rj false (rbmBuf b) rcnt e1) as (r & Er & Hr); [now apply (sa_rcnt _ _ _ _ _ HS)|rewrite S2; exact Hlh|].
      rewrite S2 in Hr. exists r. split; [exact Er|]. intros _. exact Hr.
    - exists (rbmBuf b). split; [reflexivity|discriminate]. }
  destruct Q as (r & Er & Hr). rewrite Er. cbn [bind].
  set (e2 := upd (upd e1 b0 0) a 1).
  assert (X1 : e1 b0 = 1) by (unfold e1; rewrite !upd_get; destruct (Z.eqb_spec b0 c), (Z.eqb_spec b0 d); congruence).
  assert (X2 : e1 a = 0) by (unfold e1; rewrite !upd_get; destruct (Z.eqb_spec a c), (Z.eqb_spec a d); congruence).
  assert (Hlh2 : legal_hop N rj t ri t e1) by (repeat split; try lia; [exact X1|left; exact X2]).
  assert (Hcl1 : clean V w [(c, d)]) by (apply Hcl).
  assert (Ho2 : occ01 N e1) by (apply (occs_01 V HV w Hc [(c, d)] Hcl1)).
  destruct (update_correct (vT V) (wv_T V HV) rj ri t true p p e1) as (p' & Ep' & Hp' & _); rewrite ?S1; try assumption.
  rewrite S1 in Ep', Hp'. change (hop N rj t ri t e1) with e2 in Ep', Hp'. rewrite Ep'. cbn [bind].
  assert (Q : exists r', (if gFlagRBM G then update_rbm_cnt (gM G) (gRBM G) rj ri t true r r e2 else Some r) = Some r' /\ (vFlagRBM V = true -> is_rbm_cnt (vM V) (vRBM V) e2 r')).
  { change (gFlagRBM G) with (vFlagRBM V). change (gM G) with (vM V). change (gRBM G) with (vRBM V). destruct (vFlagRBM V) eqn:F.
    - destruct (hop_update (vM V) (wv_M V HV) (vRBM V) e1 rj t ri true r r e2) as (r' & Er' & Hr'); [now apply Hr|rewrite S2; exact Hlh2|].
      rewrite S2 in Hr'. exists r'. split; [exact Er'|]. intros _. exact Hr'.
    - exists r. split; [reflexivity|discriminate]. }
  destruct Q as (r' & Er' & Hr'). rewrite Er'. cbn [bind]. f_equal.
  assert (Emv : moves V w [(a, b0); (c, d)] = upd (upd x (mi + s * Ne) rj) (mj + t * Ne) ri).
  { cbn [moves]. fold N. rewrite Ma, Mc. rewrite Hlb, Hld. reflexivity. }
  fold x. rewrite <- Emv.
  apply weight_moves; [exact Hcl|exact Hp'|exact Hr'|].
  intros q Hq. rewrite Emv. rewrite <- (Z.add_0_r q) at 2.
  apply (calc_two N Ne HNe Sl x (gInvM G) (gPfM G) (pfBuf b) mi s rj mj t ri 0 (gNQPFull G)); [|exact Hed|exact Heb|exact Hj|exact Hi|exact (lat V HV w K rcnt ip HS)|apply (sa_mat _ _ _ _ _ HS)|change (gNQPFull G) with (Slater.Model.NQPFull (vS V)); lia].
  intros q' Hq'. apply (skew V HV K). change (gNQPFull G) with (Slater.Model.NQPFull (vS V)) in Hq'. lia.
Qed.
End W.
