(** The four local Green functions with general spins give matrix elements. *)
From Coq Require Import ZArith List Bool Lia Reals Lra FunctionalExtensionality.
From Coquelicot Require Import Complex.
From Verif Require Import Base.ZLoop Base.Checked Base.RSum Proj.Model Proj.Spec Proj.Proofs Pf.Pfaffian Pf.Model Pf.Spec Pf.Proofs Slater.Model Slater.Spec Slater.Proofs Slater.ProofsElm
  Samp.Model Samp.Spec Green.Model Green.Spec Green.Core Fsz.Model Fsz.Spec Fsz.ProofsPf Fsz.ProofsElm Fsz.ProofsDer Gfz.Model Gfz.Spec Gfz.Anti.
Import ListNotations.
Local Open Scope Z_scope.

Lemma spin_orbital_upd N idx spn m r s : spin_orbital N (upd idx m r) (upd spn m s) = upd (spin_orbital N idx spn) m (r + s * N).
Proof. apply functional_extensionality. intros i. unfold spin_orbital. rewrite !upd_get. now destruct (i =? m). Qed.

(** ** occupations *)
Section Occ.
Variables (L : list Z) (n : Z).
Lemma foccupation_of x e c : occ_at L x e c -> e c = foccupation L x c.
Proof.
  unfold foccupation. intros [(E & H)|(E & m & Hm & H)]; rewrite E; destruct (existsb _ L) eqn:X; try reflexivity.
  - apply existsb_exists in X. destruct X as (m & Hm & X). apply Z.eqb_eq in X. exfalso. now apply (H m).
  - assert (Y : existsb (fun m => x m =? c) L = true) by (apply existsb_exists; exists m; split; [assumption|now apply Z.eqb_eq]). congruence.
Qed.
Lemma occ_move x e m a b : (forall m m', In m L -> In m' L -> x m = x m' -> m = m') -> (forall c, 0 <= c < n -> occ_at L x e c) ->
  In m L -> x m = b -> e a = 0 -> 0 <= a < n -> a <> b -> forall c, 0 <= c < n -> occ_at L (upd x m a) (upd (upd e b 0) a 1) c.
Proof.
  intros Hx Ho Hm Em Ea Ra Hab c Hc. unfold occ_at. rewrite !(upd_get _ _ _ c). destruct (Z.eqb_spec c a) as [->|Nca].
  - right. split; [reflexivity|]. exists m. split; [assumption|apply upd_same].
  - destruct (Z.eqb_spec c b) as [->|Ncb].
    + left. split; [reflexivity|]. intros m' Hm'. rewrite upd_get. destruct (Z.eqb_spec m' m) as [->|Hne]; [congruence|]. intros E. apply Hne, Hx; congruence.
    + destruct (Ho c Hc) as [(E & H)|(E & m' & Hm' & E')].
      * left. split; [exact E|]. intros m' Hm'. rewrite upd_get. destruct (m' =? m); [congruence|now apply H].
      * right. split; [exact E|]. exists m'. split; [assumption|]. rewrite upd_other; congruence.
Qed.
End Occ.

Section Green.
Variable V : fwave.
Hypothesis HV : wf_fwave V.
Let N := fsites V.
Let Ne := Slater.Model.Ne (fS V).
Let L := flabels V.
Variables (G : env) (w : walker) (ip : C).
Hypothesis HS : sampled_fsz V G w ip.
Let X := config V w.
Let e := Samp.Model.eleNum w.
Let idx := Samp.Model.eleIdx w.
Let spn := Samp.Model.eleSpn w.
Let cfg := Samp.Model.eleCfg w.
Let NQ := Slater.Model.NQPFull (fS V).

Lemma fN_pos : 0 < N. Proof. apply (wf_valid V HV). Qed.
Lemma fNe_pos : 0 < Ne. Proof. apply (wf_valid V HV). Qed.
Lemma fL_nodup : NoDup L. Proof. apply zrange_NoDup. Qed.
Lemma fL_in m : In m L <-> 0 <= m < 2 * Ne. Proof. apply zrange_in. Qed.
Lemma orbital_of c : 0 <= c < 2 * N -> exists r s, c = r + s * N /\ 0 <= r < N /\ 0 <= s <= 1.
Proof.
  intros H. assert (P := fN_pos). exists (c mod N), (c / N). split; [rewrite (Z.div_mod c N) at 1 by lia; ring|]. split; [apply Z.mod_pos_bound; lia|].
  split; [apply Z.div_pos; lia|]. assert (c / N < 2) by (apply Z.div_lt_upper_bound; lia). lia.
Qed.
Lemma range_of r s : site_spin N r s -> 0 <= r + s * N < 2 * N.
Proof. intros (H1 & H2). assert (s = 0 \/ s = 1) as [-> | ->] by lia; lia. Qed.
Lemma same_of r s r' s' : site_spin N r s -> site_spin N r' s' -> r + s * N = r' + s' * N -> r = r' /\ s = s'.
Proof. intros (A & B) (A' & B'). assert (s = 0 \/ s = 1) as [-> | ->] by lia; assert (s' = 0 \/ s' = 1) as [-> | ->] by lia; lia. Qed.
Lemma x_cfg m : In m L -> cfg (X m) = m /\ 0 <= X m < 2 * N.
Proof.
  intros Hm. apply fL_in in Hm. destruct (f_elec _ _ _ (sf_tables _ _ _ _ HS) m Hm) as (r & s & E1 & E2 & Hr & Hs & E). unfold X, config, spin_orbital. rewrite E1, E2. fold N.
  split; [exact E|]. apply range_of. split; assumption.
Qed.
Lemma x_inj m m' : In m L -> In m' L -> X m = X m' -> m = m'.
Proof. intros H H' E. destruct (x_cfg m H) as (A & _), (x_cfg m' H') as (B & _). congruence. Qed.
Lemma x_occ c : 0 <= c < 2 * N -> occ_at L X e c.
Proof.
  intros Hc. destruct (orbital_of c Hc) as (r & s & -> & Hr & Hs). destruct (f_site _ _ _ (sf_tables _ _ _ _ HS) r s Hr Hs) as [(C1 & C2)|(m & Hm & C1 & C2 & C3 & C4)].
  - left. split; [exact C2|]. intros m Hm E. destruct (x_cfg m Hm) as (A & _). rewrite E in A. apply fL_in in Hm. fold N in C1. unfold cfg in A. rewrite A in C1. lia.
  - right. split; [exact C2|]. exists m. split; [now apply fL_in|]. unfold X, config, spin_orbital. fold N. now rewrite C3, C4.
Qed.
Lemma elec r s : site_spin N r s -> e (r + s * N) = 1 -> let m := cfg (r + s * N) in In m L /\ 0 <= m < 2 * Ne /\ idx m = r /\ spn m = s /\ X m = r + s * N.
Proof.
  intros (Hr & Hs) E. destruct (f_site _ _ _ (sf_tables _ _ _ _ HS) r s Hr Hs) as [(C1 & C2)|(m & Hm & C1 & C2 & C3 & C4)]; [fold N e in C2; congruence|].
  fold N cfg in C1. rewrite C1. split; [now apply fL_in|]. split; [exact Hm|]. split; [exact C3|]. split; [exact C4|]. unfold X, config, spin_orbital. fold N. now rewrite C3, C4.
Qed.
Lemma x_placed : placed N (2 * Ne) idx spn.
Proof. intros m Hm. destruct (f_elec _ _ _ (sf_tables _ _ _ _ HS) m Hm) as (r & s & E1 & E2 & Hr & Hs & _). unfold idx, spn. rewrite E1, E2. fold N in Hr. split; [exact Hr|lia]. Qed.
Lemma placed_upd i s m r t : placed N (2 * Ne) i s -> site_spin N r t -> placed N (2 * Ne) (upd i m r) (upd s m t).
Proof. intros H (A & B) k Hk. rewrite !upd_get. destruct (k =? m); [split; [exact A|lia]|now apply H]. Qed.
Lemma place_of r s : site_spin N r s -> place N r s. Proof. intros (A & B). split; [exact A|lia]. Qed.
Lemma tab_skew q : 0 <= q < gNQPFull G - 0 -> skew_table N (gSl G) (q + 0).
Proof.
  destruct (ld_S _ _ (sf_loaded _ _ _ _ HS)) as (E0 & ->). rewrite (ld_Q _ _ (sf_loaded _ _ _ _ HS)). intros Hq. destruct (wf_valid V HV) as (A & _ & B & C & _).
  apply (table_fsz_skew (fS V) (fQ V)); lia.
Qed.

(** ** ratios *)
Lemma pairs_fsz i s pfm : placed N (2 * Ne) i s -> (forall q, 0 <= q < gNQPFull G - 0 -> pfm q = pf (pair_matrix_fsz N (gSl G) (q + 0) i s) L) ->
  calculate_ip (gA G) 0 (gNQPFull G) pfm = fpairs V (spin_orbital N i s).
Proof.
  destruct (ld_A _ _ (sf_loaded _ _ _ _ HS)) as (stot & beta & weight & opt0 & ->). destruct (ld_S _ _ (sf_loaded _ _ _ _ HS)) as (E0 & ->). rewrite (ld_Q _ _ (sf_loaded _ _ _ _ HS)).
  intros Hp Hq. assert (Hv := wf_valid V HV). assert (Hv' := Hv). destruct Hv' as (HN & HNe & HG & HM & HO & HSl & Hflag & _).
  unfold calculate_ip. rewrite Z.sub_0_r, loop_csum by (unfold Slater.Model.NQPFull, NQPFix; nia).
  rewrite csum_projection by lia. unfold fpairs, amplitude_fsz. change czero with (RtoC 0). rewrite Cplus_0_l.
  apply csum_ext. intros o Ho. apply zrange_in in Ho. apply csum_ext. intros m Hm. apply zrange_in in Hm. rewrite HG. change (zrange 0 1) with [0]. cbn [csum].
  rewrite Cplus_0_r, Z.add_0_r.
  assert (HR : in_range (fS V) o m 0) by (repeat split; lia).
  assert (Hr := projection_range (fS V) o m 0 HR).
  f_equal; [now apply (weight_fsz (fS V) (fQ V))|].
  rewrite Hq by lia. unfold pfaffian_fsz. apply (pf_ext _ _ (length L)); [apply le_n|]. intros i1 j1 Hi Hj. apply fL_in in Hi, Hj.
  rewrite Z.add_0_r. unfold pair_matrix_fsz. apply (elements_fsz (fS V) (fQ V) HN (fsl V) E0 o m 0); [exact HR| |].
  - destruct (Hp i1 Hi) as (H1 & [H2|H2]); unfold spin_orbital; rewrite H2; change (Slater.Model.Nsite (fS V)) with N; lia.
  - destruct (Hp j1 Hj) as (H1 & [H2|H2]); unfold spin_orbital; rewrite H2; change (Slater.Model.Nsite (fS V)) with N; lia.
Qed.
Lemma ip_is : ip = fpairs V X.
Proof.
  rewrite (sf_ip _ _ _ _ HS). apply (pairs_fsz idx spn); [exact x_placed|]. intros q Hq. destruct (sf_mat _ _ _ _ HS q Hq) as (E & _). exact E.
Qed.
Lemma occ01_of x' e' : (forall c, 0 <= c < 2 * N -> occ_at L x' e' c) -> occ01 N e'.
Proof. intros H c Hc. destruct (H c Hc) as [(E & _)|(E & _)]; tauto. Qed.
Lemma fcorrelation_ext e1 e2 : occ01 N e1 -> (forall c, 0 <= c < 2 * N -> e1 c = e2 c) -> fcorrelation V e1 = fcorrelation V e2.
Proof.
  intros H HE. unfold fcorrelation. f_equal. apply rsum_ext. intros k Hk. apply zrange_in in Hk. rewrite (counter_ext (fT V) e1 e2); [reflexivity|apply (wf_T V HV)|rewrite (wf_sites V HV); exact H|rewrite (wf_sites V HV); exact HE|exact Hk].
Qed.
Lemma proj_ratio_fsz e1 c1 : is_proj_cnt (fT V) e1 c1 -> proj_ratio G c1 (eleProjCnt w) = (fcorrelation V e1 / fcorrelation V e)%R.
Proof.
  intros H1. unfold proj_ratio, fcorrelation, Rdiv. rewrite <- exp_Ropp, <- exp_plus. f_equal. rewrite (ld_T _ _ (sf_loaded _ _ _ _ HS)), (ld_P _ _ (sf_loaded _ _ _ _ HS)).
  assert (W := wf_T V HV). rewrite loop_rsum, Rplus_0_l. match goal with |- _ = (?a + - ?b)%R => change (a + - b)%R with (a - b)%R end. rewrite <- rsum_sub. apply rsum_ext.
  intros k Hk. apply zrange_in in Hk. rewrite (counter_of _ _ _ W (sf_cnt _ _ _ _ HS) k Hk), (counter_of _ _ _ W H1 k Hk), minus_IZR. unfold e. ring.
Qed.
Lemma fcorr_nz e1 : RtoC (fcorrelation V e1) <> RtoC 0.
Proof. apply RtoC_nz. unfold fcorrelation. apply Rgt_not_eq, exp_pos. Qed.
Lemma fpsi_occ x' e' : (forall c, 0 <= c < 2 * N -> occ_at L x' e' c) -> fpsi V x' = Cmult (RtoC (fcorrelation V e')) (fpairs V x').
Proof. intros H. unfold fpsi. f_equal. f_equal. symmetry. apply fcorrelation_ext; [now apply (occ01_of x')|]. intros c Hc. apply foccupation_of. now apply H. Qed.
Lemma fpsi_nz : fpsi V X <> RtoC 0.
Proof. rewrite (fpsi_occ X e x_occ). apply Cmult_neq_0; [apply fcorr_nz|]. rewrite <- ip_is. apply (sf_nz _ _ _ _ HS). Qed.
(** the product the program forms is the ratio of the amplitudes *)
Lemma ratio_fsz i s e' p pfm : placed N (2 * Ne) i s -> (forall c, 0 <= c < 2 * N -> occ_at L (spin_orbital N i s) e' c) -> is_proj_cnt (fT V) e' p ->
  (forall q, 0 <= q < gNQPFull G - 0 -> pfm q = pf (pair_matrix_fsz N (gSl G) (q + 0) i s) L) ->
  Cdiv (Cmult (RtoC (proj_ratio G p (eleProjCnt w))) (calculate_ip (gA G) 0 (gNQPFull G) pfm)) ip = Cdiv (fpsi V (spin_orbital N i s)) (fpsi V X).
Proof.
  intros Hp Ho Hc Hq. rewrite (proj_ratio_fsz e' p Hc), (pairs_fsz i s pfm Hp Hq), (fpsi_occ _ e' Ho), (fpsi_occ X e x_occ), <- ip_is.
  assert (Cc : fcorrelation V e <> 0%R) by (unfold fcorrelation; apply Rgt_not_eq, exp_pos).
  rewrite RtoC_div by exact Cc. assert (Cc' := RtoC_nz _ Cc). assert (I := sf_nz _ _ _ _ HS). field. split; assumption.
Qed.

(** ** values *)
Definition good_fsz (v : C) (r : option (C * fwork)) : Prop := exists k', r = Some (v, k') /\ starts_fsz w k'.
Lemma Cconj_0 : Cconj (RtoC 0) = RtoC 0. Proof. unfold Cconj, RtoC. cbn. f_equal. lra. Qed.
Lemma flocal_0 ops : fstring L ops (fpsi V) X = RtoC 0 -> flocal V ops X = RtoC 0.
Proof. intros E. unfold flocal. fold L. rewrite E. unfold Cdiv. rewrite Cmult_0_l. apply Cconj_0. Qed.
Lemma flocal_1 ops : fstring L ops (fpsi V) X = fpsi V X -> flocal V ops X = RtoC 1.
Proof. intros E. unfold flocal. fold L. rewrite E. unfold Cdiv. rewrite Cinv_r by exact fpsi_nz. unfold Cconj, RtoC. cbn. f_equal. lra. Qed.
Lemma flocal_eq ops ops' : fstring L ops (fpsi V) X = fstring L ops' (fpsi V) X -> flocal V ops X = flocal V ops' X.
Proof. intros E. unfold flocal. fold L. now rewrite E. Qed.
Lemma flocal_opp ops ops' : fstring L ops (fpsi V) X = Copp (fstring L ops' (fpsi V) X) -> flocal V ops X = Copp (flocal V ops' X).
Proof. intros E. unfold flocal. fold L. rewrite E. unfold Cdiv, Cconj, Copp, Cmult. cbn. f_equal; ring. Qed.
Lemma good_at ops v k : starts_fsz w k -> flocal V ops X = v -> good_fsz (flocal V ops X) (Some (v, k)).
Proof. intros H ->. now exists k. Qed.
Lemma good_to ops ops' r : flocal V ops X = flocal V ops' X -> good_fsz (flocal V ops' X) r -> good_fsz (flocal V ops X) r.
Proof. intros ->. auto. Qed.
Lemma starts_fun k : starts_fsz w k -> fIdx k = idx /\ fSpn k = spn /\ fNum k = e.
Proof. intros (A & B & C). repeat split; apply functional_extensionality; assumption. Qed.
Lemma put_ok m r s a b k : 0 <= m < 2 * Ne -> 0 <= a < 2 * N -> 0 <= b < 2 * N ->
  put_fsz G m r s a b k = Some (FWork (upd (fIdx k) m r) (upd (fSpn k) m s) (upd (upd (fNum k) a 0) b 1) (fProjNew k) (fPfBuf k)).
Proof. intros H1 H2 H3. unfold put_fsz. rewrite (ld_N _ _ (sf_loaded _ _ _ _ HS)), (ld_Ne _ _ (sf_loaded _ _ _ _ HS)). repeat (rewrite wr_ok by assumption; cbn [bind]). reflexivity. Qed.
Let HA := fpsi_anti V.

(** ** one operator *)
Lemma green1_fsz2_ok ri rj s t k : site_spin N ri s -> site_spin N rj t -> ri + s * N <> rj + t * N -> starts_fsz w k ->
  good_fsz (flocal V [(ri + s * N, rj + t * N)] X) (green1_fsz2 G ri rj s t ip cfg (eleProjCnt w) k).
Proof.
  intros Hi Hj Hne Hk. destruct (starts_fun k Hk) as (E1 & E2 & E3). assert (Ri := range_of _ _ Hi). assert (Rj := range_of _ _ Hj).
  unfold green1_fsz2. rewrite (ld_N _ _ (sf_loaded _ _ _ _ HS)), (ld_T _ _ (sf_loaded _ _ _ _ HS)). fold N Ne. rewrite E3. rewrite !rd_ok by assumption. cbn [bind].
  destruct ((e (ri + s * N) =? 1) || (e (rj + t * N) =? 0)) eqn:Ef.
  - apply good_at; [exact Hk|]. apply flocal_0. cbn [fstring]. apply orb_true_iff in Ef. destruct Ef as [Ef|Ef]; apply Z.eqb_eq in Ef.
    + apply (one_full L fL_nodup X x_inj e (fpsi V) HA); [now apply x_occ|exact Hne|exact Ef].
    + apply (one_none L X e (fpsi V)); [now apply x_occ|exact Ef].
  - apply orb_false_iff in Ef. destruct Ef as (Ei & Ej). assert (Ei' : e (ri + s * N) = 0) by (destruct (occ_01 L X e _ (x_occ _ Ri)); lia).
    assert (Ej' : e (rj + t * N) = 1) by (destruct (occ_01 L X e _ (x_occ _ Rj)); lia). clear Ei Ej.
    destruct (elec rj t Hj Ej') as (Lm & Hm & I1 & I2 & I3). set (m := cfg (rj + t * N)) in *.
    rewrite put_ok by assumption. cbn [bind fIdx fSpn fNum fProjNew fPfBuf]. rewrite E1, E2, E3.
    assert (Hlh : legal_hop N rj t ri s e) by (destruct Hi, Hj; repeat split; try lia; now left).
    assert (Ho1 : occ01 N e) by (apply (occ01_of X), x_occ).
    change (upd (upd e (rj + t * N) 0) (ri + s * N) 1) with (hop N rj t ri s e).
    destruct (update_correct_gen (fT V) (wf_T V HV) rj t ri s false (fProjNew k) (eleProjCnt w) e) as (p & Ep & Hp & _); rewrite ?(wf_sites V HV); try assumption; [apply (sf_cnt _ _ _ _ HS)|].
    rewrite (wf_sites V HV) in Ep, Hp. fold N in Ep, Hp. rewrite Ep. cbn [bind]. unfold ratio_one. rewrite put_ok by assumption. cbn [bind fIdx fSpn fNum fProjNew fPfBuf].
    eexists. split.
    + f_equal. f_equal. unfold flocal. f_equal. fold L. cbn [fstring]. rewrite (one_move L fL_nodup X x_inj (fpsi V) (ri + s * N) (rj + t * N) m Lm I3).
      unfold X, config. fold N idx spn. rewrite <- spin_orbital_upd. fold (config V w). fold X.
      apply (ratio_fsz (upd idx m ri) (upd spn m s) (hop N rj t ri s e)).
      * apply placed_upd; [exact x_placed|exact Hi].
      * intros c Hc. rewrite spin_orbital_upd. apply (occ_move L (2 * N) X e m (ri + s * N) (rj + t * N)); try assumption; [exact x_inj|exact x_occ].
      * exact Hp.
      * intros q Hq. rewrite (ld_N _ _ (sf_loaded _ _ _ _ HS)), (ld_Ne _ _ (sf_loaded _ _ _ _ HS)).
        apply (one_calc N Ne fNe_pos (gSl G) idx spn (gInvM G) (gPfM G) (fPfBuf k) m ri s 0 (gNQPFull G)); try assumption; [exact tab_skew|now apply place_of|exact x_placed|apply (sf_mat _ _ _ _ HS)].
    + unfold hop. split; [|split]; cbn [fIdx fSpn fNum]; intros i; fold idx spn e; rewrite !upd_get.
      * destruct (Z.eqb_spec i m) as [->|]; [now rewrite I1|reflexivity].
      * destruct (Z.eqb_spec i m) as [->|]; [now rewrite I2|reflexivity].
      * destruct (Z.eqb_spec i (rj + t * N)) as [->|]; [now rewrite Ej'|]. destruct (Z.eqb_spec i (ri + s * N)) as [->|]; [now rewrite Ei'|reflexivity].
Qed.
Lemma num_at r s : site_spin N r s -> flocal V [(r + s * N, r + s * N)] X = RtoC (IZR (e (r + s * N))).
Proof.
  intros H. assert (O := x_occ _ (range_of _ _ H)). assert (D := one_diag L fL_nodup X x_inj e (fpsi V) _ O).
  destruct (occ_01 _ _ _ _ O) as [E|E]; rewrite E in *; cbn in D; [apply flocal_0|apply flocal_1]; exact D.
Qed.
Lemma green1_fsz_ok ri rj s k : site_spin N ri s -> site_spin N rj s -> starts_fsz w k ->
  good_fsz (flocal V [(ri + s * N, rj + s * N)] X) (green1_fsz G ri rj s ip cfg (eleProjCnt w) k).
Proof.
  intros Hi Hj Hk. destruct (Z.eqb_spec ri rj) as [->|Hne].
  - unfold green1_fsz. rewrite Z.eqb_refl. rewrite (ld_N _ _ (sf_loaded _ _ _ _ HS)). fold N. destruct (starts_fun k Hk) as (_ & _ & ->). assert (Rj := range_of _ _ Hj). rewrite !rd_ok by assumption. cbn [bind].
    apply good_at; [exact Hk|now apply num_at].
  - assert (E : green1_fsz G ri rj s ip cfg (eleProjCnt w) k = green1_fsz2 G ri rj s s ip cfg (eleProjCnt w) k).
    { unfold green1_fsz, green1_fsz2. replace (ri =? rj) with false by lia. reflexivity. }
    rewrite E. apply green1_fsz2_ok; try assumption. lia.
Qed.

(** ** two operators, all places different *)
Definition rest_fsz (ri rj rk rl s t u v : Z) (cnt : Z -> Z) (k : fwork) : option (C * fwork) :=
  let XI := ri + s * N in let XJ := rj + t * N in let XK := rk + u * N in let XL := rl + v * N in
  if (e XI =? 1) || (e XJ =? 0) || (e XK =? 1) || (e XL =? 0) then Some (RtoC 0, k)
  else
    mj <- rd (2 * N) cfg XJ;; ml <- rd (2 * N) cfg XL;;
    w1 <- put_fsz G ml rk u XL XK k;;
    p <- update_proj_cnt_fsz (gT G) rl rk v u false (fProjNew w1) cnt (fNum w1);;
    w2 <- put_fsz G mj ri s XJ XI w1;;
    p <- update_proj_cnt_fsz (gT G) rj ri t s true p p (fNum w2);;
    let '(z, pf) := ratio_two G ml u mj s ip cnt p w2 in
    w3 <- put_fsz G ml rl v XK XL (FWork (fIdx w2) (fSpn w2) (fNum w2) p pf);;
    w4 <- put_fsz G mj rj t XI XJ w3;;
    Some (z, w4).
Lemma rest_ok ri rj rk rl s t u v k : site_spin N ri s -> site_spin N rj t -> site_spin N rk u -> site_spin N rl v ->
  let a := ri + s * N in let b := rj + t * N in let c := rk + u * N in let d := rl + v * N in
  c <> d -> b <> c -> b <> d -> a <> b -> a <> c -> a <> d -> starts_fsz w k ->
  good_fsz (flocal V [(a, b); (c, d)] X) (rest_fsz ri rj rk rl s t u v (eleProjCnt w) k).
Proof.
  intros Hi Hj Hk Hl a b c d Ncd Nbc Nbd Nab Nac Nad Hw. destruct (starts_fun k Hw) as (E1 & E2 & E3).
  assert (Ra := range_of _ _ Hi). assert (Rb := range_of _ _ Hj). assert (Rc := range_of _ _ Hk). assert (Rd := range_of _ _ Hl). fold a in Ra. fold b in Rb. fold c in Rc. fold d in Rd.
  assert (Oa := x_occ a Ra). assert (Ob := x_occ b Rb). assert (Oc := x_occ c Rc). assert (Od := x_occ d Rd).
  unfold rest_fsz. fold a b c d.
  destruct ((e a =? 1) || (e b =? 0) || (e c =? 1) || (e d =? 0)) eqn:Ef.
  - apply good_at; [exact Hw|]. apply flocal_0. cbn [fstring]. rewrite !orb_true_iff in Ef. destruct Ef as [[[Ef|Ef]|Ef]|Ef]; apply Z.eqb_eq in Ef.
    + apply (two_a1 L fL_nodup X x_inj e a b c d (fpsi V)); first [exact HA|assumption].
    + apply (two_b0 L fL_nodup X x_inj e a b c d (fpsi V)); first [exact HA|assumption].
    + apply (two_c1 L fL_nodup X x_inj e a b c d (fpsi V)); first [exact HA|assumption].
    + apply (two_d0 L X e a b c d (fpsi V)); assumption.
  - rewrite !orb_false_iff in Ef. destruct Ef as (((Ea & Eb) & Ec) & Ed).
    assert (Ea' : e a = 0) by (destruct (occ_01 _ _ _ _ Oa); lia). assert (Eb' : e b = 1) by (destruct (occ_01 _ _ _ _ Ob); lia).
    assert (Ec' : e c = 0) by (destruct (occ_01 _ _ _ _ Oc); lia). assert (Ed' : e d = 1) by (destruct (occ_01 _ _ _ _ Od); lia). clear Ea Eb Ec Ed.
    rewrite !rd_ok by assumption. cbn [bind].
    destruct (elec rj t Hj Eb') as (Lj & Mj & J1 & J2 & J3). destruct (elec rl v Hl Ed') as (Ll & Ml & L1 & L2 & L3). fold b in Lj, Mj, J1, J2, J3. fold d in Ll, Ml, L1, L2, L3.
    set (mj := cfg b) in *. set (ml := cfg d) in *. assert (Hm : ml <> mj) by congruence.
    rewrite put_ok by assumption. cbn [bind fIdx fSpn fNum fProjNew fPfBuf]. rewrite E1, E2, E3.
    assert (Hlh : legal_hop N rl v rk u e) by (destruct Hl, Hk; repeat split; first [exact Ed'|left; exact Ec'|lia]).
    assert (Ho0 : occ01 N e) by (apply (occ01_of X), x_occ).
    change (upd (upd e d 0) c 1) with (hop N rl v rk u e). rewrite (ld_T _ _ (sf_loaded _ _ _ _ HS)).
    destruct (update_correct_gen (fT V) (wf_T V HV) rl v rk u false (fProjNew k) (eleProjCnt w) e) as (p & Ep & Hp & _); rewrite ?(wf_sites V HV); try assumption; [apply (sf_cnt _ _ _ _ HS)|].
    rewrite (wf_sites V HV) in Ep, Hp. fold N in Ep, Hp. rewrite Ep. cbn [bind]. rewrite put_ok by assumption. cbn [bind fIdx fSpn fNum fProjNew fPfBuf].
    set (e1 := hop N rl v rk u e) in *.
    assert (X1 : forall m1 m2, In m1 L -> In m2 L -> upd X ml c m1 = upd X ml c m2 -> m1 = m2) by (apply (moved_unique L X x_inj e c); assumption).
    assert (Occ1 : forall y, 0 <= y < 2 * N -> occ_at L (upd X ml c) e1 y) by (apply (occ_move L (2 * N) X e ml c d); try assumption; [exact x_inj|exact x_occ]).
    assert (Eb1 : e1 b = 1) by (unfold e1, hop; fold c d; rewrite !upd_other by assumption; exact Eb').
    assert (Ea1 : e1 a = 0) by (unfold e1, hop; fold c d; rewrite !upd_other by assumption; exact Ea').
    assert (Hlh1 : legal_hop N rj t ri s e1) by (destruct Hi, Hj; repeat split; first [exact Eb1|left; exact Ea1|lia]).
    assert (Ho1 : occ01 N e1) by (apply (occ01_of (upd X ml c)), Occ1).
    change (upd (upd e1 b 0) a 1) with (hop N rj t ri s e1).
    destruct (update_correct_gen (fT V) (wf_T V HV) rj t ri s true p p e1) as (p' & Ep' & Hp' & _); rewrite ?(wf_sites V HV); try assumption.
    rewrite (wf_sites V HV) in Ep', Hp'. fold N in Ep', Hp'. rewrite Ep'. cbn [bind]. unfold ratio_two. cbn [fIdx fSpn fNum fProjNew fPfBuf].
    do 2 (rewrite put_ok by assumption; cbn [bind fIdx fSpn fNum fProjNew fPfBuf]).
    assert (Occ2 : forall y, 0 <= y < 2 * N -> occ_at L (upd (upd X ml c) mj a) (hop N rj t ri s e1) y).
    { apply (occ_move L (2 * N) (upd X ml c) e1 mj a b); try assumption. rewrite upd_other by congruence. exact J3. }
    eexists. split.
    + f_equal. f_equal. unfold flocal. f_equal. fold L. cbn [fstring]. rewrite (proj1 (two_moves L fL_nodup X x_inj e a b c d (fpsi V) Oc ml mj Ll L3 Lj J3 Nbd Ec')).
      assert (EX : upd (upd X ml c) mj a = spin_orbital N (upd (upd idx ml rk) mj ri) (upd (upd spn ml u) mj s)) by (rewrite !spin_orbital_upd; reflexivity).
      rewrite EX. apply (ratio_fsz _ _ (hop N rj t ri s e1)).
      * apply placed_upd; [|exact Hi]. apply placed_upd; [exact x_placed|exact Hk].
      * intros y Hy. rewrite <- EX. now apply Occ2.
      * exact Hp'.
      * intros q Hq. rewrite (ld_N _ _ (sf_loaded _ _ _ _ HS)), (ld_Ne _ _ (sf_loaded _ _ _ _ HS)).
        apply (two_calc N Ne fNe_pos (gSl G) idx spn (gInvM G) (gPfM G) (fPfBuf k) ml rk u mj ri s 0 (gNQPFull G)); try assumption;
          [exact tab_skew|congruence|now apply place_of|now apply place_of|exact x_placed|apply (sf_mat _ _ _ _ HS)].
    + unfold e1, hop. fold a b c d. split; [|split]; cbn [fIdx fSpn fNum]; intros i; fold idx spn e; rewrite !upd_get.
      * destruct (Z.eqb_spec i mj) as [->|]; [now rewrite J1|]. destruct (Z.eqb_spec i ml) as [->|]; [now rewrite L1|reflexivity].
      * destruct (Z.eqb_spec i mj) as [->|]; [now rewrite J2|]. destruct (Z.eqb_spec i ml) as [->|]; [now rewrite L2|reflexivity].
      * destruct (Z.eqb_spec i b) as [->|]; [now rewrite Eb'|]. destruct (Z.eqb_spec i a) as [->|]; [now rewrite Ea'|].
        destruct (Z.eqb_spec i d) as [->|]; [now rewrite Ed'|]. destruct (Z.eqb_spec i c) as [->|]; [now rewrite Ec'|reflexivity].
Qed.

(** values of two operators by coincidences *)
Section Two.
Variables (ri rj rk rl s t u v : Z).
Hypotheses (Hi : site_spin N ri s) (Hj : site_spin N rj t) (Hk : site_spin N rk u) (Hl : site_spin N rl v).
Let a := ri + s * N.
Let b := rj + t * N.
Let c := rk + u * N.
Let d := rl + v * N.
Notation val := (flocal V [(a, b); (c, d)] X).
Let Oa : occ_at L X e a := x_occ a (range_of _ _ Hi).
Let Ob : occ_at L X e b := x_occ b (range_of _ _ Hj).
Let Oc : occ_at L X e c := x_occ c (range_of _ _ Hk).
Let Od : occ_at L X e d := x_occ d (range_of _ _ Hl).
Lemma v_cd0 : c = d -> e c = 0 -> val = RtoC 0.
Proof. intros E E0. apply flocal_0. cbn [fstring]. rewrite (two_cd L fL_nodup X x_inj e a b c d (fpsi V) Od) by exact E. now rewrite E0. Qed.
Lemma v_cd1 : c = d -> e c = 1 -> val = flocal V [(a, b)] X.
Proof. intros E E0. apply flocal_eq. cbn [fstring]. rewrite (two_cd L fL_nodup X x_inj e a b c d (fpsi V) Od) by exact E. now rewrite E0. Qed.
Lemma v_c1 : c <> d -> e c = 1 -> val = RtoC 0.
Proof. intros E E0. apply flocal_0. now apply (two_c1 L fL_nodup X x_inj e a b c d (fpsi V) HA Oc). Qed.
Lemma v_bc : c <> d -> b = c -> e c = 0 -> val = flocal V [(a, d)] X.
Proof. intros E E0 E1. apply flocal_eq. now apply (two_bc L fL_nodup X x_inj e a b c d (fpsi V) Oc Od). Qed.
Lemma v_bd : c <> d -> b = d -> val = RtoC 0.
Proof. intros E E0. apply flocal_0. now apply (two_bd L fL_nodup X x_inj e a b c d (fpsi V) HA Oc Od). Qed.
Lemma v_ab0 : c <> d -> b <> c -> b <> d -> a = b -> e a = 0 -> val = RtoC 0.
Proof. intros N1 N2 N3 E E0. apply flocal_0. cbn [fstring]. rewrite (two_ab L fL_nodup X x_inj e a b c d (fpsi V) HA Ob Oc Od) by assumption. now rewrite E0. Qed.
Lemma v_ab1 : c <> d -> b <> c -> b <> d -> a = b -> e a = 1 -> val = flocal V [(c, d)] X.
Proof. intros N1 N2 N3 E E0. apply flocal_eq. cbn [fstring]. rewrite (two_ab L fL_nodup X x_inj e a b c d (fpsi V) HA Ob Oc Od) by assumption. now rewrite E0. Qed.
Lemma v_ac : c <> d -> b <> c -> b <> d -> a = c -> val = RtoC 0.
Proof. intros N1 N2 N3 E. apply flocal_0. now apply (two_ac L fL_nodup X x_inj e a b c d (fpsi V) HA Ob Oc Od). Qed.
Lemma v_ad0 : e d = 0 -> val = RtoC 0.
Proof. intros E. apply flocal_0. now apply (two_d0 L X e a b c d (fpsi V) Od). Qed.
Lemma v_ad1 : c <> d -> b <> c -> b <> d -> a = d -> e d = 1 -> val = Copp (flocal V [(c, b)] X).
Proof. intros N1 N2 N3 E E0. apply flocal_opp. cbn [fstring]. rewrite (two_ad L fL_nodup X x_inj e a b c d (fpsi V) HA Ob Oc Od) by assumption. now rewrite E0. Qed.
Lemma v_one_full : a <> b -> e a = 1 -> flocal V [(a, b)] X = RtoC 0.
Proof. intros. apply flocal_0. now apply (one_full L fL_nodup X x_inj e (fpsi V) HA). Qed.
End Two.

Lemma green2_fsz2_ok ri rj rk rl s t u v k : site_spin N ri s -> site_spin N rj t -> site_spin N rk u -> site_spin N rl v -> starts_fsz w k ->
  good_fsz (flocal V [(ri + s * N, rj + t * N); (rk + u * N, rl + v * N)] X) (green2_fsz2 G ri rj rk rl s t u v ip cfg (eleProjCnt w) k).
Proof.
  intros Hi Hj Hk Hl Hw. destruct (starts_fun k Hw) as (_ & _ & E3).
  assert (Ra := range_of _ _ Hi). assert (Rb := range_of _ _ Hj). assert (Rc := range_of _ _ Hk). assert (Rd := range_of _ _ Hl).
  unfold green2_fsz2. rewrite (ld_N _ _ (sf_loaded _ _ _ _ HS)). fold N. rewrite E3. rewrite !(rd_ok (2 * N) e) by assumption. cbn [bind].
  pose proof (v_cd0 ri rj rk rl s t u v Hl) as Vcd0. pose proof (v_cd1 ri rj rk rl s t u v Hl) as Vcd1. pose proof (v_c1 ri rj rk rl s t u v Hk) as Vc1.
  pose proof (v_bc ri rj rk rl s t u v Hk Hl) as Vbc. pose proof (v_bd ri rj rk rl s t u v Hk Hl) as Vbd. pose proof (v_ab0 ri rj rk rl s t u v Hj Hk Hl) as Vab0.
  pose proof (v_ab1 ri rj rk rl s t u v Hj Hk Hl) as Vab1. pose proof (v_ac ri rj rk rl s t u v Hj Hk Hl) as Vac. pose proof (v_ad0 ri rj rk rl s t u v Hl) as Vad0.
  pose proof (v_ad1 ri rj rk rl s t u v Hj Hk Hl) as Vad1. pose proof (v_one_full ri rj s t Hi) as V1.
  pose proof (num_at ri s Hi) as Ni. pose proof (num_at rl v Hl) as Nl.
  pose proof (fun Z => green1_fsz2_ok rk rl u v k Hk Hl Z Hw) as Gkl. pose proof (fun Z => green1_fsz2_ok ri rj s t k Hi Hj Z Hw) as Gij.
  pose proof (fun Z => green1_fsz2_ok ri rl s v k Hi Hl Z Hw) as Gil. pose proof (fun Z => green1_fsz2_ok rk rj u t k Hk Hj Z Hw) as Gkj.
  pose proof (rest_ok ri rj rk rl s t u v k Hi Hj Hk Hl) as R. cbv zeta in R. unfold rest_fsz in R. cbv zeta in R.
  pose proof (occ_01 _ _ _ _ (x_occ _ Ra)) as Da. pose proof (occ_01 _ _ _ _ (x_occ _ Rb)) as Db. pose proof (occ_01 _ _ _ _ (x_occ _ Rc)) as Dc.
  set (a := ri + s * N) in *. set (b := rj + t * N) in *. set (c := rk + u * N) in *. set (d := rl + v * N) in *. clearbody a b c d. clear Hi Hj Hk Hl.
  destruct (Z.eqb_spec a b) as [Eab|Nab].
  - destruct (Z.eqb_spec b c) as [Ebc|Nbc].
    + destruct (Z.eqb_spec c d) as [Ecd|Ncd].
      * apply good_at; [exact Hw|]. destruct Da as [E|E]; rewrite E; [apply Vcd0; congruence|]. rewrite Vcd1 by congruence. rewrite <- Eab, Ni, E. reflexivity.
      * destruct Da as [E|E]; rewrite E; cbn [Z.eqb Pos.eqb].
        -- eapply good_to; [|apply Gkl; exact Ncd]. rewrite Vbc by congruence. now rewrite Eab, Ebc.
        -- apply good_at; [exact Hw|]. apply Vc1; congruence.
    + destruct (Z.eqb_spec b d) as [Ebd|Nbd].
      * apply good_at; [exact Hw|]. apply Vbd; congruence.
      * destruct (Z.eqb_spec c d) as [Ecd|Ncd].
        -- apply good_at; [exact Hw|]. destruct Dc as [E|E]; rewrite E; [rewrite Z.mul_0_r; now apply Vcd0|]. rewrite Vcd1 by assumption. rewrite <- Eab, Ni, Z.mul_1_r. reflexivity.
        -- destruct Da as [E|E]; rewrite E; cbn [Z.eqb Pos.eqb].
           ++ apply good_at; [exact Hw|]. now apply Vab0.
           ++ eapply good_to; [|apply Gkl; exact Ncd]. now apply Vab1.
  - destruct (Z.eqb_spec a c) as [Eac|Nac].
    + apply good_at; [exact Hw|]. destruct (Z.eq_dec c d) as [Ecd|Ncd].
      * destruct Dc as [E|E]; [now apply Vcd0|]. rewrite Vcd1 by assumption. apply V1; congruence.
      * destruct (Z.eq_dec b d); [now apply Vbd|]. apply Vac; congruence.
    + destruct (Z.eqb_spec a d) as [Ead|Nad].
      * destruct (Z.eqb_spec b c) as [Ebc|Nbc].
        -- apply good_at; [exact Hw|]. destruct Db as [E|E]; rewrite E; [|rewrite Z.mul_0_r; apply Vc1; congruence].
           rewrite Vbc by congruence. rewrite <- Ead, Ni. rewrite Z.mul_1_r. reflexivity.
        -- destruct Da as [E|E]; rewrite E; cbn [Z.eqb Pos.eqb].
           ++ apply good_at; [exact Hw|]. apply Vad0. congruence.
           ++ destruct (Gkj (not_eq_sym Nbc)) as (k' & Ek & Hk'). rewrite Ek. cbn [bind fst snd]. exists k'. split; [|exact Hk'].
              f_equal. f_equal. rewrite Vad1 by congruence. replace (RtoC (-1)) with (Copp (RtoC 1)) by (rewrite <- RtoC_opp; f_equal; lra). ring.
      * destruct (Z.eqb_spec b c) as [Ebc|Nbc].
        -- destruct (Z.eqb_spec c d) as [Ecd|Ncd].
           ++ destruct Db as [E|E]; rewrite E; cbn [Z.eqb Pos.eqb].
              ** apply good_at; [exact Hw|]. apply Vcd0; congruence.
              ** eapply good_to; [|apply Gij; exact Nab]. apply Vcd1; congruence.
           ++ destruct Db as [E|E]; rewrite E; cbn [Z.eqb Pos.eqb].
              ** eapply good_to; [|apply Gil; exact Nad]. apply Vbc; congruence.
              ** apply good_at; [exact Hw|]. apply Vc1; congruence.
        -- destruct (Z.eqb_spec b d) as [Ebd|Nbd].
           ++ apply good_at; [exact Hw|]. apply Vbd; congruence.
           ++ destruct (Z.eqb_spec c d) as [Ecd|Ncd].
              ** destruct Dc as [E|E]; rewrite E; cbn [Z.eqb Pos.eqb].
                 --- apply good_at; [exact Hw|]. now apply Vcd0.
                 --- eapply good_to; [|apply Gij; exact Nab]. now apply Vcd1.
              ** now apply R.
Qed.
Lemma green2_fsz_ok ri rj rk rl s t k : site_spin N ri s -> site_spin N rj s -> site_spin N rk t -> site_spin N rl t -> starts_fsz w k ->
  good_fsz (flocal V [(ri + s * N, rj + s * N); (rk + t * N, rl + t * N)] X) (green2_fsz G ri rj rk rl s t ip cfg (eleProjCnt w) k).
Proof.
  intros Hi Hj Hk Hl Hw. destruct (starts_fun k Hw) as (_ & _ & E3).
  assert (Ra := range_of _ _ Hi). assert (Rb := range_of _ _ Hj). assert (Rc := range_of _ _ Hk). assert (Rd := range_of _ _ Hl).
  unfold green2_fsz. rewrite (ld_N _ _ (sf_loaded _ _ _ _ HS)). fold N. rewrite E3. rewrite !(rd_ok (2 * N) e) by assumption. cbn [bind].
  pose proof (v_cd0 ri rj rk rl s s t t Hl) as Vcd0. pose proof (v_cd1 ri rj rk rl s s t t Hl) as Vcd1. pose proof (v_c1 ri rj rk rl s s t t Hk) as Vc1.
  pose proof (v_bc ri rj rk rl s s t t Hk Hl) as Vbc. pose proof (v_bd ri rj rk rl s s t t Hk Hl) as Vbd. pose proof (v_ab0 ri rj rk rl s s t t Hj Hk Hl) as Vab0.
  pose proof (v_ab1 ri rj rk rl s s t t Hj Hk Hl) as Vab1. pose proof (v_ac ri rj rk rl s s t t Hj Hk Hl) as Vac. pose proof (v_ad0 ri rj rk rl s s t t Hl) as Vad0.
  pose proof (v_ad1 ri rj rk rl s s t t Hj Hk Hl) as Vad1.
  pose proof (num_at ri s Hi) as Ni. pose proof (num_at rl t Hl) as Nl.
  pose proof (green1_fsz_ok rk rl t k Hk Hl Hw) as Gkl. pose proof (green1_fsz_ok ri rj s k Hi Hj Hw) as Gij.
  pose proof (rest_ok ri rj rk rl s s t t k Hi Hj Hk Hl) as R. cbv zeta in R. unfold rest_fsz in R. cbv zeta in R.
  pose proof (occ_01 _ _ _ _ (x_occ _ Ra)) as Da. pose proof (occ_01 _ _ _ _ (x_occ _ Rb)) as Db. pose proof (occ_01 _ _ _ _ (x_occ _ Rc)) as Dc.
  assert (Pij : ri + s * N = rj + s * N <-> ri = rj) by lia. assert (Pkl : rk + t * N = rl + t * N <-> rk = rl) by lia.
  destruct (Z.eqb_spec s t) as [Est|Nst].
  - subst t. assert (Pjl : rj + s * N = rl + s * N <-> rj = rl) by lia. assert (Pil : ri + s * N = rl + s * N <-> ri = rl) by lia. assert (Pjk : rj + s * N = rk + s * N <-> rj = rk) by lia.
    assert (Pik : ri + s * N = rk + s * N <-> ri = rk) by lia.
    pose proof (green1_fsz_ok ri rl s k Hi Hl Hw) as Gil. pose proof (green1_fsz_ok rk rj s k Hk Hj Hw) as Gkj.
    set (a := ri + s * N) in *. set (b := rj + s * N) in *. set (c := rk + s * N) in *. set (d := rl + s * N) in *. clearbody a b c d. clear Hi Hj Hk Hl.
    destruct (Z.eqb_spec rk rl) as [Ecd|Ncd].
    { destruct Dc as [E|E]; rewrite E; cbn [Z.eqb Pos.eqb]; [apply good_at; [exact Hw|]; apply Vcd0; tauto|]. eapply good_to; [|exact Gij]. apply Vcd1; tauto. }
    assert (Ncd' : c <> d) by tauto.
    destruct (Z.eqb_spec rj rl) as [Ebd|Nbd]; [apply good_at; [exact Hw|]; apply Vbd; tauto|].
    destruct (Z.eqb_spec ri rl) as [Ead|Nad].
    { apply Pil in Ead. destruct Da as [E|E]; rewrite E; cbn [Z.eqb Pos.eqb]; [apply good_at; [exact Hw|]; apply Vad0; congruence|].
      destruct (Z.eqb_spec rj rk) as [Ebc|Nbc].
      - apply Pjk in Ebc. apply good_at; [exact Hw|]. destruct Db as [F|F]; rewrite F; [|apply Vc1; congruence]. rewrite Vbc by congruence. rewrite <- Ead, Ni, E. reflexivity.
      - destruct Gkj as (k' & Ek & Hk'). rewrite Ek. cbn [bind fst snd]. exists k'. split; [|exact Hk']. f_equal. f_equal. rewrite Vad1; [reflexivity|tauto|tauto|tauto|exact Ead|congruence]. }
    destruct (Z.eqb_spec rj rk) as [Ebc|Nbc].
    { apply Pjk in Ebc. destruct Db as [F|F]; rewrite F; cbn [Z.eqb Pos.eqb]; [|apply good_at; [exact Hw|]; apply Vc1; congruence]. eapply good_to; [|exact Gil]. apply Vbc; congruence. }
    destruct (Z.eqb_spec ri rk) as [Eac|Nac]; [apply good_at; [exact Hw|]; apply Vac; tauto|].
    destruct (Z.eqb_spec ri rj) as [Eab|Nab].
    { destruct Da as [E|E]; rewrite E; cbn [Z.eqb Pos.eqb]; [apply good_at; [exact Hw|]; apply Vab0; tauto|]. eapply good_to; [|exact Gkl]. apply Vab1; tauto. }
    apply R; tauto.
  - assert (Nbd : rj + s * N <> rl + t * N) by (intros E; apply Nst; now apply (same_of rj s rl t)). assert (Nbc : rj + s * N <> rk + t * N) by (intros E; apply Nst; now apply (same_of rj s rk t)).
    assert (Nac : ri + s * N <> rk + t * N) by (intros E; apply Nst; now apply (same_of ri s rk t)). assert (Nad : ri + s * N <> rl + t * N) by (intros E; apply Nst; now apply (same_of ri s rl t)).
    set (a := ri + s * N) in *. set (b := rj + s * N) in *. set (c := rk + t * N) in *. set (d := rl + t * N) in *. clearbody a b c d. clear Hi Hj Hk Hl.
    destruct (Z.eqb_spec rk rl) as [Ecd|Ncd].
    { destruct Dc as [E|E]; rewrite E; cbn [Z.eqb Pos.eqb]; [apply good_at; [exact Hw|]; apply Vcd0; tauto|].
      destruct (Z.eqb_spec ri rj) as [Eab|Nab]; [|eapply good_to; [|exact Gij]; apply Vcd1; tauto].
      apply Pij in Eab. apply good_at; [exact Hw|]. rewrite Vcd1 by tauto. rewrite <- Eab. exact Ni. }
    destruct (Z.eqb_spec ri rj) as [Eab|Nab].
    { destruct Da as [E|E]; rewrite E; cbn [Z.eqb Pos.eqb]; [apply good_at; [exact Hw|]; apply Vab0; tauto|]. eapply good_to; [|exact Gkl]. apply Vab1; tauto. }
    apply R; tauto.
Qed.
End Green.
