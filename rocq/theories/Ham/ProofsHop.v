(** The configuration after one electron has moved: tables, counters, matrices. *)
From Coq Require Import ZArith List Bool Lia Reals Lra FunctionalExtensionality.
From Coquelicot Require Import Complex.
From Verif Require Import Base.ZLoop Base.Checked Base.RSum Proj.Model Proj.Spec Proj.Proofs Pf.Pfaffian Pf.Model Pf.Spec Pf.Proofs Pf.ProofsTwo Slater.Model Slater.Spec Slater.Proofs Slater.ProofsElm
  Rbm.Model Rbm.Spec Rbm.Proofs Samp.Model Samp.Spec Green.Model Green.Spec Green.Anti Green.Moves Green.Core Green.Proofs Ham.Model Ham.Spec.
Import ListNotations.
Local Open Scope Z_scope.

Definition with_tables (K : setting) (inv pf : Z -> C) : setting :=
  {| sopt0 := sopt0 K; sE0 := sE0 K; sclog := sclog K; sNB := sNB K; sThreads := sThreads K; sjunk := sjunk K; sInvM := inv; sPfM := pf |}.
(** electron m (number within spin s) goes from site rj to site ri *)
Definition hopped (N Ne : Z) (w : walker) (m rj ri s : Z) (p : Z -> Z) : walker :=
  Walker (upd (Samp.Model.eleIdx w) (m + s * Ne) ri) (upd (upd (Samp.Model.eleCfg w) (rj + s * N) (-1)) (ri + s * N) m)
    (upd (upd (Samp.Model.eleNum w) (rj + s * N) 0) (ri + s * N) 1) p (eleSpn w).

Section Hop.
Variable V : wave.
Hypothesis HV : wf_wave V.
Let N := sites V.
Let Ne := Slater.Model.Ne (vS V).
Let HN : 0 < N := N_pos V HV.
Let HNe : 0 < Ne := Ne_pos V HV.

Lemma cell_eq n r s r' s' : 0 <= r < n -> 0 <= r' < n -> 0 <= s <= 1 -> 0 <= s' <= 1 -> r + s * n = r' + s' * n -> r = r' /\ s = s'.
Proof. intros. assert (s = 0 \/ s = 1) by lia. assert (s' = 0 \/ s' = 1) by lia. nia. Qed.

Section One.
Variables (w : walker) (ri rj s : Z) (p : Z -> Z).
Hypothesis Hc : consistent N Ne w.
Hypothesis Hi : 0 <= ri < N.
Hypothesis Hj : 0 <= rj < N.
Hypothesis Hs : 0 <= s <= 1.
Let x := Samp.Model.eleIdx w.
Let e := Samp.Model.eleNum w.
Let a := ri + s * N.
Let b := rj + s * N.
Let m := Samp.Model.eleCfg w b.
Hypothesis Ea : e a = 0.
Hypothesis Eb : e b = 1.
Let w' := hopped N Ne w m rj ri s p.
Lemma elec_b : 0 <= m < Ne /\ x (m + s * Ne) = rj.
Proof.
  unfold m, b, x. destruct (c_site _ _ _ Hc rj s Hj Hs) as [(_ & C)|(mi & Hm & C1 & _ & C3)]; [unfold e, b in Eb; congruence|]. now rewrite C1.
Qed.
Lemma ab_ne : a <> b. Proof. unfold e in *. intros E. rewrite E in Ea. congruence. Qed.
Lemma hopped_consistent : consistent N Ne w'.
Proof.
  destruct elec_b as (Hm & Hx). assert (AB := ab_ne).
  assert (Ca : Samp.Model.eleCfg w a = -1) by (unfold a; destruct (c_site _ _ _ Hc ri s Hi Hs) as [(C & _)|(mi & _ & _ & C & _)]; [exact C|unfold e, a in Ea; congruence]).
  constructor; cbn [w' hopped Samp.Model.eleIdx Samp.Model.eleCfg Samp.Model.eleNum]; fold a b.
  - intros mi t Hmi Ht. destruct (c_elec _ _ _ Hc mi t Hmi Ht) as (r & E1 & E2 & E3). fold x in E1. rewrite (upd_get x). destruct (Z.eqb_spec (mi + t * Ne) (m + s * Ne)) as [E|E].
    + destruct (cell_eq Ne mi t m s) as (-> & ->); try assumption. exists ri. split; [reflexivity|]. split; [exact Hi|]. fold a. rewrite upd_get, Z.eqb_refl. reflexivity.
    + exists r. split; [exact E1|]. split; [exact E2|]. rewrite !upd_get. destruct (Z.eqb_spec (r + t * N) a) as [F|F]; [rewrite F in E3; lia|].
      destruct (Z.eqb_spec (r + t * N) b) as [F'|F']; [|exact E3]. exfalso. destruct (cell_eq N r t rj s) as (-> & ->); try assumption. apply E. unfold m. rewrite <- F', E3. reflexivity.
  - intros r t Hr Ht. rewrite !upd_get. destruct (Z.eqb_spec (r + t * N) a) as [F|F].
    + right. destruct (cell_eq N r t ri s) as (-> & ->); try assumption. exists m. split; [exact Hm|]. split; [reflexivity|]. split; [reflexivity|]. now rewrite upd_get, Z.eqb_refl.
    + destruct (Z.eqb_spec (r + t * N) b) as [F'|F']; [left; split; reflexivity|].
      destruct (c_site _ _ _ Hc r t Hr Ht) as [C|(mi & C1 & C2 & C3 & C4)]; [left; exact C|]. right. exists mi. rewrite upd_get. split; [exact C1|]. split; [exact C2|]. split; [exact C3|].
      destruct (Z.eqb_spec (mi + t * Ne) (m + s * Ne)) as [E|E]; [|exact C4]. exfalso. destruct (cell_eq Ne mi t m s) as (-> & ->); try assumption. apply F'. unfold x in Hx. rewrite Hx in C4. unfold b. now rewrite C4.
Qed.
(** counters *)
Lemma hop_proj c cnt alias : is_proj_cnt (vT V) e cnt -> exists p, update_proj_cnt (vT V) rj ri s alias c cnt (upd (upd e b 0) a 1) = Some p /\ is_proj_cnt (vT V) (upd (upd e b 0) a 1) p.
Proof.
  intros Hcnt. destruct (wv_sites V HV) as (S1 & _). fold N in S1.
  assert (Ho : occ01 N e) by (intros rs Hrs; now apply (e01 V HN HNe w Hc rs)).
  destruct (update_correct (vT V) (wv_T V HV) rj ri s alias c cnt e) as (q & E & Hq & _); rewrite ?S1; try assumption.
  - repeat split; try lia; [exact Eb|left; exact Ea].
  - rewrite S1 in *. exists q. split; assumption.
Qed.
Lemma hop_rbm c cnt alias e' : is_rbm_cnt (vM V) (vRBM V) e cnt -> exists r, update_rbm_cnt (vM V) (vRBM V) rj ri s alias c cnt e' = Some r /\ is_rbm_cnt (vM V) (vRBM V) (upd (upd e b 0) a 1) r.
Proof.
  intros Hcnt. destruct (wv_sites V HV) as (_ & S2). fold N in S2.
  destruct (hop_update (vM V) (wv_M V HV) (vRBM V) e rj s ri alias c cnt e') as (r & Er & Hr); [exact Hcnt| |].
  - rewrite S2. repeat split; try lia; [exact Eb|left; exact Ea].
  - rewrite S2 in Hr. exists r. split; [exact Er|exact Hr].
Qed.
(** the model's table changes and their reversal *)
Section Tables.
Variable K : setting.
Variable sh : shared.
Hypothesis Hh : holds K w sh.
Lemma hop_full : hop_tables (env_of V K) true m (m + s * Ne) ri b a sh = Some (Shared (Samp.Model.eleIdx w') (Samp.Model.eleCfg w') (Samp.Model.eleNum w') (hInv sh) (hPf sh)).
Proof.
  destruct Hh as (H1 & H2 & H3 & _). destruct elec_b as (Hm & _). unfold hop_tables. change (gNsite (env_of V K)) with N. change (gNe (env_of V K)) with Ne. rewrite H1, H2, H3.
  assert (0 <= a < 2 * N) by (unfold a; nia). assert (0 <= b < 2 * N) by (unfold b; nia). repeat (rewrite wr_ok by nia; cbn [bind]). reflexivity.
Qed.
Lemma hop_half cf : hop_tables (env_of V K) false m (m + s * Ne) ri b a (Shared (hIdx sh) cf (hNum sh) (hInv sh) (hPf sh)) = Some (Shared (Samp.Model.eleIdx w') cf (Samp.Model.eleNum w') (hInv sh) (hPf sh)).
Proof.
  destruct Hh as (H1 & H2 & H3 & _). destruct elec_b as (Hm & _). unfold hop_tables. change (gNsite (env_of V K)) with N. change (gNe (env_of V K)) with Ne. cbn [hIdx hNum hCfg hInv hPf]. rewrite H1, H3.
  assert (0 <= a < 2 * N) by (unfold a; nia). assert (0 <= b < 2 * N) by (unfold b; nia). repeat (rewrite wr_ok by nia; cbn [bind]). reflexivity.
Qed.
End Tables.
Lemma back_x : upd (Samp.Model.eleIdx w') (m + s * Ne) rj = x.
Proof. cbn [w' hopped Samp.Model.eleIdx]. rewrite upd_twice. apply upd_same. apply elec_b. Qed.
Lemma back_e : upd (upd (Samp.Model.eleNum w') a 0) b 1 = e.
Proof. cbn [w' hopped Samp.Model.eleNum]. fold a b. rewrite upd_twice. rewrite (upd_comm _ b a) by (intros E; now apply ab_ne). rewrite (upd_same e a) by exact Ea. rewrite upd_twice. now apply upd_same. Qed.
Lemma back_c : upd (upd (Samp.Model.eleCfg w') a (-1)) b m = Samp.Model.eleCfg w.
Proof.
  cbn [w' hopped Samp.Model.eleCfg]. fold a b. rewrite upd_twice. rewrite (upd_comm _ b a) by (intros E; now apply ab_ne). rewrite (upd_same (Samp.Model.eleCfg w) a); [rewrite upd_twice; now apply upd_same|].
  unfold a. destruct (c_site _ _ _ Hc ri s Hi Hs) as [(C & _)|(mi & _ & _ & C & _)]; [exact C|unfold e, a in Ea; congruence].
Qed.
Lemma hop_back K inv pf : hop_tables (env_of V K) true m (m + s * Ne) rj a b (Shared (Samp.Model.eleIdx w') (Samp.Model.eleCfg w') (Samp.Model.eleNum w') inv pf) = Some (Shared x (Samp.Model.eleCfg w) e inv pf).
Proof.
  destruct elec_b as (Hm & _). unfold hop_tables. change (gNsite (env_of V K)) with N. change (gNe (env_of V K)) with Ne. cbn [hIdx hNum hCfg hInv hPf].
  assert (0 <= a < 2 * N) by (unfold a; nia). assert (0 <= b < 2 * N) by (unfold b; nia). repeat (rewrite wr_ok by nia; cbn [bind]). now rewrite back_x, back_e, back_c.
Qed.
Lemma hop_back_half K cf inv pf : hop_tables (env_of V K) false m (m + s * Ne) rj a b (Shared (Samp.Model.eleIdx w') cf (Samp.Model.eleNum w') inv pf) = Some (Shared x cf e inv pf).
Proof.
  destruct elec_b as (Hm & _). unfold hop_tables. change (gNsite (env_of V K)) with N. change (gNe (env_of V K)) with Ne. cbn [hIdx hNum hCfg hInv hPf].
  assert (0 <= a < 2 * N) by (unfold a; nia). assert (0 <= b < 2 * N) by (unfold b; nia). repeat (rewrite wr_ok by nia; cbn [bind]). now rewrite back_x, back_e.
Qed.
End One.

(** ** matrices of another configuration *)
Section Mat.
Variable K : setting.
Let Sl := elements_of V (sopt0 K) (sE0 K).
Let nq := Slater.Model.NQPFull (vS V).
Lemma regular_of y : no_partial_zero V -> lattice V y -> pairs V y <> RtoC 0 -> Pf.Spec.regular N Ne Sl 0 nq y.
Proof.
  intros Hz Hy Hp q Hq E. rewrite Z.sub_0_r in Hq. pose proof (wv_valid V HV) as Hv. assert (Hv' := Hv). destruct Hv' as (H0 & H1 & HG & HM & HO & HSl & Hflag & _).
  destruct (projection_surj (vS V) q HG HM Hq) as (o & m & s & HR & Eq).
  apply (Hz y Hy Hp o m s HR). rewrite <- E. unfold pfaffian. rewrite Z.add_0_r, Eq. symmetry.
  apply (pf_ext _ _ (length (zrange 0 (2 * Ne)))); [apply le_n|]. intros i j Hi Hj. unfold pair_matrix. fold N Ne.
  apply (elements (vS V) (vQ V) (vstot V) (vbeta V) (vweight V) (vpara V) (sopt0 K) (vopt V) (vflag V) Hv (vsl V) (sE0 K) o m s); [exact HR| |].
  + apply (orb_div V H0 H1 y i Hy Hi).
  + apply (orb_div V H0 H1 y j Hy Hj).
Qed.
Lemma sampled_at w rcnt ip w' rcnt' inv pf : sampled V K w rcnt ip -> consistent N Ne w' -> is_proj_cnt (vT V) (Samp.Model.eleNum w') (eleProjCnt w') ->
  (vFlagRBM V = true -> is_rbm_cnt (vM V) (vRBM V) (Samp.Model.eleNum w') rcnt') -> Pf.Spec.current N Ne Sl 0 nq (Samp.Model.eleIdx w') inv pf -> pairs V (Samp.Model.eleIdx w') <> RtoC 0 ->
  sampled V (with_tables K inv pf) w' rcnt' (calculate_ip (angles_of V (sopt0 K)) 0 nq pf).
Proof.
  intros HS H1 H2 H3 H4 H5. constructor; try assumption; cbn [with_tables sclog sNB sThreads sopt0 sE0 sInvM sPfM].
  - exact (sa_log _ _ _ _ _ HS).
  - exact (sa_num _ _ _ _ _ HS).
  - reflexivity.
  - fold nq. replace (calculate_ip _ _ _ _) with (pairs V (Samp.Model.eleIdx w')); [exact H5|]. symmetry. apply (pairs_ok V HV K (Samp.Model.eleIdx w') pf); [apply (x_lattice V HNe w' H1)|].
    intros q Hq. destruct (H4 q) as (E & _); [unfold nq; lia|]. rewrite E, Z.add_0_r. reflexivity.
Qed.
End Mat.
End Hop.
