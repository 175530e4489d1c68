(** The ratio of two amplitudes, as the program puts it together from counters and Pfaffians. *)
From Coq Require Import ZArith List Bool Lia Reals Lra FunctionalExtensionality.
From Coquelicot Require Import Complex.
From Verif Require Import Base.ZLoop Base.Checked Base.RSum Proj.Model Proj.Spec Proj.Proofs Pf.Pfaffian Pf.Spec Slater.Model Pf.Model Pf.Proofs Slater.Spec Slater.Proofs Slater.ProofsElm
  Rbm.Model Rbm.Spec Rbm.Proofs Rbm.ProofsRatio Samp.Model Samp.Spec Green.Model Green.Spec Green.Anti Green.Moves.
Import ListNotations.
Local Open Scope Z_scope.

(** ** counters *)
Lemma counter_of T e c : wf_tables T -> is_proj_cnt T e c -> forall k, 0 <= k < NProj T -> c k = counter T e k.
Proof.
  intros HT [A B C D] k Hk. pose proof (wf_ng _ HT) as Q1. pose proof (wf_nj _ HT) as Q2. pose proof (wf_n2 _ HT) as Q3. pose proof (wf_n4 _ HT) as Q4. unfold counter.
  destruct (cell_cases T HT k Hk) as [E|[(j & E & ->)|[(xn & xi & xm & H1 & H2 & H3 & ->)|(xn & xi & xm & H1 & H2 & H3 & ->)]]].
  - destruct (Z.ltb_spec k (NGutzwillerIdx T)); [now apply A|lia].
  - destruct (Z.ltb_spec (NGutzwillerIdx T + j) (NGutzwillerIdx T)); [lia|]. destruct (Z.ltb_spec (NGutzwillerIdx T + j) (NGutzwillerIdx T + NJastrowIdx T)); [|lia].
    rewrite B by assumption. f_equal. lia.
  - unfold idx2. rewrite C by assumption. set (n := NDoublonHolon2siteIdx T) in *. set (b := NGutzwillerIdx T + NJastrowIdx T) in *.
    assert (0 <= (xi + 2 * xm) * n <= 5 * n) by nia.
    destruct (Z.ltb_spec (b + xn + (xi + 2 * xm) * n) (NGutzwillerIdx T)); [lia|]. destruct (Z.ltb_spec (b + xn + (xi + 2 * xm) * n) b); [lia|].
    destruct (Z.ltb_spec (b + xn + (xi + 2 * xm) * n) (b + 6 * n)); [|lia]. replace (b + xn + (xi + 2 * xm) * n - b) with (xn + (xi + 2 * xm) * n) by lia.
    rewrite Z.mod_add, Z.div_add, (Z.div_small xn n), (Z.mod_small xn n) by lia. rewrite Z.add_0_l. rewrite (Z.mul_comm 2 xm), Z.mod_add, Z.div_add, (Z.div_small xi 2), (Z.mod_small xi 2) by lia. reflexivity.
  - unfold idx4. rewrite D by assumption. set (n := NDoublonHolon4siteIdx T) in *. set (b := NGutzwillerIdx T + NJastrowIdx T + 6 * NDoublonHolon2siteIdx T) in *.
    assert (0 <= (xi + 2 * xm) * n) by nia.
    destruct (Z.ltb_spec (b + xn + (xi + 2 * xm) * n) (NGutzwillerIdx T)); [lia|]. destruct (Z.ltb_spec (b + xn + (xi + 2 * xm) * n) (NGutzwillerIdx T + NJastrowIdx T)); [lia|].
    destruct (Z.ltb_spec (b + xn + (xi + 2 * xm) * n) b); [lia|]. replace (b + xn + (xi + 2 * xm) * n - b) with (xn + (xi + 2 * xm) * n) by lia.
    rewrite Z.mod_add, Z.div_add, (Z.div_small xn n), (Z.mod_small xn n) by lia. rewrite Z.add_0_l. rewrite (Z.mul_comm 2 xm), Z.mod_add, Z.div_add, (Z.div_small xi 2), (Z.mod_small xi 2) by lia. reflexivity.
Qed.
Lemma same_occ T e e' : (forall rs, 0 <= rs < 2 * Proj.Model.Nsite T -> e rs = e' rs) -> forall r, 0 <= r < Proj.Model.Nsite T -> occ T e r = occ T e' r.
Proof. intros H r Hr. unfold occ. now rewrite !H by lia. Qed.
Lemma counter_ext T e e' : wf_tables T -> occ01 (Proj.Model.Nsite T) e -> (forall rs, 0 <= rs < 2 * Proj.Model.Nsite T -> e rs = e' rs) ->
  forall k, 0 <= k < NProj T -> counter T e k = counter T e' k.
Proof.
  intros HT He HE k Hk. destruct (make_correct T HT e He (fun _ => 0)) as (c & _ & Hc & _).
  rewrite <- (counter_of T e c HT Hc k Hk). apply counter_of; [exact HT| |exact Hk]. apply (is_proj_cnt_occ T HT e); [|exact Hc]. now apply same_occ.
Qed.
Lemma cprod_ext {A} (l : list A) f g : (forall y, In y l -> f y = g y) -> cprod l f = cprod l g.
Proof. induction l as [|y l IH]; intros H; [reflexivity|]. cbn [cprod]. rewrite (H y) by now left. rewrite IH; [reflexivity|]. intros z Hz. apply H. now right. Qed.
Section MExt.
Variables (M : machine) (W : Z -> C) (e e' : Z -> Z).
Hypothesis HE : forall rs, 0 <= rs < 2 * Rbm.Model.Nsite M -> e rs = e' rs.
Lemma charge_ext r : In r (zrange 0 (Rbm.Model.Nsite M)) -> charge M e r = charge M e' r.
Proof. intros H. apply zrange_in in H. unfold charge. now rewrite !HE by lia. Qed.
Lemma spin_ext r : In r (zrange 0 (Rbm.Model.Nsite M)) -> spin M e r = spin M e' r.
Proof. intros H. apply zrange_in in H. unfold spin. now rewrite !HE by lia. Qed.
Lemma general_ext r : In r (zrange 0 (2 * Rbm.Model.Nsite M)) -> general e r = general e' r.
Proof. intros H. apply zrange_in in H. unfold general. now rewrite !HE by lia. Qed.
Lemma machine_ext : machine_weight M W e = machine_weight M W e'.
Proof.
  unfold machine_weight. f_equal.
  - f_equal. unfold visible. f_equal; [f_equal|].
    + destruct (0 <? NPhysC M); [|reflexivity]. apply csum_ext. intros r Hr. now rewrite charge_ext.
    + destruct (0 <? NPhysS M); [|reflexivity]. apply csum_ext. intros r Hr. now rewrite spin_ext.
    + destruct (0 <? NPhysG M); [|reflexivity]. apply csum_ext. intros r Hr. now rewrite general_ext.
  - unfold hidden. f_equal; [f_equal|]; apply cprod_ext; intros h Hh; f_equal.
    + unfold thetaC. f_equal. destruct (0 <? NPhC M); [|reflexivity]. apply csum_ext. intros r Hr. now rewrite charge_ext.
    + unfold thetaS. f_equal. destruct (0 <? NPhS M); [|reflexivity]. apply csum_ext. intros r Hr. now rewrite spin_ext.
    + unfold thetaG. f_equal. destruct (0 <? NPhG M); [|reflexivity]. apply csum_ext. intros r Hr. now rewrite general_ext.
Qed.
End MExt.

Lemma loop_rsum a b (f : Z -> R) s : loop a b (fun i z => (z + f i)%R) s = (s + rsum (zrange a b) f)%R.
Proof. unfold loop. revert s. induction (zrange a b) as [|i l IH]; intros s; cbn; [ring|]. rewrite IH. ring. Qed.
Section Core.
Variable V : wave.
Hypothesis HV : wf_wave V.
Variable K : setting.
Let N := sites V.
Let Ne := Slater.Model.Ne (vS V).
Let G := env_of V K.
Lemma N_pos : 0 < N. Proof. apply (wv_valid V HV). Qed.
Lemma Ne_pos : 0 < Ne. Proof. apply (wv_valid V HV). Qed.

Lemma correlation_ext e e' : occ01 N e -> (forall rs, 0 <= rs < 2 * N -> e rs = e' rs) -> correlation V e = correlation V e'.
Proof.
  intros He HE. unfold correlation. f_equal. apply rsum_ext. intros k Hk. apply zrange_in in Hk. destruct (wv_sites V HV) as (E & _).
  rewrite (counter_ext (vT V) e e'); [reflexivity|apply (wv_T V HV)|rewrite E; exact He|rewrite E; exact HE|exact Hk].
Qed.
Lemma boltzmann_ext e e' : (forall rs, 0 <= rs < 2 * N -> e rs = e' rs) -> boltzmann V e = boltzmann V e'.
Proof. intros HE. unfold boltzmann. destruct (vFlagRBM V); [|reflexivity]. destruct (wv_sites V HV) as (_ & E). apply machine_ext. rewrite E. exact HE. Qed.
Lemma proj_ratio_ok e e' c c' : is_proj_cnt (vT V) e c -> is_proj_cnt (vT V) e' c' -> proj_ratio G c' c = (correlation V e' / correlation V e)%R.
Proof.
  intros H H'. unfold proj_ratio, correlation, Rdiv. rewrite <- exp_Ropp, <- exp_plus. f_equal. cbn [gT gProj G env_of].
  assert (L : 0 <= NProj (vT V)). { pose proof (wv_T V HV) as []. unfold NProj. lia. }
  rewrite loop_rsum. rewrite Rplus_0_l. match goal with |- _ = (?a + - ?b)%R => change (a + - b)%R with (a - b)%R end. rewrite <- rsum_sub. apply rsum_ext.
  intros k Hk. apply zrange_in in Hk. rewrite (counter_of _ _ _ (wv_T V HV) H k Hk), (counter_of _ _ _ (wv_T V HV) H' k Hk), minus_IZR. ring.
Qed.
Lemma boltzmann_nz e : occ01 N e -> boltzmann V e <> RtoC 0.
Proof.
  intros He. unfold boltzmann. destruct (vFlagRBM V) eqn:F; [|intros E; injection E; lra]. now apply (wv_rbm V HV F).
Qed.
Lemma pairs_ok y pfm : lattice V y ->
  (forall q, 0 <= q < Slater.Model.NQPFull (vS V) -> pfm q = pf (pair_matrix N Ne (elements_of V (sopt0 K) (sE0 K)) q y) (labels V)) ->
  calculate_ip (angles_of V (sopt0 K)) 0 (Slater.Model.NQPFull (vS V)) pfm = pairs V y.
Proof.
  intros Hy Hp. pose proof (wv_valid V HV) as Hv. assert (Hv' := Hv). destruct Hv' as (H0 & H1 & HG & HM & HO & HSl & Hflag & _).
  unfold calculate_ip. rewrite Z.sub_0_r, loop_csum by (unfold Slater.Model.NQPFull, NQPFix; nia). rewrite csum_projection by lia. unfold pairs, amplitude. change czero with (RtoC 0). rewrite Cplus_0_l.
  apply csum_ext. intros o Ho. apply zrange_in in Ho. apply csum_ext. intros m Hm. apply zrange_in in Hm. apply csum_ext. intros s Hs. apply zrange_in in Hs.
  assert (HR : in_range (vS V) o m s) by (repeat split; lia). f_equal.
  - rewrite Z.add_0_r. unfold angles_of, update_weights. cbn [QPFullWeight]. apply full_weight; [lia|exact Hflag|exact HR].
  - rewrite Hp by now apply projection_range. unfold pfaffian. apply (pf_ext _ _ (length (labels V))); [apply le_n|]. intros i j Hi Hj.
    unfold pair_matrix. fold N Ne. apply (elements (vS V) (vQ V) (vstot V) (vbeta V) (vweight V) (vpara V) (sopt0 K) (vopt V) (vflag V) Hv (vsl V) (sE0 K) o m s); [exact HR| |].
    + apply (orb_div V H0 H1 y i Hy Hi).
    + apply (orb_div V H0 H1 y j Hy Hj).
Qed.
End Core.

(** ** occupations after a clean set of moves *)
Section Occ.
Variable V : wave.
Hypothesis HV : wf_wave V.
Let N := sites V.
Let Ne := Slater.Model.Ne (vS V).
Variable w : walker.
Hypothesis Hc : consistent N Ne w.
Let x := Samp.Model.eleIdx w.
Let e := Samp.Model.eleNum w.
Let HN : 0 < N := N_pos V HV.
Let HNe : 0 < Ne := Ne_pos V HV.
Fixpoint occs (q : list (Z * Z)) : Z -> Z := match q with [] => e | (a, b) :: q => upd (upd (occs q) b 0) a 1 end.
Lemma occs_cases q c : clean V w q -> (exists b, In (c, b) q /\ occs q c = 1) \/ (exists a, In (a, c) q /\ occs q c = 0) \/ ((forall o, In o q -> fst o <> c /\ snd o <> c) /\ occs q c = e c).
Proof.
  induction q as [|(a, b) q IH]; intros H; [right; right; split; [intros o []|reflexivity]|]. cbn in H. destruct H as (Ho & E1 & E2 & D & Hq). cbn [occs]. rewrite !upd_get.
  assert (Hab : a <> b) by (intros ->; congruence).
  destruct (Z.eqb_spec c a) as [->|Ha]; [left; exists b; split; [now left|reflexivity]|].
  destruct (Z.eqb_spec c b) as [->|Hb]; [right; left; exists a; split; [now left|reflexivity]|].
  destruct (IH Hq) as [(b' & Hi & E)|[(a' & Hi & E)|(Hn & E)]].
  - left. exists b'. split; [now right|exact E].
  - right; left. exists a'. split; [now right|exact E].
  - right; right. split; [|exact E]. intros o [<-|Hi]; [cbn; split; congruence|now apply Hn].
Qed.
Lemma occs_01 q : clean V w q -> occ01 N (occs q).
Proof.
  intros H rs Hrs. destruct (occs_cases q rs H) as [(b' & Hi & E)|[(a' & Hi & E)|(Hn & E)]]; rewrite E; auto. apply (e01 V HN HNe w Hc rs). exact Hrs.
Qed.
Lemma occupation_moves q c : clean V w q -> 0 <= c < 2 * N -> occupation V (moves V w q) c = occs q c.
Proof.
  intros H Hr. unfold occupation. destruct (existsb _ _) eqn:X.
  - apply existsb_exists in X. destruct X as (m & Hm & E). apply Z.eqb_eq in E. destruct (occs_cases q c H) as [(b' & Hi & Eo)|[(a' & Hi & Eo)|(Hn & Eo)]]; rewrite Eo; [reflexivity| |].
    + exfalso. now apply (vacated V HN HNe w Hc q a' c H Hi m Hm).
    + destruct (untouched V HN HNe w Hc q c H Hr Hn) as (K0 & _). destruct (e01 V HN HNe w Hc c Hr) as [E0|E1]; [|now rewrite <- E1]. exfalso. now apply (K0 E0 m Hm).
  - assert (F : forall m, In m (labels V) -> orb V (moves V w q) m <> c).
    { intros m Hm E. assert (X' : existsb (fun m => orb V (moves V w q) m =? c) (labels V) = true) by (apply existsb_exists; exists m; rewrite E; split; [assumption|apply Z.eqb_refl]). congruence. }
    destruct (occs_cases q c H) as [(b' & Hi & Eo)|[(a' & Hi & Eo)|(Hn & Eo)]]; rewrite Eo; [|reflexivity|].
    + exfalso. destruct (filled V HN HNe w Hc q c b' H Hi) as (L & O & _). now apply (F _ L).
    + destruct (untouched V HN HNe w Hc q c H Hr Hn) as (_ & K0). destruct (e01 V HN HNe w Hc c Hr) as [E0|E1]; [now rewrite <- E0|]. exfalso. destruct (K0 E1) as (L & O & _). now apply (F _ L).
Qed.

Variables (K : setting) (rcnt : Z -> C) (ip : C).
Hypothesis HS : sampled V K w rcnt ip.
Let G := env_of V K.
Definition machine_part (r : Z -> C) : C := if vFlagRBM V then rbm_ratio (vM V) (sclog K) (vRBM V) (sNB K) (sThreads K) (sjunk K) r rcnt else RtoC 1.
Lemma e_01 : occ01 N e. Proof. intros rs Hrs. now apply (e01 V HN HNe w Hc rs). Qed.
Lemma ip_pairs : ip = pairs V x.
Proof.
  rewrite (sa_ip _ _ _ _ _ HS). apply (pairs_ok V HV K x); [now apply x_lattice|]. intros q Hq. destruct (sa_mat _ _ _ _ _ HS q) as (E & _); [lia|]. rewrite E, Z.add_0_r. reflexivity.
Qed.
Lemma psi_moves q : clean V w q -> psi V (moves V w q) = Cmult (Cmult (RtoC (correlation V (occs q))) (boltzmann V (occs q))) (pairs V (moves V w q)).
Proof.
  intros H. unfold psi. assert (HO : forall rs, 0 <= rs < 2 * N -> occs q rs = occupation V (moves V w q) rs) by (intros; symmetry; now apply occupation_moves).
  rewrite (correlation_ext V HV (occs q) _ (occs_01 q H) HO), (boltzmann_ext V HV (occs q) _ HO). reflexivity.
Qed.
Lemma RtoC_nz r : r <> 0%R -> RtoC r <> RtoC 0. Proof. intros H E. apply H. now injection E. Qed.
Lemma psi_nz : psi V x <> RtoC 0.
Proof.
  change x with (moves V w []). rewrite psi_moves by exact I. cbn [occs moves]. fold x. rewrite <- ip_pairs. apply Cmult_neq_0; [|apply (sa_nz _ _ _ _ _ HS)].
  apply Cmult_neq_0; [apply RtoC_nz; unfold correlation; apply Rgt_not_eq, exp_pos|apply (boltzmann_nz V HV); exact e_01].
Qed.
(** the product the program forms is the ratio of the amplitudes *)
Lemma ratio_moves q p r pfm : clean V w q -> is_proj_cnt (vT V) (occs q) p -> (vFlagRBM V = true -> is_rbm_cnt (vM V) (vRBM V) (occs q) r) ->
  (forall k, 0 <= k < Slater.Model.NQPFull (vS V) -> pfm k = pf (pair_matrix N Ne (elements_of V (sopt0 K) (sE0 K)) k (moves V w q)) (labels V)) ->
  Cdiv (Cmult (Cmult (RtoC (proj_ratio G p (eleProjCnt w))) (machine_part r)) (calculate_ip (gA G) 0 (gNQPFull G) pfm)) ip = Cdiv (psi V (moves V w q)) (psi V x).
Proof.
  intros H Hp Hr Hpf. change x with (moves V w []). rewrite !psi_moves by (exact H || exact I). cbn [occs moves]. fold x. rewrite <- ip_pairs.
  unfold G. rewrite (proj_ratio_ok V HV K e (occs q) (eleProjCnt w) p (sa_cnt _ _ _ _ _ HS) Hp). cbn [env_of gA gNQPFull].
  rewrite (pairs_ok V HV K (moves V w q) pfm); [|now apply moves_lattice|exact Hpf].
  assert (E : machine_part r = Cdiv (boltzmann V (occs q)) (boltzmann V e)).
  { unfold machine_part, boltzmann. destruct (vFlagRBM V) eqn:F; [|unfold Cdiv; now rewrite Cinv_r by (intros Z0; injection Z0; lra)].
    destruct (sa_num _ _ _ _ _ HS) as (A1 & A2). apply ratio_ok; [apply (wv_M V HV)|apply (sa_log _ _ _ _ _ HS)|exact A1|exact A2|now apply (sa_rcnt _ _ _ _ _ HS)|now apply Hr| |].
    - apply (wv_rbm V HV F). exact e_01.
    - apply (wv_rbm V HV F). now apply occs_01. }
  rewrite E. assert (B := boltzmann_nz V HV e e_01). assert (I := sa_nz _ _ _ _ _ HS).
  assert (Cc : correlation V e <> 0%R) by (unfold correlation; apply Rgt_not_eq, exp_pos).
  rewrite RtoC_div by exact Cc. assert (Cc' := RtoC_nz _ Cc). field. repeat split; assumption.
Qed.
End Occ.
