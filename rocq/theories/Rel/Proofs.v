(** Runs with real parameters: Green functions, local energy, weight of a proposal, update of the matrices. *)
From Coq Require Import ZArith List Bool Lia Reals Lra FunctionalExtensionality.
From Coquelicot Require Import Complex.
From Verif Require Import Base.ZLoop Base.Checked Base.RSum Proj.Model Proj.Spec Proj.Proofs Pf.Model Pf.Spec Pf.Proofs Pf.ProofsTwo Slater.Model Rbm.Model Samp.Prog Samp.Model Samp.Spec Mark.Model Mark.Spec Mark.Balance
  Green.Model Green.Spec Green.Core Green.Proofs Ham.Model Ham.Spec Ham.ProofsExt Ham.Proofs Rel.Model Rel.Spec Rel.Embed Rel.Sim Rel.Link.
Import ListNotations.
Local Open Scope Z_scope.

Lemma runs_rel {S S'} (P : S -> S' -> Prop) (f : Z -> S -> option S) (g : Z -> S' -> option S') l : forall s s', (forall i s s', In i l -> P s s' -> orel P (f i s) (g i s')) -> P s s' -> orel P (runs l f s) (runs l g s').
Proof.
  induction l as [|i l IH]; intros s s' Hf H; [exact H|]. rewrite !runs_cons. apply (orel_bind P P); [apply Hf; [now left|exact H]|]. intros a a' Ha. apply IH; [intros; apply Hf; [now right|assumption]|exact Ha].
Qed.

Lemma bind_assoc {A B C'} (o : option A) (f : A -> option B) (g : B -> option C') : bind (bind o f) g = bind o (fun a => bind (f a) g).
Proof. now destruct o. Qed.
Section P.
Variable V : wave.
Hypothesis HV : wf_wave V.
Hypothesis HR : real_transforms V.
Variables (K : rsetting) (w : walker) (ip : R).
Hypothesis HS : sampled_real V K w ip.
Let Gc := env_of (shadow V) (embed K).
Let Gr := renv_of V K.
Let x := Samp.Model.eleIdx w.
Let zero : Z -> C := fun _ => RtoC 0.

Lemma green1_real_ok ri rj s r : 0 <= ri < sites V -> 0 <= rj < sites V -> 0 <= s <= 1 -> starts_real w r ->
  exists v r', green1_real Gr ri rj s ip (Samp.Model.eleCfg w) (eleProjCnt w) r = Some (v, r') /\ RtoC v = local (shadow V) [(ri + s * sites V, rj + s * sites V)] x /\ starts_real w r'.
Proof.
  intros Hi Hj Hs Hr. destruct (green1_sim V HV HR K w ip HS ri rj s (lift r) r Hi Hj Hs Hr (lift_rel r)) as (v & k' & r' & _ & E & Ev & Hk & Hw). exists v, r'. split; [exact E|]. split; [exact Ev|]. exact (back w k' r' Hk Hw).
Qed.
Lemma green2_real_ok ri rj rk rl s t r : 0 <= ri < sites V -> 0 <= rj < sites V -> 0 <= rk < sites V -> 0 <= rl < sites V -> 0 <= s <= 1 -> 0 <= t <= 1 -> starts_real w r ->
  exists v r', green2_real Gr ri rj rk rl s t ip (Samp.Model.eleCfg w) (eleProjCnt w) r = Some (v, r') /\ RtoC v = local (shadow V) [(ri + s * sites V, rj + s * sites V); (rk + t * sites V, rl + t * sites V)] x /\ starts_real w r'.
Proof.
  intros Hi Hj Hk Hl Hs Ht Hr. destruct (green2_sim V HV HR K w ip HS ri rj rk rl s t (lift r) r Hi Hj Hk Hl Hs Ht Hr (lift_rel r)) as (v & k' & r' & _ & E & Ev & Hk' & Hw). exists v, r'. split; [exact E|]. split; [exact Ev|]. exact (back w k' r' Hk' Hw).
Qed.

(** ** local energy *)
Variable H : terms.
Hypothesis HH : sites_ok V H.
Hypothesis Hsp : spins_kept H.
Let e := Samp.Model.eleNum w.
Section Thread.
Variables x' e' : Z -> Z.
Hypothesis Hx : forall m, 0 <= m < 2 * Slater.Model.Ne (vS V) -> x' m = x m.
Hypothesis He : forall rs, 0 <= rs < 2 * sites V -> e' rs = e rs.
Let w' := redone w x' e'.
Let HS' : sampled_real V K w' ip := redone_sampled (shadow V) (wf_shadow V HV) (embed K) w zero (RtoC ip) HS x' e' Hx He.
Definition trel (c : tstate) (r : rstate) : Prop := starts w' (fst c) /\ wrel (fst c) (fst r) /\ fst (snd c) = snd r.
Lemma green_rel p p' st st' (g : option (C * work)) (g' : option (R * rwork)) : fst p = p' -> trel st st' -> (exists v k r, g = Some (RtoC v, k) /\ g' = Some (v, r) /\ starts w' k /\ wrel k r) ->
  orel trel (add_green st p g) (add_green_real st' p' g').
Proof.
  intros <- (T1 & T2 & T3) (v & k & r & -> & -> & S1 & S2). unfold add_green, add_green_real. cbn [bind orel fst snd]. repeat split; try apply S1; try apply S2. cbn [fst snd]. rewrite <- T3. unfold Cplus, Cmult, RtoC. cbn. ring.
Qed.
Lemma transfer_rel k st st' : 0 <= k < NTransfer H -> trel st st' -> orel trel (it_transfer Gc H (RtoC ip) (Samp.Model.eleCfg w) (eleProjCnt w) zero k st) (it_transfer_real Gr H ip (Samp.Model.eleCfg w) (eleProjCnt w) k st').
Proof.
  intros Hk Ht. destruct (ok_transfer V H HH k Hk) as (S1 & S2 & S3 & S4). apply green_rel; [reflexivity|exact Ht|].
  destruct (green1_sim V HV HR K w' ip HS' (Transfer H k 0) (Transfer H k 2) (Transfer H k 3) (fst st) (fst st') S1 S3 S4 (proj1 Ht) (proj1 (proj2 Ht))) as (v & k' & r' & E1 & E2 & _ & E3 & E4). exists v, k', r'. repeat split; try assumption; try apply E3; try apply E4.
Qed.
Lemma pair_rel k st st' : 0 <= k < NPair H -> trel st st' -> orel trel (it_pair Gc H (RtoC ip) (Samp.Model.eleCfg w) (eleProjCnt w) zero k st) (it_pair_real Gr H ip (Samp.Model.eleCfg w) (eleProjCnt w) k st').
Proof.
  intros Hk Ht. destruct (ok_pair V H HH k Hk) as (S1 & S2). apply green_rel; [reflexivity|exact Ht|].
  destruct (green2_sim V HV HR K w' ip HS' (Pair H k 0) (Pair H k 1) (Pair H k 0) (Pair H k 1) 0 1 (fst st) (fst st') S1 S2 S1 S2 ltac:(lia) ltac:(lia) (proj1 Ht) (proj1 (proj2 Ht))) as (v & k' & r' & E1 & E2 & _ & E3 & E4). exists v, k', r'. repeat split; try assumption; try apply E3; try apply E4.
Qed.
Lemma exchange_rel k st st' : 0 <= k < NExchange H -> trel st st' -> orel trel (it_exchange Gc H (RtoC ip) (Samp.Model.eleCfg w) (eleProjCnt w) zero k st) (it_exchange_real Gr H ip (Samp.Model.eleCfg w) (eleProjCnt w) k st').
Proof.
  intros Hk Ht. destruct (ok_exchange V H HH k Hk) as (S1 & S2). apply green_rel; [reflexivity|exact Ht|].
  destruct (green2_sim V HV HR K w' ip HS' (Exchange H k 0) (Exchange H k 1) (Exchange H k 1) (Exchange H k 0) 0 1 (fst st) (fst st') S1 S2 S2 S1 ltac:(lia) ltac:(lia) (proj1 Ht) (proj1 (proj2 Ht))) as (v & k' & r' & E1 & E2 & _ & E3 & E4).
  destruct (green2_sim V HV HR K w' ip HS' (Exchange H k 0) (Exchange H k 1) (Exchange H k 1) (Exchange H k 0) 1 0 k' r' S1 S2 S2 S1 ltac:(lia) ltac:(lia) E3 E4) as (v2 & k2 & r2 & F1 & F2 & _ & F3 & F4).
  change (Samp.Model.eleCfg w') with (Samp.Model.eleCfg w) in *. change (eleProjCnt w') with (eleProjCnt w) in *. fold Gc in E1, F1. fold Gr in E2, F2. fold zero in E1, F1.
  rewrite E1, E2. cbn [bind fst snd]. rewrite F1, F2. cbn [bind fst snd]. exists (v + v2)%R, k2, r2. rewrite RtoC_plus. repeat split; try apply F3; try apply F4.
Qed.
Lemma interall_rel k st st' : 0 <= k < NInterAll H -> trel st st' -> orel trel (it_interall Gc H (RtoC ip) (Samp.Model.eleCfg w) (eleProjCnt w) zero k st) (it_interall_real Gr H ip (Samp.Model.eleCfg w) (eleProjCnt w) k st').
Proof.
  intros Hk Ht. destruct (ok_interall V H HH k Hk) as (S1 & S2 & S3 & S4 & S5 & S6 & S7 & S8). apply green_rel; [reflexivity|exact Ht|].
  destruct (green2_sim V HV HR K w' ip HS' (InterAll H k 0) (InterAll H k 2) (InterAll H k 4) (InterAll H k 6) (InterAll H k 3) (InterAll H k 7) (fst st) (fst st') S1 S3 S5 S7 S4 S8 (proj1 Ht) (proj1 (proj2 Ht))) as (v & k' & r' & E1 & E2 & _ & E3 & E4). exists v, k', r'. repeat split; try assumption; try apply E3; try apply E4.
Qed.
Lemma real_rel st st' v : trel st st' -> orel trel (add_real st v) (radd_energy st' v).
Proof. intros (T1 & T2 & T3). unfold add_real, radd_energy. cbn. repeat split; try apply T1; try apply T2. cbn. now rewrite <- T3. Qed.
Lemma intra_rel k st st' : trel st st' -> orel trel (it_intra Gc H e k st) (it_intra_real Gr H e k st').
Proof. intros Ht. unfold it_intra, it_intra_real. do 2 (apply orel_same; intros ? _). now apply real_rel. Qed.
Lemma inter_rel k st st' : trel st st' -> orel trel (it_inter Gc H e k st) (it_inter_real Gr H e k st').
Proof. intros Ht. unfold it_inter, it_inter_real. do 4 (apply orel_same; intros ? _). now apply real_rel. Qed.
Lemma hund_rel k st st' : trel st st' -> orel trel (it_hund Gc H e k st) (it_hund_real Gr H e k st').
Proof. intros Ht. unfold it_hund, it_hund_real. do 4 (apply orel_same; intros ? _). now apply real_rel. Qed.
End Thread.

Definition liftP (P : rsched) : sched := Sched (rthreads P) (rplan P) (fun t => lift (rspace P t)).
Lemma energy_real P : execution_real (count H) P ->
  calculate_hamiltonian_real Gr H ip (Samp.Model.eleCfg w) e (eleProjCnt w) P x = Some (fst (local_value (shadow V) (hamiltonian (shadow V) H) x)).
Proof.
  intros HP. assert (HP' : execution (count H) (liftP P)) by exact HP.
  assert (E := energy (shadow V) (wf_shadow V HV) (embed K) w zero (RtoC ip) HS H ltac:(destruct HH; constructor; assumption) Hsp (liftP P) HP'). fold Gc x in E.
  unfold calculate_hamiltonian, region in E. change (threads (liftP P)) with (rthreads P) in E.
  match type of E with runs _ ?f _ = _ => assert (X : orel (fun z r => fst z = r) (runs (zrange 0 (rthreads P)) f (RtoC 0)) (calculate_hamiltonian_real Gr H ip (Samp.Model.eleCfg w) e (eleProjCnt w) P x)) end.
  2:{ rewrite E in X. destruct (calculate_hamiltonian_real Gr H ip (Samp.Model.eleCfg w) e (eleProjCnt w) P x); cbn in X; [now rewrite X|contradiction]. }
  unfold calculate_hamiltonian_real. apply (runs_rel (fun z r => fst z = r)); [|reflexivity]. intros t z r Ht Hz.
  change (plan (liftP P)) with (rplan P). change (space (liftP P) t) with (lift (rspace P t)).
  set (k0 := copy_tables Gc e x (lift (rspace P t))). set (r0 := copy_tables_real Gr e x (rspace P t)).
  assert (Hx : forall m, 0 <= m < 2 * Slater.Model.Ne (vS V) -> Green.Model.eleIdx k0 m = x m) by (intros m Hm; unfold k0, copy_tables; cbn [Green.Model.eleIdx]; apply (copy_get _ x); exact Hm).
  assert (He : forall rs, 0 <= rs < 2 * sites V -> Green.Model.eleNum k0 rs = e rs) by (intros m Hm; unfold k0, copy_tables; cbn [Green.Model.eleNum]; apply (copy_get _ e); exact Hm).
  assert (B : forall l i, 0 <= l <= 6 -> In i (rplan P l t) -> 0 <= i < count H l) by (intros l i Hl Hi; exact (plan_in (count H) (liftP P) l t i HP' Hl Ht Hi)).
  set (R0 := trel (Green.Model.eleIdx k0) (Green.Model.eleNum k0)).
  assert (T0 : R0 (k0, RtoC 0) (r0, 0%R)) by (repeat split; cbn [fst snd]; intros; reflexivity).
  fold zero. rewrite bind_assoc. apply (orel_bind R0 (fun z r => fst z = r)). { apply runs_rel; [|exact T0]. intros i s s' _. apply intra_rel. }
  intros s1 s1' T1. rewrite bind_assoc. apply (orel_bind R0 (fun z r => fst z = r)). { apply runs_rel; [|exact T1]. intros i s s' _. apply inter_rel. }
  intros s2 s2' T2. rewrite bind_assoc. apply (orel_bind R0 (fun z r => fst z = r)). { apply runs_rel; [|exact T2]. intros i s s' _. apply hund_rel. }
  intros s3 s3' T3. rewrite bind_assoc. apply (orel_bind R0 (fun z r => fst z = r)). { apply runs_rel; [|exact T3]. intros i s s' Hi. apply transfer_rel; [exact Hx|exact He|exact (B 3 i ltac:(lia) Hi)]. }
  intros s4 s4' T4. rewrite bind_assoc. apply (orel_bind R0 (fun z r => fst z = r)). { apply runs_rel; [|exact T4]. intros i s s' Hi. apply pair_rel; [exact Hx|exact He|exact (B 4 i ltac:(lia) Hi)]. }
  intros s5 s5' T5. rewrite bind_assoc. apply (orel_bind R0 (fun z r => fst z = r)). { apply runs_rel; [|exact T5]. intros i s s' Hi. apply exchange_rel; [exact Hx|exact He|exact (B 5 i ltac:(lia) Hi)]. }
  intros s6 s6' T6. apply (orel_bind R0 (fun z r => fst z = r)). { apply runs_rel; [|exact T6]. intros i s s' Hi. apply interall_rel; [exact Hx|exact He|exact (B 6 i ltac:(lia) Hi)]. }
  intros s7 s7' (_ & _ & T7). cbn [orel]. rewrite <- Hz, <- T7. reflexivity.
Qed.

(** ** weight of a proposal *)
Definition liftB (b : rscratch) : scratch := Scratch (rcntBuf b) (fun _ => RtoC 0) (as_complex (rpfBuf b)).
Lemma metropolis_rel r z u : rc z u -> metropolis_weight Gc (RtoC r) z (kclog K (RtoC ip)) = metropolis_weight_real Gr r u (log_ip_real (kclog K) ip).
Proof.
  intros ->. unfold metropolis_weight, metropolis_weight_real, log_ip_real. cbn [Gr renv_of rclog]. change (gclog Gc) with (kclog K).
  destruct (Ceq_dec (RtoC u) (RtoC 0)) as [E|E], (Req_EM_T u 0) as [F|F]; [reflexivity|injection E as E; contradiction|subst; contradiction|].
  f_equal. f_equal. unfold Cminus, Cplus, Copp, RtoC. cbn. ring.
Qed.
Lemma weight_rel b c w1 : proposed c = Some w1 -> weight Gc (liftB b) w zero (kclog K (RtoC ip)) c = weight_real Gr b w (log_ip_real (kclog K) ip) c.
Proof.
  destruct c as [|mi ri rj s t v1|mi mj ri rj s v1 v2]; [discriminate| |]; intros _; cbn [weight weight_real].
  - unfold one_weight, one_weight_real. change (gT Gc) with (rT Gr). change (gFlagRBM Gc) with false. cbn [liftB cntBuf rbmBuf Mark.Model.pfBuf bind].
    destruct (update_proj_cnt _ _ _ _ _ _ _ _) as [p|]; [|reflexivity]. cbn [bind]. f_equal.
    change (log_ratio Gc p (eleProjCnt w) (fun _ => RtoC 0) zero) with (RtoC (log_proj_ratio_real Gr p (eleProjCnt w))). apply metropolis_rel.
    apply (ip_shadow V HV HR). apply new_pfm_rel; [apply (sl_shadow V K)|intros i; reflexivity..].
  - unfold two_weight, two_weight_real. change (gT Gc) with (rT Gr). change (gFlagRBM Gc) with false. cbn [liftB cntBuf rbmBuf Mark.Model.pfBuf bind].
    destruct (update_proj_cnt _ _ _ _ _ _ _ _) as [p|]; [|reflexivity]. cbn [bind]. destruct (update_proj_cnt _ _ _ _ _ _ _ _) as [p'|]; [|reflexivity]. cbn [bind]. f_equal.
    change (log_ratio Gc p' (eleProjCnt w) (fun _ => RtoC 0) zero) with (RtoC (log_proj_ratio_real Gr p' (eleProjCnt w))). apply metropolis_rel.
    apply (ip_shadow V HV HR). apply new_two_rel; [apply (sl_shadow V K)|intros i; reflexivity..].
Qed.
Lemma weight_real_ok I Orc b q p c w1 : wf_input I -> fits I V -> propose I Orc w q = Some (p, c) -> proposed c = Some w1 ->
  weight_real Gr b w (log_ip_real (kclog K) ip) c = Some ((Cmod (psi (shadow V) (Samp.Model.eleIdx w1)) / Cmod (psi (shadow V) x)) ^ 2)%R.
Proof.
  intros HI Hf E Ec. rewrite <- (weight_rel b c w1 Ec). exact (weight_ok I (shadow V) HI (wf_shadow V HV) Hf Orc (embed K) w zero (RtoC ip) (liftB b) q p c w1 HS E Ec).
Qed.
End P.

(** ** a wave function with real parameters is its own shadow *)
Lemma re_real f : (forall i, snd (f i) = 0%R) -> re f = f.
Proof. intros H. apply functional_extensionality. intros i. unfold re, RtoC. rewrite <- (H i). now destruct (f i). Qed.
Lemma real_psi V : real_wave V -> forall y, psi (shadow V) y = psi V y.
Proof.
  intros (F & H1 & H2 & H3) y. unfold psi, boltzmann, pairs, correlation, occupation, labels, orb, sites. cbn [shadow vS vQ vstot vbeta vweight vpara vflag vopt vsl vT vProj vFlagRBM vM vRBM]. rewrite F, !re_real by assumption. reflexivity.
Qed.
Lemma real_real V : real_wave V -> real_transforms V.
Proof. intros (_ & _ & H & _) _ i _. apply H. Qed.
Lemma real_shadow V : real_wave V -> shadow V = V.
Proof. intros (F & H1 & H2 & H3). unfold shadow. rewrite !re_real by assumption. destruct V. cbn in *. now subst. Qed.
Lemma of_real V K w ip : real_wave V -> sampled V (embed K) w (fun _ => RtoC 0) (RtoC ip) -> sampled_real V K w ip.
Proof. intros H S. unfold sampled_real. now rewrite (real_shadow V H). Qed.

(** ** updates of the matrices *)
Lemma ra_eq a b : ra a b -> a = as_complex b. Proof. intros H. apply functional_extensionality. exact H. Qed.
Lemma update_one_real Nsite Ne sl eleIdx InvM PfM m s r q0 q1 : 0 < Ne -> (forall q, 0 <= q < q1 - q0 -> skew_table Nsite (as_complex sl) (q + q0)) ->
  electron Ne m s -> 0 <= r < Nsite -> on_lattice Nsite (2 * Ne) eleIdx ->
  Pf.Spec.current Nsite Ne (as_complex sl) q0 q1 eleIdx (as_complex InvM) (as_complex PfM) ->
  Pf.Spec.regular Nsite Ne (as_complex sl) q0 q1 (upd eleIdx (m + s * Ne) r) ->
  let st := update_mall_real Nsite Ne (2 * Ne) sl m s (upd eleIdx (m + s * Ne) r) q0 q1 (InvM, PfM) in
  Pf.Spec.current Nsite Ne (as_complex sl) q0 q1 (upd eleIdx (m + s * Ne) r) (as_complex (fst st)) (as_complex (snd st)).
Proof.
  intros H1 H2 H3 H4 H5 H6 H7. assert (X := update_one Nsite Ne H1 (as_complex sl) eleIdx (as_complex InvM) (as_complex PfM) m s r q0 q1 H2 H3 H4 H5 H6 H7). cbv zeta in X |- *.
  destruct (update_rel Nsite Ne (2 * Ne) (as_complex sl) sl ltac:(intros i; reflexivity) m s (upd eleIdx (m + s * Ne) r) q0 q1 (as_complex InvM, as_complex PfM) (InvM, PfM)) as (A & B); [split; intros i; reflexivity|].
  rewrite <- (ra_eq _ _ A), <- (ra_eq _ _ B). exact X.
Qed.
Lemma update_two_real Nsite Ne sl eleIdx InvM PfM ma s ra mb t rb raOld rbOld q0 q1 : 0 < Ne -> (forall q, 0 <= q < q1 - q0 -> skew_table Nsite (as_complex sl) (q + q0)) ->
  electron Ne ma s -> electron Ne mb t -> ma + s * Ne <> mb + t * Ne -> 0 <= ra < Nsite -> 0 <= rb < Nsite -> on_lattice Nsite (2 * Ne) eleIdx ->
  Pf.Spec.current Nsite Ne (as_complex sl) q0 q1 eleIdx (as_complex InvM) (as_complex PfM) ->
  let ele' := upd (upd eleIdx (ma + s * Ne) ra) (mb + t * Ne) rb in
  Pf.Spec.regular Nsite Ne (as_complex sl) q0 q1 ele' ->
  let st := update_mall_two_real Nsite Ne (2 * Ne) sl ma s mb t raOld rbOld ele' q0 q1 (InvM, PfM) in
  Pf.Spec.current Nsite Ne (as_complex sl) q0 q1 ele' (as_complex (fst st)) (as_complex (snd st)).
Proof.
  intros H1 H2 H3 H4 H5 H6 H7 H8 H9 ele' H10. assert (X := update_two Nsite Ne H1 (as_complex sl) eleIdx (as_complex InvM) (as_complex PfM) ma s ra mb t rb raOld rbOld q0 q1 H2 H3 H4 H5 H6 H7 H8 H9 H10). cbv zeta in X |- *. fold ele' in X.
  destruct (update_two_rel Nsite Ne (2 * Ne) (as_complex sl) sl ltac:(intros i; reflexivity) ma s mb t raOld rbOld ele' q0 q1 (as_complex InvM, as_complex PfM) (InvM, PfM)) as (A & B); [split; intros i; reflexivity|].
  rewrite <- (ra_eq _ _ A), <- (ra_eq _ _ B). exact X.
Qed.
(** the table the real routines are given is skew *)
Lemma real_skew V : wf_wave V -> forall K q, 0 <= q < Slater.Model.NQPFull (vS V) -> skew_table (sites V) (as_complex (rSl (renv_of V K))) q.
Proof.
  intros HV K q Hq. rewrite <- (ra_eq _ _ (sl_shadow V K)). exact (skew (shadow V) (wf_shadow V HV) (embed K) q Hq).
Qed.

(** ** for the wave function itself *)
Lemma green1_wave V : wf_wave V -> real_wave V -> forall K w ip, sampled V (embed K) w (fun _ => RtoC 0) (RtoC ip) ->
  forall ri rj s r, 0 <= ri < sites V -> 0 <= rj < sites V -> 0 <= s <= 1 -> starts_real w r ->
  exists v r', green1_real (renv_of V K) ri rj s ip (Samp.Model.eleCfg w) (eleProjCnt w) r = Some (v, r') /\ starts_real w r' /\
    RtoC v = local V [(ri + s * sites V, rj + s * sites V)] (Samp.Model.eleIdx w).
Proof.
  intros HV HR K w ip HS ri rj s r Hi Hj Hs Hr. destruct (green1_real_ok V HV (real_real V HR) K w ip (of_real V K w ip HR HS) ri rj s r Hi Hj Hs Hr) as (v & r' & E & Ev & Hr'). exists v, r'. split; [exact E|]. split; [exact Hr'|]. rewrite Ev, (real_shadow V HR). reflexivity.
Qed.
Lemma green2_wave V : wf_wave V -> real_wave V -> forall K w ip, sampled V (embed K) w (fun _ => RtoC 0) (RtoC ip) ->
  forall ri rj rk rl s t r, 0 <= ri < sites V -> 0 <= rj < sites V -> 0 <= rk < sites V -> 0 <= rl < sites V -> 0 <= s <= 1 -> 0 <= t <= 1 -> starts_real w r ->
  exists v r', green2_real (renv_of V K) ri rj rk rl s t ip (Samp.Model.eleCfg w) (eleProjCnt w) r = Some (v, r') /\ starts_real w r' /\
    RtoC v = local V [(ri + s * sites V, rj + s * sites V); (rk + t * sites V, rl + t * sites V)] (Samp.Model.eleIdx w).
Proof.
  intros HV HR K w ip HS ri rj rk rl s t r Hi Hj Hk Hl Hs Ht Hr. destruct (green2_real_ok V HV (real_real V HR) K w ip (of_real V K w ip HR HS) ri rj rk rl s t r Hi Hj Hk Hl Hs Ht Hr) as (v & r' & E & Ev & Hr'). exists v, r'. split; [exact E|]. split; [exact Hr'|]. rewrite Ev, (real_shadow V HR). reflexivity.
Qed.
Lemma energy_wave V : wf_wave V -> real_wave V -> forall K w ip, sampled V (embed K) w (fun _ => RtoC 0) (RtoC ip) ->
  forall H, sites_ok V H -> spins_kept H -> forall P, execution_real (count H) P ->
  calculate_hamiltonian_real (renv_of V K) H ip (Samp.Model.eleCfg w) (Samp.Model.eleNum w) (eleProjCnt w) P (Samp.Model.eleIdx w) = Some (fst (local_value V (hamiltonian V H) (Samp.Model.eleIdx w))).
Proof. intros HV HR K w ip HS H HH Hsp P HP. rewrite (energy_real V HV (real_real V HR) K w ip (of_real V K w ip HR HS) H HH Hsp P HP), (real_shadow V HR). reflexivity. Qed.
Lemma weight_wave I V : wf_input I -> wf_wave V -> real_wave V -> fits I V -> forall Orc K w ip b q p c w1,
  sampled V (embed K) w (fun _ => RtoC 0) (RtoC ip) -> propose I Orc w q = Some (p, c) -> proposed c = Some w1 ->
  weight_real (renv_of V K) b w (log_ip_real (kclog K) ip) c = Some ((Cmod (psi V (Samp.Model.eleIdx w1)) / Cmod (psi V (Samp.Model.eleIdx w))) ^ 2)%R.
Proof. intros HI HV HR Hf Orc K w ip b q p c w1 HS E Ec. rewrite (weight_real_ok V HV (real_real V HR) K w ip (of_real V K w ip HR HS) I Orc b q p c w1 HI Hf E Ec), (real_shadow V HR). reflexivity. Qed.
Lemma shadow_all V : wf_wave V -> real_transforms V -> forall K w ip, sampled_real V K w ip ->
  (forall ri rj s r, 0 <= ri < sites V -> 0 <= rj < sites V -> 0 <= s <= 1 -> starts_real w r ->
   exists v r', green1_real (renv_of V K) ri rj s ip (Samp.Model.eleCfg w) (eleProjCnt w) r = Some (v, r') /\
     RtoC v = local (shadow V) [(ri + s * sites V, rj + s * sites V)] (Samp.Model.eleIdx w)) /\
  (forall H, sites_ok V H -> spins_kept H -> forall P, execution_real (count H) P ->
   calculate_hamiltonian_real (renv_of V K) H ip (Samp.Model.eleCfg w) (Samp.Model.eleNum w) (eleProjCnt w) P (Samp.Model.eleIdx w) =
   Some (fst (local_value (shadow V) (hamiltonian (shadow V) H) (Samp.Model.eleIdx w)))) /\
  (forall I Orc b q p c w1, wf_input I -> fits I V -> propose I Orc w q = Some (p, c) -> proposed c = Some w1 ->
   weight_real (renv_of V K) b w (log_ip_real (kclog K) ip) c = Some ((Cmod (psi (shadow V) (Samp.Model.eleIdx w1)) / Cmod (psi (shadow V) (Samp.Model.eleIdx w))) ^ 2)%R).
Proof.
  intros HV HR K w ip HS. split; [|split].
  - intros ri rj s r Hi Hj Hs Hr. destruct (green1_real_ok V HV HR K w ip HS ri rj s r Hi Hj Hs Hr) as (v & r' & E & Ev & _). exists v, r'. split; assumption.
  - intros H HH Hsp P HP. exact (energy_real V HV HR K w ip HS H HH Hsp P HP).
  - intros I Orc b q p c w1. exact (weight_real_ok V HV HR K w ip HS I Orc b q p c w1).
Qed.
