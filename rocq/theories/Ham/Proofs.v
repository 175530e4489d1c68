(** The local energy is the matrix element of the Hamiltonian, for every division of the loops among threads. *)
From Coq Require Import ZArith List Bool Lia Reals Lra Permutation FunctionalExtensionality.
From Coquelicot Require Import Complex.
From Verif Require Import Base.ZLoop Base.Checked Base.RSum Proj.Model Proj.Spec Pf.Spec Slater.Model Slater.Spec Rbm.Model Samp.Model Samp.Spec Green.Model Green.Spec Green.Anti Green.Moves Green.Core Green.Proofs Green.ProofsN
  Ham.Model Ham.Spec Ham.ProofsExt.
From Verif Require SR.Proofs.
Import ListNotations.
Local Open Scope Z_scope.

(** ** sums over threads *)
Lemma runs_cons {S} i l (f : Z -> S -> option S) s : runs (i :: l) f s = bind (f i s) (runs l f).
Proof. unfold runs. cbn. destruct (f i s); cbn; [reflexivity|apply fold_bind_none]. Qed.
Lemma runs_sum (I : work -> Prop) (f : Z -> tstate -> option tstate) (T : Z -> C) l : forall st,
  (forall i w v, In i l -> I w -> exists w', f i (w, v) = Some (w', Cplus v (T i)) /\ I w') -> I (fst st) ->
  exists w', runs l f st = Some (w', Cplus (snd st) (csum l T)) /\ I w'.
Proof.
  induction l as [|i l IH]; intros (w, v) Hf HI.
  - exists w. split; [|exact HI]. unfold runs. cbn. f_equal. f_equal. cbn. ring.
  - rewrite runs_cons. destruct (Hf i w v (or_introl eq_refl) HI) as (w1 & E & H1). rewrite E. cbn [bind].
    destruct (IH (w1, Cplus v (T i))) as (w2 & E2 & H2); [intros; apply Hf; [now right|assumption]|exact H1|].
    exists w2. split; [|exact H2]. rewrite E2. cbn [snd csum]. f_equal. f_equal. ring.
Qed.
Lemma threads_sum (f : Z -> C -> option C) (B : Z -> C) l : forall e, (forall t e, In t l -> f t e = Some (Cplus e (B t))) -> runs l f e = Some (Cplus e (csum l B)).
Proof.
  induction l as [|t l IH]; intros e Hf; [unfold runs; cbn; f_equal; ring|]. rewrite runs_cons, Hf by now left. cbn [bind]. rewrite IH by (intros; apply Hf; now right). f_equal. cbn [csum]. ring.
Qed.
Lemma region_sum P start body (B : Z -> C) : (forall t, In t (zrange 0 (threads P)) -> exists w', body t (start (space P t), RtoC 0) = Some (w', B t)) ->
  region P start body = Some (csum (zrange 0 (threads P)) B).
Proof.
  intros H. unfold region. rewrite (threads_sum _ B); [f_equal; ring|]. intros t e Ht. destruct (H t Ht) as (w' & E). rewrite E. reflexivity.
Qed.
(** all iterations of loop l, over all threads *)
Lemma plan_sum n P l (T : Z -> C) : execution n P -> 0 <= l <= 6 -> csum (zrange 0 (threads P)) (fun t => csum (plan P l t) T) = csum (zrange 0 (n l)) T.
Proof. intros H Hl. rewrite <- SR.Proofs.csum_flat_map. apply csum_perm. now apply H. Qed.
Lemma plan_in n P l t i : execution n P -> 0 <= l <= 6 -> In t (zrange 0 (threads P)) -> In i (plan P l t) -> 0 <= i < n l.
Proof.
  intros H Hl Ht Hi. apply zrange_in. apply (Permutation_in _ (H l Hl)). apply in_flat_map. eauto.
Qed.
Lemma value_flat V (h : Z -> observable) l x : local_value V (flat_map h l) x = csum l (fun k => local_value V (h k) x).
Proof. unfold local_value. apply SR.Proofs.csum_flat_map. Qed.
Lemma value_app V O O' x : local_value V (O ++ O') x = Cplus (local_value V O x) (local_value V O' x).
Proof. unfold local_value. apply csum_app. Qed.

Section Energy.
Variable V : wave.
Hypothesis HV : wf_wave V.
Let N := sites V.
Let Ne := Slater.Model.Ne (vS V).
Let HN : 0 < N := N_pos V HV.
Let HNe : 0 < Ne := Ne_pos V HV.

(** ** number operators *)
Section Numbers.
Variables (w : walker).
Hypothesis Hc : consistent N Ne w.
Let x := Samp.Model.eleIdx w.
Let e := Samp.Model.eleNum w.
Lemma number_op a : 0 <= a < 2 * N -> operator V (number a).
Proof. intros H. unfold operator, number. cbn. fold N. auto. Qed.
Lemma string_number a f : 0 <= a < 2 * N -> string V [number a] f x = Cmult (RtoC (IZR (e a))) (f x).
Proof.
  intros Ha. assert (Hop := number_op a Ha). assert (Oa : orbit V a) by exact Ha. destruct (e01 V HN HNe w Hc _ Oa) as [E|E]; fold e in E; rewrite E.
  - transitivity (RtoC 0); [|ring]. apply (step_b_empty V HN HNe w Hc f _ _ []); [exact Hop|exact I|intros o []|exact E].
  - transitivity (f x); [|ring]. apply (step_diag V HN HNe w Hc f _ _ []); [exact Hop|exact I|intros o []|exact E|reflexivity].
Qed.
Lemma string_two a b f : 0 <= a < 2 * N -> 0 <= b < 2 * N -> string V [number a; number b] f x = Cmult (RtoC (IZR (e a * e b))) (f x).
Proof.
  intros Ha Hb. change (string V [number a; number b] f x) with (string V [number b] (string V [number a] f) x).
  rewrite string_number, string_number by assumption. rewrite mult_IZR, RtoC_mult. ring.
Qed.
Lemma conj_real r z : Cconj (Cmult (RtoC r) z) = Cmult (RtoC r) (Cconj z).
Proof. unfold Cconj, Cmult, RtoC. cbn. f_equal; ring. Qed.
Lemma local_numbers p a b : 0 <= a < 2 * N -> 0 <= b < 2 * N -> local V (p ++ [number a; number b]) x = Cmult (RtoC (IZR (e a * e b))) (local V p x).
Proof.
  intros Ha Hb. unfold local. rewrite string_app, string_two by assumption. rewrite <- conj_real. f_equal. unfold Cdiv. ring.
Qed.

(** the diagonal terms, after any string *)
Definition after (O : observable) (p : list (Z * Z)) : observable := map (fun t => (fst t, p ++ snd t)) O.
Variable H : terms.
Hypothesis HH : sites_ok V H.
Definition v_intra (k : Z) : R := (ParaIntra H k * IZR (e (Intra H k)) * IZR (e (Intra H k + N)))%R.
Definition v_inter (k : Z) : R := (ParaInter H k * IZR (e (Inter H k 0) + e (Inter H k 0 + N)) * IZR (e (Inter H k 1) + e (Inter H k 1 + N)))%R.
Definition v_hund (k : Z) : R := (- (ParaHund H k * IZR (e (Hund H k 0) * e (Hund H k 1) + e (Hund H k 0 + N) * e (Hund H k 1 + N))))%R.
Lemma orb_up r : 0 <= r < N -> 0 <= r < 2 * N. Proof. lia. Qed.
Lemma orb_down r : 0 <= r < N -> 0 <= r + N < 2 * N. Proof. lia. Qed.
Lemma intra_value p k : 0 <= k < NIntra H -> local_value V (after (h_intra V H k) p) x = Cmult (RtoC (v_intra k)) (local V p x).
Proof.
  intros Hk. assert (S := ok_intra V H HH k Hk). unfold h_intra, after, local_value. cbn [map csum fst snd]. fold N. rewrite local_numbers by (first [apply orb_up; exact S | apply orb_down; exact S]).
  unfold v_intra. rewrite mult_IZR, !RtoC_mult. ring.
Qed.
Lemma inter_value p k : 0 <= k < NInter H -> local_value V (after (h_inter V H k) p) x = Cmult (RtoC (v_inter k)) (local V p x).
Proof.
  intros Hk. destruct (ok_inter V H HH k Hk) as (S1 & S2). unfold h_inter, after, local_value. cbn [map csum fst snd]. fold N. rewrite Z.mul_0_l, Z.mul_1_l, !Z.add_0_r.
  rewrite !local_numbers by (first [apply orb_up; assumption | apply orb_down; assumption]). unfold v_inter. rewrite !plus_IZR, !mult_IZR, !RtoC_mult, !RtoC_plus. ring.
Qed.
Lemma hund_value p k : 0 <= k < NHund H -> local_value V (after (h_hund V H k) p) x = Cmult (RtoC (v_hund k)) (local V p x).
Proof.
  intros Hk. destruct (ok_hund V H HH k Hk) as (S1 & S2). unfold h_hund, after, local_value. cbn [map csum fst snd]. fold N. rewrite Z.mul_0_l, Z.mul_1_l, !Z.add_0_r.
  rewrite !local_numbers by (first [apply orb_up; assumption | apply orb_down; assumption]). unfold v_hund. rewrite RtoC_opp, RtoC_mult, plus_IZR, !mult_IZR, RtoC_plus, !RtoC_mult. ring.
Qed.
Definition v_diag : C := Cplus (csum (zrange 0 (NIntra H)) (fun k => RtoC (v_intra k))) (Cplus (csum (zrange 0 (NInter H)) (fun k => RtoC (v_inter k))) (csum (zrange 0 (NHund H)) (fun k => RtoC (v_hund k)))).
Lemma after_app O O' p : after (O ++ O') p = after O p ++ after O' p. Proof. apply map_app. Qed.
Lemma after_flat (h : Z -> observable) l p : after (flat_map h l) p = flat_map (fun k => after (h k) p) l.
Proof. induction l as [|k l IH]; [reflexivity|]. cbn [flat_map]. rewrite after_app. now rewrite IH. Qed.
Lemma csum_scal_right {A} (l : list A) f c : csum l (fun k => Cmult (f k) c) = Cmult (csum l f) c.
Proof. induction l as [|k l IH]; cbn; [ring|]. rewrite IH. ring. Qed.
Lemma diagonal_value p : local_value V (after (diagonal V H) p) x = Cmult v_diag (local V p x).
Proof.
  unfold diagonal, v_diag. rewrite !after_app, !value_app, !after_flat, !value_flat.
  rewrite (csum_ext (zrange 0 (NIntra H)) _ (fun k => Cmult (RtoC (v_intra k)) (local V p x))) by (intros k Hk; apply intra_value; now apply zrange_in).
  rewrite (csum_ext (zrange 0 (NInter H)) _ (fun k => Cmult (RtoC (v_inter k)) (local V p x))) by (intros k Hk; apply inter_value; now apply zrange_in).
  rewrite (csum_ext (zrange 0 (NHund H)) _ (fun k => Cmult (RtoC (v_hund k)) (local V p x))) by (intros k Hk; apply hund_value; now apply zrange_in).
  rewrite !csum_scal_right. ring.
Qed.

(** the loops over diagonal terms *)
Variable G : env.
Hypothesis HG : gNsite G = N.
Lemma it_intra_ok k t v : 0 <= k < NIntra H -> it_intra G H e k (t, v) = Some (t, Cplus v (RtoC (v_intra k))).
Proof.
  intros Hk. assert (S := ok_intra V H HH k Hk). unfold it_intra. rewrite HG. fold N in S. unfold site in S. fold N in S. rewrite !rd_ok by lia. reflexivity.
Qed.
Lemma it_inter_ok k t v : 0 <= k < NInter H -> it_inter G H e k (t, v) = Some (t, Cplus v (RtoC (v_inter k))).
Proof.
  intros Hk. destruct (ok_inter V H HH k Hk) as (S1 & S2). unfold it_inter. rewrite HG. unfold site in S1, S2. fold N in S1, S2. rewrite !rd_ok by lia. reflexivity.
Qed.
Lemma it_hund_ok k t v : 0 <= k < NHund H -> it_hund G H e k (t, v) = Some (t, Cplus v (RtoC (v_hund k))).
Proof.
  intros Hk. destruct (ok_hund V H HH k Hk) as (S1 & S2). unfold it_hund. rewrite HG. unfold site in S1, S2. fold N in S1, S2. rewrite !rd_ok by lia. reflexivity.
Qed.
(** the three loops in one thread *)
Lemma diag_runs P t : execution (count H) P -> In t (zrange 0 (threads P)) -> forall k v,
  bind (runs (plan P 0 t) (it_intra G H e) (k, v)) (fun st => bind (runs (plan P 1 t) (it_inter G H e) st) (fun st => runs (plan P 2 t) (it_hund G H e) st)) =
  Some (k, Cplus v (Cplus (csum (plan P 0 t) (fun i => RtoC (v_intra i))) (Cplus (csum (plan P 1 t) (fun i => RtoC (v_inter i))) (csum (plan P 2 t) (fun i => RtoC (v_hund i)))))).
Proof.
  intros HP Ht k v.
  destruct (runs_sum (fun k' => k' = k) (it_intra G H e) (fun i => RtoC (v_intra i)) (plan P 0 t) (k, v)) as (k1 & E1 & ->); [|reflexivity|].
  { intros i k' v' Hi ->. exists k. split; [|reflexivity]. apply it_intra_ok. exact (plan_in (count H) P 0 t i HP ltac:(lia) Ht Hi). }
  rewrite E1. cbn [bind].
  destruct (runs_sum (fun k' => k' = k) (it_inter G H e) (fun i => RtoC (v_inter i)) (plan P 1 t) (k, Cplus (snd (k, v)) (csum (plan P 0 t) (fun i => RtoC (v_intra i))))) as (k2 & E2 & ->); [|reflexivity|].
  { intros i k' v' Hi ->. exists k. split; [|reflexivity]. apply it_inter_ok. exact (plan_in (count H) P 1 t i HP ltac:(lia) Ht Hi). }
  rewrite E2. cbn [bind].
  match goal with |- runs _ _ ?st = _ => destruct (runs_sum (fun k' => k' = k) (it_hund G H e) (fun i => RtoC (v_hund i)) (plan P 2 t) st) as (k3 & E3 & ->); [|reflexivity|] end.
  { intros i k' v' Hi ->. exists k. split; [|reflexivity]. apply it_hund_ok. exact (plan_in (count H) P 2 t i HP ltac:(lia) Ht Hi). }
  rewrite E3. f_equal. f_equal. cbn [snd]. ring.
Qed.
Lemma diag_total P : execution (count H) P ->
  csum (zrange 0 (threads P)) (fun t => Cplus (csum (plan P 0 t) (fun i => RtoC (v_intra i))) (Cplus (csum (plan P 1 t) (fun i => RtoC (v_inter i))) (csum (plan P 2 t) (fun i => RtoC (v_hund i))))) = v_diag.
Proof.
  intros HP. rewrite !csum_add. rewrite !(plan_sum (count H) P) by (exact HP || lia). reflexivity.
Qed.
Lemma hamiltonian0_diag P : execution (count H) P -> calculate_hamiltonian0 G H e P = Some v_diag.
Proof.
  intros HP. unfold calculate_hamiltonian0. erewrite region_sum; [rewrite diag_total by exact HP; reflexivity|].
  intros t Ht. eexists. rewrite (diag_runs P t HP Ht). f_equal. f_equal. ring.
Qed.
End Numbers.

(** ** the whole energy *)
Section Whole.
Variables (K : setting) (w : walker) (rcnt : Z -> C) (ip : C).
Hypothesis HS : sampled V K w rcnt ip.
Let x := Samp.Model.eleIdx w.
Let e := Samp.Model.eleNum w.
Let G := env_of V K.
Variable H : terms.
Hypothesis HH : sites_ok V H.
Hypothesis Hsp : spins_kept H.
Lemma local_nil : local V [] x = RtoC 1.
Proof. apply (local_1 V HV w K rcnt ip HS). reflexivity. Qed.
Lemma after_nil O : after O [] = O.
Proof. unfold after. rewrite <- (map_id O) at 2. apply map_ext. intros (c, p). reflexivity. Qed.
Lemma diagonal_nil : local_value V (diagonal V H) x = v_diag w H.
Proof. rewrite <- (after_nil (diagonal V H)). rewrite (diagonal_value w (sa_tables _ _ _ _ _ HS) H HH). fold x. rewrite local_nil. ring. Qed.

(** one thread: k starts w' for the walker w' with the thread's own tables *)
Section Thread.
Variables x' e' : Z -> Z.
Hypothesis Hx : forall m, 0 <= m < 2 * Ne -> x' m = x m.
Hypothesis He : forall rs, 0 <= rs < 2 * N -> e' rs = e rs.
Let w' := redone w x' e'.
Let HS' : sampled V K w' rcnt ip := redone_sampled V HV K w rcnt ip HS x' e' Hx He.
Let I (k : work) : Prop := starts w' k.
Lemma same_value O : local_value V O x' = local_value V O x.
Proof. unfold local_value. apply csum_ext. intros t _. f_equal. apply (redone_local V w x' Hx). Qed.
Lemma sup r : r + 0 * N = r. Proof. lia. Qed.
Lemma sdn r : r + 1 * N = r + N. Proof. lia. Qed.
Lemma it_transfer_ok k t v : 0 <= k < NTransfer H -> I t -> exists t', it_transfer G H ip (Samp.Model.eleCfg w) (eleProjCnt w) rcnt k (t, v) = Some (t', Cplus v (local_value V (h_transfer V H k) x)) /\ I t'.
Proof.
  intros Hk Ht. destruct (ok_transfer V H HH k Hk) as (S1 & S2 & S3 & S4). destruct Hsp as (T1 & _). unfold it_transfer.
  destruct (green1_ok V HV w' K rcnt ip HS' (Transfer H k 0) (Transfer H k 2) (Transfer H k 3) t S1 S3 S4 Ht) as (t' & E & Ht').
  change (Samp.Model.eleCfg w') with (Samp.Model.eleCfg w) in E. change (eleProjCnt w') with (eleProjCnt w) in E. change (env_of V K) with G in E.
  exists t'. split; [|exact Ht']. cbn [fst]. rewrite E. unfold add_green. cbn [bind fst snd]. f_equal. f_equal. f_equal. rewrite <- same_value. unfold local_value, h_transfer. cbn [csum fst snd].
  change (Samp.Model.eleIdx w') with x'. rewrite (T1 k Hk). ring.
Qed.
Lemma it_pair_ok k t v : 0 <= k < NPair H -> I t -> exists t', it_pair G H ip (Samp.Model.eleCfg w) (eleProjCnt w) rcnt k (t, v) = Some (t', Cplus v (local_value V (h_pair V H k) x)) /\ I t'.
Proof.
  intros Hk Ht. destruct (ok_pair V H HH k Hk) as (S1 & S2). unfold it_pair.
  destruct (green2_ok V HV w' K rcnt ip HS' (Pair H k 0) (Pair H k 1) (Pair H k 0) (Pair H k 1) 0 1 t S1 S2 S1 S2 ltac:(lia) ltac:(lia) Ht) as (t' & E & Ht').
  change (Samp.Model.eleCfg w') with (Samp.Model.eleCfg w) in E. change (eleProjCnt w') with (eleProjCnt w) in E. change (env_of V K) with G in E.
  exists t'. split; [|exact Ht']. cbn [fst]. rewrite E. unfold add_green. cbn [bind fst snd]. f_equal. f_equal. f_equal. rewrite <- same_value. unfold local_value, h_pair. cbn [csum fst snd].
  change (Samp.Model.eleIdx w') with x'. fold N. rewrite !sup, !sdn. ring.
Qed.
Lemma it_exchange_ok k t v : 0 <= k < NExchange H -> I t -> exists t', it_exchange G H ip (Samp.Model.eleCfg w) (eleProjCnt w) rcnt k (t, v) = Some (t', Cplus v (local_value V (h_exchange V H k) x)) /\ I t'.
Proof.
  intros Hk Ht. destruct (ok_exchange V H HH k Hk) as (S1 & S2). unfold it_exchange.
  destruct (green2_ok V HV w' K rcnt ip HS' (Exchange H k 0) (Exchange H k 1) (Exchange H k 1) (Exchange H k 0) 0 1 t S1 S2 S2 S1 ltac:(lia) ltac:(lia) Ht) as (t1 & E1 & Ht1).
  destruct (green2_ok V HV w' K rcnt ip HS' (Exchange H k 0) (Exchange H k 1) (Exchange H k 1) (Exchange H k 0) 1 0 t1 S1 S2 S2 S1 ltac:(lia) ltac:(lia) Ht1) as (t' & E & Ht').
  change (Samp.Model.eleCfg w') with (Samp.Model.eleCfg w) in E, E1. change (eleProjCnt w') with (eleProjCnt w) in E, E1. change (env_of V K) with G in E, E1.
  exists t'. split; [|exact Ht']. cbn [fst]. rewrite E1. unfold add_green. cbn [bind fst snd]. rewrite E. cbn [bind fst snd]. f_equal. f_equal. f_equal. rewrite <- same_value. unfold local_value, h_exchange. cbn [csum fst snd].
  change (Samp.Model.eleIdx w') with x'. fold N. rewrite !sup, !sdn. ring.
Qed.
Lemma it_interall_ok k t v : 0 <= k < NInterAll H -> I t -> exists t', it_interall G H ip (Samp.Model.eleCfg w) (eleProjCnt w) rcnt k (t, v) = Some (t', Cplus v (local_value V (h_interall V H k) x)) /\ I t'.
Proof.
  intros Hk Ht. destruct (ok_interall V H HH k Hk) as (S1 & S2 & S3 & S4 & S5 & S6 & S7 & S8). destruct Hsp as (_ & T1). destruct (T1 k Hk) as (T2 & T3). unfold it_interall.
  destruct (green2_ok V HV w' K rcnt ip HS' (InterAll H k 0) (InterAll H k 2) (InterAll H k 4) (InterAll H k 6) (InterAll H k 3) (InterAll H k 7) t S1 S3 S5 S7 S4 S8 Ht) as (t' & E & Ht').
  change (Samp.Model.eleCfg w') with (Samp.Model.eleCfg w) in E. change (eleProjCnt w') with (eleProjCnt w) in E. change (env_of V K) with G in E.
  exists t'. split; [|exact Ht']. cbn [fst]. rewrite E. unfold add_green. cbn [bind fst snd]. f_equal. f_equal. f_equal. rewrite <- same_value. unfold local_value, h_interall. cbn [csum fst snd].
  change (Samp.Model.eleIdx w') with x'. rewrite T2, T3. ring.
Qed.
Lemma hop_runs P t : execution (count H) P -> In t (zrange 0 (threads P)) -> forall k v, I k -> exists k',
  bind (runs (plan P 3 t) (it_transfer G H ip (Samp.Model.eleCfg w) (eleProjCnt w) rcnt) (k, v)) (fun st =>
  bind (runs (plan P 4 t) (it_pair G H ip (Samp.Model.eleCfg w) (eleProjCnt w) rcnt) st) (fun st =>
  bind (runs (plan P 5 t) (it_exchange G H ip (Samp.Model.eleCfg w) (eleProjCnt w) rcnt) st) (fun st =>
  runs (plan P 6 t) (it_interall G H ip (Samp.Model.eleCfg w) (eleProjCnt w) rcnt) st))) =
  Some (k', Cplus v (Cplus (csum (plan P 3 t) (fun i => local_value V (h_transfer V H i) x)) (Cplus (csum (plan P 4 t) (fun i => local_value V (h_pair V H i) x))
    (Cplus (csum (plan P 5 t) (fun i => local_value V (h_exchange V H i) x)) (csum (plan P 6 t) (fun i => local_value V (h_interall V H i) x)))))).
Proof.
  intros HP Ht k v Hk.
  match goal with |- context [bind (runs _ ?f ?st) _] => destruct (runs_sum I f (fun i => local_value V (h_transfer V H i) x) (plan P 3 t) st) as (k1 & E1 & H1); [|exact Hk|] end.
  { intros i k' v' Hi Hk'. apply it_transfer_ok; [exact (plan_in (count H) P 3 t i HP ltac:(lia) Ht Hi)|exact Hk']. }
  rewrite E1. cbn [bind].
  match goal with |- context [bind (runs _ ?f ?st) _] => destruct (runs_sum I f (fun i => local_value V (h_pair V H i) x) (plan P 4 t) st) as (k2 & E2 & H2); [|exact H1|] end.
  { intros i k' v' Hi Hk'. apply it_pair_ok; [exact (plan_in (count H) P 4 t i HP ltac:(lia) Ht Hi)|exact Hk']. }
  rewrite E2. cbn [bind].
  match goal with |- context [bind (runs _ ?f ?st) _] => destruct (runs_sum I f (fun i => local_value V (h_exchange V H i) x) (plan P 5 t) st) as (k3 & E3 & H3); [|exact H2|] end.
  { intros i k' v' Hi Hk'. apply it_exchange_ok; [exact (plan_in (count H) P 5 t i HP ltac:(lia) Ht Hi)|exact Hk']. }
  rewrite E3. cbn [bind].
  match goal with |- context [runs _ ?f ?st] => destruct (runs_sum I f (fun i => local_value V (h_interall V H i) x) (plan P 6 t) st) as (k4 & E4 & H4); [|exact H3|] end.
  { intros i k' v' Hi Hk'. apply it_interall_ok; [exact (plan_in (count H) P 6 t i HP ltac:(lia) Ht Hi)|exact Hk']. }
  rewrite E4. exists k4. f_equal. f_equal. cbn [snd]. ring.
Qed.
End Thread.

Lemma copy_get {A} n (f g : Z -> A) i : 0 <= i < n -> loop 0 n (fun i a => upd a i (f i)) g i = f i.
Proof.
  clear. intros Hj. apply (loop_inv (fun j g => forall i, 0 <= i < j -> g i = f i) 0 n (fun i g => upd g i (f i)) g); [lia|lia| |exact Hj].
  intros j g' Hi IH k Hk. rewrite upd_get. destruct (Z.eqb_spec k j) as [->|]; [reflexivity|apply IH; lia].
Qed.
Lemma energy P : execution (count H) P ->
  calculate_hamiltonian G H ip (Samp.Model.eleCfg w) e (eleProjCnt w) rcnt P x = Some (local_value V (hamiltonian V H) x).
Proof.
  intros HP. unfold calculate_hamiltonian.
  set (hop := fun t => Cplus (csum (plan P 3 t) (fun i => local_value V (h_transfer V H i) x)) (Cplus (csum (plan P 4 t) (fun i => local_value V (h_pair V H i) x))
    (Cplus (csum (plan P 5 t) (fun i => local_value V (h_exchange V H i) x)) (csum (plan P 6 t) (fun i => local_value V (h_interall V H i) x))))).
  set (dia := fun t => Cplus (csum (plan P 0 t) (fun i => RtoC (v_intra w H i))) (Cplus (csum (plan P 1 t) (fun i => RtoC (v_inter w H i))) (csum (plan P 2 t) (fun i => RtoC (v_hund w H i))))).
  rewrite (region_sum P _ _ (fun t => Cplus (dia t) (hop t))).
  - rewrite csum_add. unfold dia at 1. rewrite (diag_total w H P HP). unfold hop. rewrite !csum_add, !(plan_sum (count H) P) by (exact HP || lia).
    unfold hamiltonian, hopping. rewrite !value_app, diagonal_nil, !value_flat. reflexivity.
  - intros t Ht. set (k0 := copy_tables G e x (space P t)).
    assert (Hx : forall m, 0 <= m < 2 * Ne -> Green.Model.eleIdx k0 m = x m) by (intros m Hm; unfold k0, copy_tables; cbn [Green.Model.eleIdx]; now apply copy_get).
    assert (He : forall rs, 0 <= rs < 2 * N -> Green.Model.eleNum k0 rs = e rs) by (intros m Hm; unfold k0, copy_tables; cbn [Green.Model.eleNum]; now apply copy_get).
    assert (D := diag_runs w H HH G eq_refl P t HP Ht k0 (RtoC 0)). fold e in D.
    destruct (runs (plan P 0 t) (it_intra G H e) (k0, RtoC 0)) as [st1|]; [|discriminate]. cbn [bind] in D |- *.
    destruct (runs (plan P 1 t) (it_inter G H e) st1) as [st2|]; [|discriminate]. cbn [bind] in D |- *. rewrite D. cbn [bind].
    destruct (hop_runs (Green.Model.eleIdx k0) (Green.Model.eleNum k0) Hx He P t HP Ht k0 (Cplus (RtoC 0) (dia t))) as (k' & E); [split; reflexivity|].
    exists k'. unfold dia in E |- *. etransitivity; [exact E|]. f_equal. f_equal. unfold hop. ring.
Qed.
End Whole.
End Energy.
