(** Local values of the Hamiltonian times one bilinear (calHCA). *)
From Coq Require Import ZArith List Bool Lia Reals Lra Permutation FunctionalExtensionality.
From Coquelicot Require Import Complex.
From Verif Require Import Base.ZLoop Base.Checked Base.RSum Proj.Model Proj.Spec Pf.Pfaffian Pf.Model Pf.Spec Pf.Proofs Pf.ProofsTwo Slater.Model Slater.Spec Slater.Proofs Rbm.Model Rbm.Spec Samp.Model Samp.Spec
  Green.Model Green.Spec Green.Anti Green.Moves Green.Core Green.Proofs Green.ProofsN Ham.Model Ham.Spec Ham.ProofsExt Ham.Proofs Ham.ProofsTwo Ham.ProofsHop.
From Verif Require SR.Proofs.
Import ListNotations.
Local Open Scope Z_scope.

Definition before (O : observable) (q : list (Z * Z)) : observable := map (fun t => (fst t, snd t ++ q)) O.
Lemma before_times V O q x : local_value V (times O [(RtoC 1, q)]) x = local_value V (before O q) x.
Proof.
  unfold local_value, times, before. rewrite SR.Proofs.csum_flat_map, SR.Proofs.csum_map. apply csum_ext. intros t _. cbn [map csum fst snd]. ring.
Qed.
Lemma before_app O O' p : before (O ++ O') p = before O p ++ before O' p. Proof. apply map_app. Qed.
Lemma before_flat (h : Z -> observable) l p : before (flat_map h l) p = flat_map (fun k => before (h k) p) l.
Proof. induction l as [|k l IH]; [reflexivity|]. cbn [flat_map]. rewrite before_app. now rewrite IH. Qed.
Lemma conj_mult u v : Cconj (Cmult u v) = Cmult (Cconj u) (Cconj v). Proof. apply SR.Proofs.Ceq; cbn; ring. Qed.
Lemma tiny_pos : (0 < tiny)%R. Proof. unfold tiny. apply Rinv_0_lt_compat. apply pow_lt. lra. Qed.
Lemma loop_sum {S} (f : Z -> C * S -> option (C * S)) (T : Z -> C) (sh : S) n v0 : (forall i v, 0 <= i < n -> f i (v, sh) = Some (Cplus v (T i), sh)) ->
  loopM 0 n f (v0, sh) = Some (Cplus v0 (csum (zrange 0 n) T), sh).
Proof.
  intros Hf. change (loopM 0 n f (v0, sh)) with (runs (zrange 0 n) f (v0, sh)).
  assert (G : forall l v, (forall i, In i l -> 0 <= i < n) -> runs l f (v, sh) = Some (Cplus v (csum l T), sh)).
  { induction l as [|i l IH]; intros v Hl; [unfold runs; cbn; f_equal; f_equal; ring|]. rewrite runs_cons, Hf by (apply Hl; now left). cbn [bind]. rewrite IH by (intros; apply Hl; now right). cbn [csum]. f_equal. f_equal. ring. }
  apply G. intros i Hi. now apply zrange_in.
Qed.

Section Ls.
Variable V : wave.
Hypothesis HV : wf_wave V.
Hypothesis Hz : no_partial_zero V.
Let N := sites V.
Let Ne := Slater.Model.Ne (vS V).
Let HN : 0 < N := N_pos V HV.
Let HNe : 0 < Ne := Ne_pos V HV.
Variables (K : setting) (w : walker) (rcnt : Z -> C) (ip : C).
Hypothesis HS : sampled V K w rcnt ip.
Let x := Samp.Model.eleIdx w.
Let e := Samp.Model.eleNum w.
Let G := env_of V K.
Let Hc : consistent N Ne w := sa_tables _ _ _ _ _ HS.
Let Sl := elements_of V (sopt0 K) (sE0 K).
Variable H : terms.
Hypothesis HH : sites_ok V H.
Hypothesis Hsp : spins_kept H.
Variable kernel : Z -> Z -> (Z -> Z) -> (Z -> Z) -> (Z -> Z) -> C.
Local Notation two_body := (Ham.Spec.two_body H).
Hypothesis Hker : two_body -> pfaffian_routine V K w kernel.
Variable own : work.
Let Ham := hamiltonian V H.
Definition sh0 : shared := Shared x (Samp.Model.eleCfg w) e (sInvM K) (sPfM K).
Lemma holds_sh0 : holds K w sh0. Proof. repeat split. Qed.
Lemma holds_eq sh : holds K w sh -> sh = sh0.
Proof. destruct sh. unfold holds. cbn. intros (-> & -> & -> & -> & ->). reflexivity. Qed.

(** ** values of H times a string *)
Definition phi (q : list (Z * Z)) : C := local_value V (before Ham q) x.
Lemma local_before o q : local V (o ++ q) x = Cconj (Cdiv (string V q (string V o (psi V)) x) (psi V x)).
Proof. unfold local. now rewrite string_app. Qed.
Lemma phi_eq q : phi q = csum Ham (fun t => Cmult (fst t) (Cconj (Cdiv (string V q (string V (snd t) (psi V)) x) (psi V x)))).
Proof. unfold phi, local_value, before. rewrite SR.Proofs.csum_map. apply csum_ext. intros t _. cbn [fst snd]. now rewrite local_before. Qed.
Lemma op_anti o : anti V (string V o (psi V)). Proof. apply string_anti. apply psi_anti. Qed.
Lemma phi_same q q' : (forall f, anti V f -> string V q f x = string V q' f x) -> phi q = phi q'.
Proof. intros E. rewrite !phi_eq. apply csum_ext. intros t _. now rewrite (E _ (op_anti (snd t))). Qed.
Lemma phi_nil : phi [] = local_value V Ham x.
Proof. unfold phi. f_equal. unfold before. rewrite <- (map_id Ham) at 2. apply map_ext. intros (c, o). cbn. now rewrite app_nil_r. Qed.
Lemma phi_0 q : (forall f, anti V f -> string V q f x = RtoC 0) -> phi q = RtoC 0.
Proof.
  intros E. rewrite phi_eq. apply csum_zero. intros t _. rewrite (E _ (op_anti (snd t))). unfold Cdiv. rewrite Cmult_0_l. apply SR.Proofs.Ceq; cbn; ring.
Qed.
Lemma phi_opp q q' : (forall f, anti V f -> string V q f x = Copp (string V q' f x)) -> phi q = Copp (phi q').
Proof.
  intros E. rewrite !phi_eq. rewrite <- csum_opp. apply csum_ext. intros t _. rewrite (E _ (op_anti (snd t))).
  replace (Cdiv (Copp (string V q' (string V (snd t) (psi V)) x)) (psi V x)) with (Copp (Cdiv (string V q' (string V (snd t) (psi V)) x) (psi V x))) by (unfold Cdiv; ring).
  apply SR.Proofs.Ceq; cbn; ring.
Qed.
Lemma psi_x : psi V x <> RtoC 0. Proof. apply (psi_nz V HV w Hc K rcnt ip HS). Qed.
(** through the energy of the configuration reached *)
Lemma phi_clean q : clean V w q -> psi V (moves V w q) <> RtoC 0 ->
  phi q = Cmult (local_value V Ham (moves V w q)) (Cconj (Cdiv (psi V (moves V w q)) (psi V x))).
Proof.
  intros Hq Hn. rewrite phi_eq. unfold local_value. rewrite <- csum_scal_right. apply csum_ext. intros t _. unfold x. rewrite (clean_value V HN HNe w Hc _ _ Hq).
  unfold local. rewrite <- Cmult_assoc. f_equal. rewrite <- conj_mult. f_equal. field. split; [exact psi_x|exact Hn].
Qed.
(** the terms with number operators *)
Lemma diagonal_gen (w' : walker) (L : list (Z * Z) -> C) (L0 : C) :
  (forall a b, 0 <= a < 2 * N -> 0 <= b < 2 * N -> L [number a; number b] = Cmult (RtoC (IZR (Samp.Model.eleNum w' a * Samp.Model.eleNum w' b))) L0) ->
  csum (diagonal V H) (fun t => Cmult (fst t) (L (snd t))) = Cmult (v_diag V w' H) L0.
Proof.
  intros HL. set (e' := Samp.Model.eleNum w') in *. unfold diagonal, v_diag. rewrite !csum_app, !SR.Proofs.csum_flat_map.
  rewrite (csum_ext (zrange 0 (NIntra H)) _ (fun k => Cmult (RtoC (v_intra V w' H k)) L0)).
  2:{ intros k Hk. apply zrange_in in Hk. assert (S := ok_intra V H HH k Hk). unfold site in S. fold N in S. unfold h_intra. cbn [csum fst snd]. fold N. rewrite HL by lia.
      unfold v_intra. fold N e'. rewrite mult_IZR, !RtoC_mult. ring. }
  rewrite (csum_ext (zrange 0 (NInter H)) _ (fun k => Cmult (RtoC (v_inter V w' H k)) L0)).
  2:{ intros k Hk. apply zrange_in in Hk. destruct (ok_inter V H HH k Hk) as (S1 & S2). unfold site in S1, S2. fold N in S1, S2. unfold h_inter. cbn [map csum fst snd]. fold N. rewrite Z.mul_0_l, Z.mul_1_l, !Z.add_0_r. rewrite !HL by lia.
      unfold v_inter. fold N e'. rewrite !plus_IZR, !mult_IZR, !RtoC_mult, !RtoC_plus. ring. }
  rewrite (csum_ext (zrange 0 (NHund H)) _ (fun k => Cmult (RtoC (v_hund V w' H k)) L0)).
  2:{ intros k Hk. apply zrange_in in Hk. destruct (ok_hund V H HH k Hk) as (S1 & S2). unfold site in S1, S2. fold N in S1, S2. unfold h_hund. cbn [map csum fst snd]. fold N. rewrite Z.mul_0_l, Z.mul_1_l, !Z.add_0_r. rewrite !HL by lia.
      unfold v_hund. fold N e'. rewrite RtoC_opp, RtoC_mult, plus_IZR, !mult_IZR, RtoC_plus, !RtoC_mult. ring. }
  rewrite !csum_scal_right. ring.
Qed.
Lemma diagonal_clean w' q : clean V w q -> consistent N Ne w' -> Samp.Model.eleIdx w' = moves V w q ->
  local_value V (before (diagonal V H) q) x = Cmult (v_diag V w' H) (local V q x).
Proof.
  intros Hq Hc' Ex. unfold local_value, before. rewrite SR.Proofs.csum_map. cbn [fst snd]. apply (diagonal_gen w' (fun o => local V (o ++ q) x)).
  intros a b Ha Hb. rewrite local_before. unfold x. rewrite (clean_value V HN HNe w Hc _ _ Hq). rewrite <- Ex. rewrite (string_two V HV w' Hc') by assumption.
  unfold local. rewrite (clean_value V HN HNe w Hc _ _ Hq), <- Ex. rewrite <- conj_real. f_equal. unfold Cdiv. ring.
Qed.

(** ** the loops over the other terms before a string, in one thread *)
Section Tail.
Variables (n : Z) (ta tb : Z -> Z).
Hypothesis Hn : n = 1 \/ n = 2.
Hypothesis Htail : forall k, 0 <= k < n -> operator V (ta k, tb k).
Let q := operators n ta tb.
Section Thread.
Variables x' e' : Z -> Z.
Hypothesis Hx : forall m, 0 <= m < 2 * Ne -> x' m = x m.
Hypothesis He : forall rs, 0 <= rs < 2 * N -> e' rs = e rs.
Let w' := redone w x' e'.
Let HS' : sampled V K w' rcnt ip := redone_sampled V HV K w rcnt ip HS x' e' Hx He.
Lemma back o : local V o x' = local V o x. Proof. apply (redone_local V w x' Hx). Qed.
Lemma ker' : two_body -> pfaffian_routine V K w' kernel.
Proof. intros T k m msj rsj y H1 H2 H3 H4 H5 H6. apply (Hker T); try assumption. intros i Hi Hd. rewrite (H6 i Hi Hd). cbn. apply Hx. now apply label_in. Qed.
Lemma call_ok a b k : two_body -> operator V (a 0, b 0) -> operator V (a 1, b 1) -> starts w' k ->
  exists k', call_n kernel (eleProjCnt w) rcnt G ip (Samp.Model.eleCfg w) n ta tb 2 a b k = Some (local V ([(a 0, b 0); (a 1, b 1)] ++ q) x, k') /\ starts w' k'.
Proof.
  intros T O0 O1 Hk. unfold call_n, strings. cbn [fst snd].
  destruct (green_n_ok V HV w' K rcnt ip HS' kernel (ker' T) 4 (2 + n) (fun k => if k <? 2 then a k else ta (k - 2)) (fun k => if k <? 2 then b k else tb (k - 2)) k) as (k' & E & Hk'); [lia| |exact Hk|].
  - intros i Hi. destruct (Z.ltb_spec i 2) as [L|L]; [assert (i = 0 \/ i = 1) as [-> | ->] by lia; assumption|apply Htail; lia].
  - exists k'. split; [|exact Hk']. etransitivity; [exact E|]. do 2 f_equal. change (Samp.Model.eleIdx w') with x'. rewrite back. f_equal. unfold q, operators. destruct Hn as [-> | ->]; reflexivity.
Qed.
Lemma call1_ok a b k : n = 1 \/ two_body -> operator V (a 0, b 0) -> starts w' k ->
  exists k', call_n kernel (eleProjCnt w) rcnt G ip (Samp.Model.eleCfg w) n ta tb 1 a b k = Some (local V ([(a 0, b 0)] ++ q) x, k') /\ starts w' k'.
Proof.
  intros T O0 Hk. unfold call_n, strings. cbn [fst snd]. set (A := fun k => if k <? 1 then a k else ta (k - 1)). set (B := fun k => if k <? 1 then b k else tb (k - 1)).
  assert (L : legal_ops V (1 + n) A B). { intros i Hi. unfold A, B. destruct (Z.ltb_spec i 1) as [L|L]; [assert (i = 0) as -> by lia; assumption|apply Htail; lia]. }
  assert (R : good w' (local V (operators (1 + n) A B) (Samp.Model.eleIdx w')) (green_n G kernel 4 (1 + n) A B ip (Samp.Model.eleCfg w') (eleProjCnt w') rcnt k)).
  { destruct T as [T|T]; [apply (green_n_short V HV w' K rcnt ip HS' kernel 4 (1 + n) A B k); [lia|lia|exact L|exact Hk]|apply (green_n_ok V HV w' K rcnt ip HS' kernel (ker' T) 4 (1 + n) A B k); [lia|exact L|exact Hk]]. }
  destruct R as (k' & E & Hk'). exists k'. split; [|exact Hk']. etransitivity; [exact E|]. do 2 f_equal. change (Samp.Model.eleIdx w') with x'. rewrite back. f_equal. unfold q, operators. destruct Hn as [-> | ->]; reflexivity.
Qed.
Lemma op_up r r' : site V r -> site V r' -> operator V (r, r').
Proof. intros S S'. rewrite <- (Z.add_0_r r), <- (Z.add_0_r r'). change 0 with (0 * sites V). apply (op_of V HV w K); [exact S|exact S'|lia]. Qed.
Lemma op_down r r' : site V r -> site V r' -> operator V (r + N, r' + N).
Proof. intros S S'. rewrite <- (Z.mul_1_l N). apply (op_of V HV w K); [exact S|exact S'|lia]. Qed.
Lemma n_transfer_ok k t v : n = 1 \/ two_body -> 0 <= k < NTransfer H -> starts w' t ->
  exists t', n_transfer G H kernel (eleProjCnt w) rcnt G ip (Samp.Model.eleCfg w) n ta tb k (t, v) = Some (t', Cplus v (local_value V (before (h_transfer V H k) q) x)) /\ starts w' t'.
Proof.
  intros T Hk Ht. destruct (ok_transfer V H HH k Hk) as (S1 & S2 & S3 & S4). destruct Hsp as (T1 & _). unfold n_transfer. cbn [fst]. change (gNsite G) with N.
  match goal with |- context [call_n _ _ _ _ _ _ _ _ _ _ ?a ?b _] => destruct (call1_ok a b t T) as (t' & E & Ht'); [cbn beta; rewrite (T1 k Hk); now apply op_of|exact Ht|] end.
  exists t'. split; [|exact Ht']. rewrite E. unfold add_green. cbn [bind fst snd]. f_equal. f_equal. f_equal. unfold local_value, before, h_transfer. cbn [map csum fst snd app]. fold N. ring.
Qed.
Lemma n_pair_ok k t v : 0 <= k < NPair H -> starts w' t ->
  exists t', n_pair G H kernel (eleProjCnt w) rcnt G ip (Samp.Model.eleCfg w) n ta tb k (t, v) = Some (t', Cplus v (local_value V (before (h_pair V H k) q) x)) /\ starts w' t'.
Proof.
  intros Hk Ht. assert (T : two_body) by (left; lia). destruct (ok_pair V H HH k Hk) as (S1 & S2). unfold n_pair. cbn [fst]. change (gNsite G) with N.
  match goal with |- context [call_n _ _ _ _ _ _ _ _ _ _ ?a ?b _] => destruct (call_ok a b t T) as (t' & E & Ht'); [now apply op_up|now apply op_down|exact Ht|] end.
  exists t'. split; [|exact Ht']. rewrite E. unfold add_green. cbn [bind fst snd]. f_equal. f_equal. f_equal. unfold local_value, before, h_pair. cbn [map csum fst snd app two Z.eqb]. fold N. ring.
Qed.
Lemma n_exchange_ok k t v : 0 <= k < NExchange H -> starts w' t ->
  exists t', n_exchange G H kernel (eleProjCnt w) rcnt G ip (Samp.Model.eleCfg w) n ta tb k (t, v) = Some (t', Cplus v (local_value V (before (h_exchange V H k) q) x)) /\ starts w' t'.
Proof.
  intros Hk Ht. assert (T : two_body) by (right; left; lia). destruct (ok_exchange V H HH k Hk) as (S1 & S2). unfold n_exchange. cbn [fst]. change (gNsite G) with N.
  match goal with |- context [call_n _ _ _ _ _ _ _ _ _ _ ?a ?b t] => destruct (call_ok a b t T) as (t1 & E1 & Ht1); [now apply op_up|now apply op_down|exact Ht|] end.
  unfold add_green. rewrite E1. cbn [bind fst snd].
  match goal with |- context [call_n _ _ _ _ _ _ _ _ _ _ ?a ?b t1] => destruct (call_ok a b t1 T) as (t' & E & Ht'); [now apply op_down|now apply op_up|exact Ht1|] end.
  exists t'. split; [|exact Ht']. rewrite E. cbn [bind fst snd]. f_equal. f_equal. unfold local_value, before, h_exchange. cbn [map csum fst snd app two Z.eqb]. fold N. ring.
Qed.
Lemma n_interall_ok k t v : 0 <= k < NInterAll H -> starts w' t ->
  exists t', n_interall G H kernel (eleProjCnt w) rcnt G ip (Samp.Model.eleCfg w) n ta tb k (t, v) = Some (t', Cplus v (local_value V (before (h_interall V H k) q) x)) /\ starts w' t'.
Proof.
  intros Hk Ht. assert (T : two_body) by (right; right; lia). destruct (ok_interall V H HH k Hk) as (S1 & S2 & S3 & S4 & S5 & S6 & S7 & S8). destruct Hsp as (_ & T1). destruct (T1 k Hk) as (T2 & T3). unfold n_interall. cbn [fst]. change (gNsite G) with N.
  match goal with |- context [call_n _ _ _ _ _ _ _ _ _ _ ?a ?b _] => destruct (call_ok a b t T) as (t' & E & Ht'); [now apply op_of|now apply op_of|exact Ht|] end.
  exists t'. split; [|exact Ht']. rewrite E. unfold add_green. cbn [bind fst snd]. f_equal. f_equal. f_equal. unfold local_value, before, h_interall. cbn [map csum fst snd app two Z.eqb]. fold N. rewrite T2, T3. ring.
Qed.
End Thread.
(** the parallel region; [f3] is the loop over Transfer *)
Lemma tail_region P (f3 : Z -> tstate -> option tstate) : execution (count H) P ->
  (forall x' e', (forall m, 0 <= m < 2 * Ne -> x' m = x m) -> (forall rs, 0 <= rs < 2 * N -> e' rs = e rs) -> forall k t v, 0 <= k < NTransfer H -> starts (redone w x' e') t ->
     exists t', f3 k (t, v) = Some (t', Cplus v (local_value V (before (h_transfer V H k) q) x)) /\ starts (redone w x' e') t') ->
  region P (copy_tables G e x) (fun t st =>
    bind (runs (plan P 3 t) f3 st) (fun st =>
    bind (runs (plan P 4 t) (n_pair G H kernel (eleProjCnt w) rcnt G ip (Samp.Model.eleCfg w) n ta tb) st) (fun st =>
    bind (runs (plan P 5 t) (n_exchange G H kernel (eleProjCnt w) rcnt G ip (Samp.Model.eleCfg w) n ta tb) st) (fun st =>
    runs (plan P 6 t) (n_interall G H kernel (eleProjCnt w) rcnt G ip (Samp.Model.eleCfg w) n ta tb) st)))) =
  Some (local_value V (before (hopping V H) q) x).
Proof.
  intros HP Hf3.
  rewrite (region_sum P _ _ (fun t => Cplus (csum (plan P 3 t) (fun i => local_value V (before (h_transfer V H i) q) x)) (Cplus (csum (plan P 4 t) (fun i => local_value V (before (h_pair V H i) q) x))
    (Cplus (csum (plan P 5 t) (fun i => local_value V (before (h_exchange V H i) q) x)) (csum (plan P 6 t) (fun i => local_value V (before (h_interall V H i) q) x)))))).
  - rewrite !csum_add, !(plan_sum (count H) P) by (exact HP || lia). unfold hopping. rewrite !before_app, !value_app, !before_flat, !value_flat. reflexivity.
  - intros t Ht. set (k0 := copy_tables G e x (space P t)).
    assert (Hx : forall m, 0 <= m < 2 * Ne -> Green.Model.eleIdx k0 m = x m) by (intros m Hm; unfold k0, copy_tables; cbn [Green.Model.eleIdx]; now apply copy_get).
    assert (He : forall rs, 0 <= rs < 2 * N -> Green.Model.eleNum k0 rs = e rs) by (intros m Hm; unfold k0, copy_tables; cbn [Green.Model.eleNum]; now apply copy_get).
    set (I := starts (redone w (Green.Model.eleIdx k0) (Green.Model.eleNum k0))).
    assert (I0 : I k0) by (split; reflexivity).
    match goal with |- context [bind (runs _ ?f ?st) _] => destruct (runs_sum I f (fun i => local_value V (before (h_transfer V H i) q) x) (plan P 3 t) st) as (k1 & E1 & H1); [|exact I0|] end.
    { intros i k' v' Hi' Hk'. apply (Hf3 _ _ Hx He); [exact (plan_in (count H) P 3 t i HP ltac:(lia) Ht Hi')|exact Hk']. }
    rewrite E1. cbn [bind].
    match goal with |- context [bind (runs _ ?f ?st) _] => destruct (runs_sum I f (fun i => local_value V (before (h_pair V H i) q) x) (plan P 4 t) st) as (k2 & E2 & H2); [|exact H1|] end.
    { intros i k' v' Hi' Hk'. apply (n_pair_ok _ _ Hx He); [exact (plan_in (count H) P 4 t i HP ltac:(lia) Ht Hi')|exact Hk']. }
    rewrite E2. cbn [bind].
    match goal with |- context [bind (runs _ ?f ?st) _] => destruct (runs_sum I f (fun i => local_value V (before (h_exchange V H i) q) x) (plan P 5 t) st) as (k3 & E3 & H3); [|exact H2|] end.
    { intros i k' v' Hi' Hk'. apply (n_exchange_ok _ _ Hx He); [exact (plan_in (count H) P 5 t i HP ltac:(lia) Ht Hi')|exact Hk']. }
    rewrite E3. cbn [bind].
    match goal with |- context [runs _ ?f ?st] => destruct (runs_sum I f (fun i => local_value V (before (h_interall V H i) q) x) (plan P 6 t) st) as (k4 & E4 & H4); [|exact H3|] end.
    { intros i k' v' Hi' Hk'. apply (n_interall_ok _ _ Hx He); [exact (plan_in (count H) P 6 t i HP ltac:(lia) Ht Hi')|exact Hk']. }
    exists k4. rewrite E4. f_equal. f_equal. cbn [snd]. ring.
Qed.
End Tail.

(** ** calHCA *)


Lemma genv_sh0 : genv G sh0 = G. Proof. reflexivity. Qed.
Lemma factor_eq p r : factor G (eleProjCnt w) rcnt p r = Cmult (RtoC (proj_ratio G p (eleProjCnt w))) (machine_part V K rcnt r).
Proof. apply (mp_eq V w K rcnt). Qed.
Lemma pairs_psi q : clean V w q -> pairs V (moves V w q) <> RtoC 0 -> psi V (moves V w q) <> RtoC 0.
Proof.
  intros Hq Hp. rewrite (psi_moves V HV w Hc) by exact Hq.
  assert (B := boltzmann_nz V HV (occs w q) (occs_01 V HV w Hc q Hq)).
  assert (C0 : RtoC (correlation V (occs w q)) <> RtoC 0) by (apply RtoC_nz; unfold correlation; apply Rgt_not_eq, exp_pos).
  repeat apply Cmult_neq_0; assumption.
Qed.
(** the value through the energy at the configuration reached *)
Lemma through_energy q w' rcnt' inv pf P : clean V w q -> Samp.Model.eleIdx w' = moves V w q -> Samp.Model.eleNum w' = occs w q -> consistent N Ne w' ->
  is_proj_cnt (vT V) (occs w q) (eleProjCnt w') -> (vFlagRBM V = true -> is_rbm_cnt (vM V) (vRBM V) (occs w q) rcnt') ->
  Pf.Spec.current N Ne Sl 0 (Slater.Model.NQPFull (vS V)) (moves V w q) inv pf -> pairs V (moves V w q) <> RtoC 0 -> execution (count H) P ->
  exists E, calculate_hamiltonian (with_mats G inv pf) H (calculate_ip (gA G) 0 (gNQPFull G) pf) (Samp.Model.eleCfg w') (occs w q) (eleProjCnt w') rcnt' P (moves V w q) = Some E /\
    Cmult E (Cconj (Cdiv (Cmult (factor G (eleProjCnt w) rcnt (eleProjCnt w') rcnt') (calculate_ip (gA G) 0 (gNQPFull G) pf)) ip)) = phi q.
Proof.
  intros Hq Ex Ee Hc' Hp Hr Hm Hpairs HP. exists (local_value V Ham (moves V w q)). split.
  - rewrite <- Ex, <- Ee. apply (energy V HV (with_tables K inv pf) w' rcnt' (calculate_ip (gA G) 0 (gNQPFull G) pf)); try assumption.
    apply (sampled_at V HV K w rcnt ip w' rcnt' inv pf HS Hc'); rewrite ?Ex, ?Ee; assumption.
  - rewrite factor_eq. change G with (env_of V K). rewrite (ratio_moves V HV w Hc K rcnt ip HS q _ _ pf Hq Hp Hr).
    + symmetry. apply phi_clean; [exact Hq|]. now apply pairs_psi.
    + intros k Hk. destruct (Hm k) as (E & _); [lia|]. rewrite E, Z.add_0_r. reflexivity.
Qed.

Section One.
Variables (ri rj s : Z).
Hypothesis Hi : 0 <= ri < N.
Hypothesis Hj : 0 <= rj < N.
Hypothesis Hs : 0 <= s <= 1.
Let a := ri + s * N.
Let b := rj + s * N.
Let q := [(a, b)].
Let m := Samp.Model.eleCfg w b.
Lemma oa : 0 <= a < 2 * N. Proof. unfold a. nia. Qed.
Lemma ob : 0 <= b < 2 * N. Proof. unfold b. nia. Qed.
Lemma op_ab : operator V (a, b). Proof. apply (op_of V HV w K); assumption. Qed.
Section Clean.
Hypothesis Ea : e a = 0.
Hypothesis Eb : e b = 1.
Lemma q_clean : clean V w q.
Proof. cbn [clean q]. split; [exact op_ab|]. split; [exact Eb|]. split; [exact Ea|]. split; [intros o []|exact I]. Qed.
Lemma moves_one : moves V w q = upd x (m + s * Ne) ri.
Proof.
  cbn [moves q]. destruct (orbit_of V HV w K ri s Hi Hs) as (_ & _ & Mi), (orbit_of V HV w K rj s Hj Hs) as (_ & Dj & _). fold N in Mi, Dj. fold a in Mi. fold b in Dj. fold N. rewrite Mi. unfold lab. fold N. now rewrite Dj.
Qed.
Lemma m_ok : 0 <= m < Ne. Proof. apply (elec_b V w ri rj s Hc Hi Hj Hs Eb). Qed.
Lemma el_b : electron Ne m s.
Proof. pose proof m_ok. split; [assumption|]. clear - Hs. lia. Qed.
Let w1 := hopped N Ne w m rj ri s (eleProjCnt w).
Lemma check_gf1_ok : check_gf1 G own ri rj s ip sh0 = Some (Cdiv (pairs V (moves V w q)) ip, sh0).
Proof.
  unfold check_gf1. change (gNsite G) with N. change (gNe G) with Ne. change (hCfg sh0) with (Samp.Model.eleCfg w). fold a b. rewrite rd_ok by exact ob. cbn [bind]. fold m.
  assert (E1 : hop_tables G false m (m + s * Ne) ri b a sh0 = Some (Shared (upd x (m + s * Ne) ri) (Samp.Model.eleCfg w) (upd (upd e b 0) a 1) (sInvM K) (sPfM K)))
    by exact (hop_half V HV w ri rj s (eleProjCnt w) Hc Hi Hj Hs Eb K sh0 holds_sh0 (Samp.Model.eleCfg w)).
  rewrite E1. cbn [bind hIdx hInv hPf].
  assert (E2 : hop_tables G false m (m + s * Ne) rj a b (Shared (upd x (m + s * Ne) ri) (Samp.Model.eleCfg w) (upd (upd e b 0) a 1) (sInvM K) (sPfM K)) = Some sh0)
    by exact (hop_back_half V HV w ri rj s (eleProjCnt w) Hc Hi Hj Hs Ea Eb K (Samp.Model.eleCfg w) (sInvM K) (sPfM K)).
  rewrite E2. cbn [bind]. do 3 f_equal. change (gA G) with (angles_of V (sopt0 K)). change (gNQPFull G) with (Slater.Model.NQPFull (vS V)). rewrite moves_one.
  apply (pairs_ok V HV K (upd x (m + s * Ne) ri)).
  - rewrite <- moves_one. apply (moves_lattice V HN HNe w Hc). exact q_clean.
  - intros k Hk. rewrite <- (Z.add_0_r k) at 2.
    apply (calc_one N Ne HNe Sl x (sInvM K) (sPfM K) (pfBuf own) m s ri 0 (Slater.Model.NQPFull (vS V))); [|exact el_b|exact Hi|apply (lat V HV w K rcnt ip HS)|apply (sa_mat _ _ _ _ _ HS)|lia].
    intros k' Hk'. apply (skew V HV K). lia.
Qed.
Lemma cal_hca1_ok P : execution (count H) P -> pairs V (moves V w q) <> RtoC 0 -> cal_hca1 G H own (eleProjCnt w) rcnt P ri rj s ip sh0 = Some (phi q, sh0).
Proof.
  intros HP Hp. unfold cal_hca1. change (gNsite G) with N. change (gNe G) with Ne. change (hCfg sh0) with (Samp.Model.eleCfg w). fold a b. rewrite rd_ok by exact ob. cbn [bind]. fold m.
  assert (E1 : hop_tables G true m (m + s * Ne) ri b a sh0 = Some (Shared (upd x (m + s * Ne) ri) (Samp.Model.eleCfg w1) (upd (upd e b 0) a 1) (sInvM K) (sPfM K)))
    by exact (hop_full V HV w ri rj s (eleProjCnt w) Hc Hi Hj Hs Eb K sh0 holds_sh0).
  rewrite E1. cbn [bind hIdx hCfg hNum hInv hPf].
  change (gT G) with (vT V). change (gFlagRBM G) with (vFlagRBM V). change (gM G) with (vM V). change (gRBM G) with (vRBM V).
  destruct (hop_proj V HV w ri rj s Hc Hi Hj Hs Ea Eb (projNew own) (eleProjCnt w) false (sa_cnt _ _ _ _ _ HS)) as (p & Ep & Hpr).
  change (update_proj_cnt (vT V) rj ri s false (projNew own) (eleProjCnt w) (upd (upd e b 0) a 1) = Some p) in Ep. rewrite Ep. cbn [bind].
  assert (R : exists r, (if vFlagRBM V then update_rbm_cnt (vM V) (vRBM V) rj ri s false (rbmNew own) rcnt (upd (upd e b 0) a 1) else Some (rbmNew own)) = Some r /\
    (vFlagRBM V = true -> is_rbm_cnt (vM V) (vRBM V) (upd (upd e b 0) a 1) r)).
  { destruct (vFlagRBM V) eqn:F; [|eexists; split; [reflexivity|discriminate]].
    destruct (hop_rbm V HV w ri rj s Hi Hj Hs Ea Eb (rbmNew own) rcnt false (upd (upd e b 0) a 1) (sa_rcnt _ _ _ _ _ HS F)) as (r & Er & Hr). exists r. split; [exact Er|]. intros _. exact Hr. }
  destruct R as (r & Er & Hr). rewrite Er. cbn [bind].
  set (st := update_mall N Ne (2 * Ne) (gSl G) m s (upd x (m + s * Ne) ri) 0 (gNQPFull G) (sInvM K, sPfM K)).
  assert (Hcur : Pf.Spec.current N Ne Sl 0 (Slater.Model.NQPFull (vS V)) (moves V w q) (fst st) (snd st)).
  { rewrite moves_one. apply (update_one N Ne HNe Sl x (sInvM K) (sPfM K) m s ri 0 (Slater.Model.NQPFull (vS V))); [|exact el_b|exact Hi|apply (lat V HV w K rcnt ip HS)|apply (sa_mat _ _ _ _ _ HS)|].
    - intros k' Hk'. apply (skew V HV K). lia.
    - rewrite <- moves_one. apply (regular_of V HV K); [exact Hz| |exact Hp]. apply (moves_lattice V HN HNe w Hc). exact q_clean. }
  assert (Ex : upd x (m + s * Ne) ri = moves V w q) by (symmetry; exact moves_one).
  destruct (through_energy q (hopped N Ne w m rj ri s p) r (fst st) (snd st) P) as (E & EE & EV).
  - exact q_clean.
  - exact Ex.
  - reflexivity.
  - exact (hopped_consistent V w ri rj s p Hc Hi Hj Hs Ea Eb).
  - exact Hpr.
  - exact Hr.
  - exact Hcur.
  - exact Hp.
  - exact HP.
  - assert (EE' : calculate_hamiltonian (with_mats G (fst st) (snd st)) H (calculate_ip (gA G) 0 (gNQPFull G) (snd st)) (Samp.Model.eleCfg w1) (upd (upd e b 0) a 1) p r P (upd x (m + s * Ne) ri) = Some E)
      by (rewrite Ex; exact EE).
    rewrite EE'. cbn [bind].
    assert (E2 : hop_tables G true m (m + s * Ne) rj a b (Shared (upd x (m + s * Ne) ri) (Samp.Model.eleCfg w1) (upd (upd e b 0) a 1) (sInvM K) (sPfM K)) = Some sh0)
      by exact (hop_back V HV w ri rj s p Hc Hi Hj Hs Ea Eb K (sInvM K) (sPfM K)).
    rewrite E2. cbn [bind]. f_equal. f_equal. exact EV.
Qed.
Lemma cal_hca2_ok P : execution (count H) P -> cal_hca2 G H kernel own (eleProjCnt w) rcnt P ri rj s ip sh0 = Some (phi q, sh0).
Proof.
  intros HP. unfold cal_hca2. rewrite genv_sh0. change (gNsite G) with N. change (hCfg sh0) with (Samp.Model.eleCfg w). change (hIdx sh0) with x. change (hNum sh0) with e. change (hInv sh0) with (sInvM K). change (hPf sh0) with (sPfM K). fold a b.
  destruct (green1_ok V HV w K rcnt ip HS ri rj s (Work x e (projNew own) (rbmNew own) (pfBuf own)) Hi Hj Hs) as (k' & E & Hk'); [split; reflexivity|].
  fold G N in E. fold a b in E. rewrite E. cbn [bind fst snd]. destruct (starts_eq w k' Hk') as (Ex & Ee). rewrite Ex, Ee. fold x e.
  rewrite wr_ok by exact oa. cbn [bind]. rewrite wr_ok by exact ob. cbn [bind].
  assert (AB : a <> b) by (intros F; unfold e in Ea, Eb; rewrite F in Ea; congruence).
  assert (E1 : upd (upd e a 1) b 0 = Samp.Model.eleNum w1) by (cbn [w1 hopped Samp.Model.eleNum]; fold a b; apply upd_comm; exact AB).
  rewrite E1. change (gNsite G) with N.
  rewrite (hamiltonian0_diag V HV w1 H HH G eq_refl P HP). cbn [bind]. rewrite wr_ok by exact oa. cbn [bind]. rewrite wr_ok by exact ob. cbn [bind].
  assert (E2 : upd (upd (Samp.Model.eleNum w1) a 0) b 1 = e) by exact (back_e V w ri rj s (eleProjCnt w) Ea Eb). rewrite E2.
  rewrite (tail_region 1 (fun _ => a) (fun _ => b)); [|now left|intros; exact op_ab|exact HP|].
  - cbn [bind]. f_equal. f_equal. unfold phi, Ham, hamiltonian. rewrite before_app, value_app. change (operators 1 (fun _ => a) (fun _ => b)) with q.
    rewrite (diagonal_clean w1 q q_clean (hopped_consistent V w ri rj s (eleProjCnt w) Hc Hi Hj Hs Ea Eb)) by (symmetry; exact moves_one). f_equal. apply Cmult_comm.
  - intros x' e' Hx He k t v Hk Ht. destruct (ok_transfer V H HH k Hk) as (S1 & S2 & S3 & S4). destruct Hsp as (T1 & _).
    destruct (green2_ok V HV (redone w x' e') K rcnt ip (redone_sampled V HV K w rcnt ip HS x' e' Hx He) (Transfer H k 0) (Transfer H k 2) ri rj (Transfer H k 3) s t S1 S3 Hi Hj S4 Hs Ht) as (t' & E' & Ht').
    exists t'. split; [|exact Ht']. cbn [fst]. change (Samp.Model.eleCfg (redone w x' e')) with (Samp.Model.eleCfg w) in E'. change (eleProjCnt (redone w x' e')) with (eleProjCnt w) in E'. fold G in E'. rewrite E'. unfold add_green. cbn [bind fst snd]. do 3 f_equal.
    change (Samp.Model.eleIdx (redone w x' e')) with x'. rewrite (back x' Hx). unfold local_value, before, h_transfer. cbn [map csum fst snd app]. change (operators 1 (fun _ => a) (fun _ => b)) with q. rewrite (T1 k Hk). fold N. fold a b. unfold q. ring.
Qed.
End Clean.
Lemma cal_hca_ok P : execution (count H) P -> cal_hca G H kernel own (eleProjCnt w) rcnt P ri rj s (local_value V Ham x) ip sh0 = Some (phi q, sh0).
Proof.
  intros HP. unfold cal_hca. change (gNsite G) with N. change (hNum sh0) with e. fold a b. rewrite rd_ok by exact oa. cbn [bind]. rewrite rd_ok by exact ob. cbn [bind].
  assert (Hop := op_ab). destruct (Z.eqb_spec a b) as [AB|AB].
  - f_equal. f_equal. unfold q. rewrite <- AB in *. destruct (e01 V HN HNe w Hc a oa) as [E|E]; fold e in E; rewrite E; cbn [Z.eqb]; symmetry.
    + apply phi_0. intros f _. etransitivity; [apply (diag V HV w K rcnt ip HS a f Hop)|]. fold e. now rewrite E.
    + rewrite <- phi_nil. apply phi_same. intros f _. etransitivity; [apply (diag V HV w K rcnt ip HS a f Hop)|]. fold e. now rewrite E.
  - destruct (Z.eqb_spec (e b) 0) as [E|E].
    { f_equal. f_equal. symmetry. apply phi_0. intros f Hf. apply (single_0 V HV w K rcnt ip HS a b Hop AB); [now left|exact Hf]. }
    destruct (Z.eqb_spec (e a) 1) as [E'|E'].
    { f_equal. f_equal. symmetry. apply phi_0. intros f Hf. apply (single_0 V HV w K rcnt ip HS a b Hop AB); [now right|exact Hf]. }
    destruct (e01 V HN HNe w Hc a oa) as [Ea|Ea]; fold e in Ea; [|congruence]. destruct (e01 V HN HNe w Hc b ob) as [Eb|Eb]; fold e in Eb; [congruence|].
    rewrite check_gf1_ok by assumption. cbn [bind fst snd]. destruct (Rlt_dec tiny (Cmod (Cdiv (pairs V (moves V w q)) ip))) as [L|L]; [apply cal_hca1_ok|apply cal_hca2_ok]; try assumption.
    intros F. rewrite F in L. unfold Cdiv in L. rewrite Cmult_0_l, Cmod_0 in L. pose proof tiny_pos. lra.
Qed.
End One.

(** ** calHCACA *)
Section Two.
Variables (ri rj rk rl s t : Z).
Hypothesis Hi : 0 <= ri < N.
Hypothesis Hj : 0 <= rj < N.
Hypothesis Hk : 0 <= rk < N.
Hypothesis Hl : 0 <= rl < N.
Hypothesis Hs : 0 <= s <= 1.
Hypothesis Ht : 0 <= t <= 1.
Let a := ri + s * N.
Let b := rj + s * N.
Let c := rk + t * N.
Let d := rl + t * N.
Let q := [(a, b); (c, d)].
Let mj := Samp.Model.eleCfg w b.
Let ml := Samp.Model.eleCfg w d.
Section Clean2.
Hypothesis Ea : e a = 0.
Hypothesis Eb : e b = 1.
Hypothesis Ec : e c = 0.
Hypothesis Ed : e d = 1.
Hypothesis Nac : a <> c.
Hypothesis Nbd : b <> d.
Lemma dist2 : a <> b /\ a <> d /\ b <> c /\ c <> d.
Proof. repeat split; intros F; unfold e in Ea, Eb, Ec, Ed; rewrite F in *; congruence. Qed.
Lemma q_clean2 : clean V w q.
Proof.
  destruct dist2 as (D1 & D2 & D3 & D4). apply (two_clean V HV w K rcnt ip HS a b c d); auto; [apply (op_ab ri rj s Hi Hj Hs)|apply (op_ab rk rl t Hk Hl Ht)].
Qed.
Lemma moves_two : moves V w q = upd (upd x (ml + t * Ne) rk) (mj + s * Ne) ri.
Proof.
  cbn [moves q]. destruct (orbit_of V HV w K ri s Hi Hs) as (_ & _ & Mi), (orbit_of V HV w K rj s Hj Hs) as (_ & Dj & _), (orbit_of V HV w K rk t Hk Ht) as (_ & _ & Mk), (orbit_of V HV w K rl t Hl Ht) as (_ & Dl & _).
  fold N in Mi, Dj, Mk, Dl. fold a in Mi. fold b in Dj. fold c in Mk. fold d in Dl. fold N. rewrite Mi, Mk. unfold lab. fold N. now rewrite Dj, Dl.
Qed.
Let w1 p := hopped N Ne w ml rl rk t p.
Let mj' p := Samp.Model.eleCfg (w1 p) b.
Lemma mj_eq p : mj' p = mj.
Proof. unfold mj', w1. cbn [hopped Samp.Model.eleCfg]. fold c d. rewrite !upd_get. destruct (Z.eqb_spec b c) as [F|_]; [now elim (proj1 (proj2 (proj2 dist2)))|]. destruct (Z.eqb_spec b d) as [F|_]; [now elim Nbd|]. reflexivity. Qed.
Lemma w1_c p : consistent N Ne (w1 p). Proof. exact (hopped_consistent V w rk rl t p Hc Hk Hl Ht Ec Ed). Qed.
Lemma w1_a p : Samp.Model.eleNum (w1 p) a = 0.
Proof. unfold w1. cbn [hopped Samp.Model.eleNum]. fold c d. rewrite !upd_get. destruct (Z.eqb_spec a c) as [F|_]; [now elim Nac|]. destruct (Z.eqb_spec a d) as [F|_]; [reflexivity|]. exact Ea. Qed.
Lemma w1_b p : Samp.Model.eleNum (w1 p) b = 1.
Proof. unfold w1. cbn [hopped Samp.Model.eleNum]. fold c d. rewrite !upd_get. destruct (Z.eqb_spec b c) as [F|_]; [reflexivity|]. destruct (Z.eqb_spec b d) as [F|_]; [now elim Nbd|]. exact Eb. Qed.
Let w2 p p' := hopped N Ne (w1 p) mj rj ri s p'.
Lemma w2_c p p' : consistent N Ne (w2 p p').
Proof. unfold w2. rewrite <- (mj_eq p). exact (hopped_consistent V (w1 p) ri rj s p' (w1_c p) Hi Hj Hs (w1_a p) (w1_b p)). Qed.
Lemma w2_x p p' : Samp.Model.eleIdx (w2 p p') = moves V w q. Proof. symmetry. exact moves_two. Qed.
Lemma w2_e p p' : Samp.Model.eleNum (w2 p p') = occs w q. Proof. reflexivity. Qed.
Lemma el_j : electron Ne mj s.
Proof. split; [exact (proj1 (elec_b V w ri rj s Hc Hi Hj Hs Eb))|]. clear - Hs. lia. Qed.
Lemma el_l : electron Ne ml t.
Proof. split; [exact (proj1 (elec_b V w rk rl t Hc Hk Hl Ht Ed))|]. clear - Ht. lia. Qed.
Lemma x_j : x (mj + s * Ne) = rj. Proof. exact (proj2 (elec_b V w ri rj s Hc Hi Hj Hs Eb)). Qed.
Lemma x_l : x (ml + t * Ne) = rl. Proof. exact (proj2 (elec_b V w rk rl t Hc Hk Hl Ht Ed)). Qed.
Lemma lab_ne : ml + t * Ne <> mj + s * Ne.
Proof.
  intros F. destruct (cell_eq V Ne ml t mj s) as (F1 & F2); [apply el_l|apply el_j|exact Ht|exact Hs|exact F|]. apply Nbd. unfold b, d.
  assert (E : rj = rl) by (rewrite <- x_j, <- x_l; now rewrite F). now rewrite E, F2.
Qed.
Lemma lj : 0 <= mj + s * Ne < 2 * Ne. Proof. pose proof (proj1 el_j) as A. clear - A Hs HNe. nia. Qed.
Lemma ll : 0 <= ml + t * Ne < 2 * Ne. Proof. pose proof (proj1 el_l) as A. clear - A Ht HNe. nia. Qed.
Lemma o_a : 0 <= a < 2 * N. Proof. unfold a. clear - Hi Hs. nia. Qed.
Lemma o_b : 0 <= b < 2 * N. Proof. unfold b. clear - Hj Hs. nia. Qed.
Lemma o_c : 0 <= c < 2 * N. Proof. unfold c. clear - Hk Ht. nia. Qed.
Lemma o_d : 0 <= d < 2 * N. Proof. unfold d. clear - Hl Ht. nia. Qed.
Let x2 := upd (upd x (ml + t * Ne) rk) (mj + s * Ne) ri.
Lemma pf_two k : 0 <= k < Slater.Model.NQPFull (vS V) -> calculate_new_pfm_two N Ne (2 * Ne) (gSl G) ml t mj s x2 0 (gNQPFull G) (sInvM K) (sPfM K) (pfBuf own) k = Pfaffian.pf (pair_matrix N Ne Sl k (moves V w q)) (labels V).
Proof.
  intros Hk'. rewrite moves_two. rewrite <- (Z.add_0_r k) at 2.
  apply (calc_two N Ne HNe Sl x (sInvM K) (sPfM K) (pfBuf own) ml t rk mj s ri 0 (Slater.Model.NQPFull (vS V))); [|exact el_l|exact el_j|exact Hk|exact Hi|apply (lat V HV w K rcnt ip HS)|apply (sa_mat _ _ _ _ _ HS)|lia].
  intros k' Hk''. apply (skew V HV K). lia.
Qed.
Lemma check_gf2_ok : check_gf2 G own ri rj rk rl s t ip sh0 = Some (Cdiv (pairs V (moves V w q)) ip, sh0).
Proof.
  pose proof o_a as Oa. pose proof o_b as Ob. pose proof o_c as Oc. pose proof o_d as Od. pose proof lj as Lj. pose proof ll as Ll. destruct dist2 as (D1 & D2 & D3 & D4). pose proof lab_ne as Nl. pose proof x_j as Xj. pose proof x_l as Xl.
  unfold check_gf2. change (gNsite G) with N. change (gNe G) with Ne. change (hCfg sh0) with (Samp.Model.eleCfg w). fold a b c d. rewrite !rd_ok by assumption. cbn [bind]. fold mj ml.
  unfold hop_tables. change (gNsite G) with N. change (gNe G) with Ne. cbn [hIdx hCfg hNum hInv hPf sh0].
  repeat (rewrite wr_ok by assumption; cbn [bind hIdx hCfg hNum hInv hPf]). unfold sh0. f_equal. f_equal.
  - f_equal. change (gA G) with (angles_of V (sopt0 K)). change (gNQPFull G) with (Slater.Model.NQPFull (vS V)).
    apply (pairs_ok V HV K (moves V w q)); [apply (moves_lattice V HN HNe w Hc); exact q_clean2|]. exact pf_two.
  - f_equal.
    + apply functional_extensionality. intros i. rewrite !upd_get. destruct (Z.eqb_spec i (mj + s * Ne)) as [->|_]; [now rewrite Xj|]. destruct (Z.eqb_spec i (ml + t * Ne)) as [->|_]; [now rewrite Xl|reflexivity].
    + apply functional_extensionality. intros i. rewrite !upd_get. destruct (Z.eqb_spec i b) as [->|_]; [now rewrite Eb|]. destruct (Z.eqb_spec i a) as [->|_]; [now rewrite Ea|].
      destruct (Z.eqb_spec i d) as [->|_]; [now rewrite Ed|]. destruct (Z.eqb_spec i c) as [->|_]; [now rewrite Ec|]. reflexivity.
Qed.
Hypothesis T : two_body.
Hypothesis Hrbm : two_body -> vFlagRBM V = false.
Lemma cal_hcaca1_ok P : execution (count H) P -> pairs V (moves V w q) <> RtoC 0 -> cal_hcaca1 G H own (eleProjCnt w) rcnt P ri rj rk rl s t ip sh0 = Some (phi q, sh0).
Proof.
  intros HP Hp. unfold cal_hcaca1. change (gNsite G) with N. change (gNe G) with Ne. change (hCfg sh0) with (Samp.Model.eleCfg w). fold a b c d. rewrite rd_ok by exact o_d. cbn [bind]. fold ml.
  change (gT G) with (vT V). change (gFlagRBM G) with (vFlagRBM V). rewrite (Hrbm T).
  assert (E1 : hop_tables G true ml (ml + t * Ne) rk d c sh0 = Some (Shared (Samp.Model.eleIdx (w1 (eleProjCnt w))) (Samp.Model.eleCfg (w1 (eleProjCnt w))) (Samp.Model.eleNum (w1 (eleProjCnt w))) (sInvM K) (sPfM K)))
    by exact (hop_full V HV w rk rl t (eleProjCnt w) Hc Hk Hl Ht Ed K sh0 holds_sh0).
  rewrite E1. cbn [bind hIdx hCfg hNum hInv hPf].
  destruct (hop_proj V HV w rk rl t Hc Hk Hl Ht Ec Ed (projNew own) (eleProjCnt w) false (sa_cnt _ _ _ _ _ HS)) as (p & Ep & Hpr).
  change (update_proj_cnt (vT V) rl rk t false (projNew own) (eleProjCnt w) (Samp.Model.eleNum (w1 (eleProjCnt w))) = Some p) in Ep. rewrite Ep. cbn [bind].
  rewrite rd_ok by exact o_b. cbn [bind]. change (Samp.Model.eleCfg (w1 (eleProjCnt w)) b) with (mj' (eleProjCnt w)). rewrite mj_eq.
  assert (E2 : hop_tables G true mj (mj + s * Ne) ri b a (Shared (Samp.Model.eleIdx (w1 p)) (Samp.Model.eleCfg (w1 p)) (Samp.Model.eleNum (w1 p)) (sInvM K) (sPfM K)) =
    Some (Shared (Samp.Model.eleIdx (w2 p p)) (Samp.Model.eleCfg (w2 p p)) (Samp.Model.eleNum (w2 p p)) (sInvM K) (sPfM K))).
  { unfold w2. rewrite <- (mj_eq p). exact (hop_full V HV (w1 p) ri rj s p (w1_c p) Hi Hj Hs (w1_b p) K (Shared (Samp.Model.eleIdx (w1 p)) (Samp.Model.eleCfg (w1 p)) (Samp.Model.eleNum (w1 p)) (sInvM K) (sPfM K)) ltac:(repeat split)). }
  change (w1 (eleProjCnt w)) with (hopped N Ne w ml rl rk t (eleProjCnt w)).
  change (Shared (Samp.Model.eleIdx (hopped N Ne w ml rl rk t (eleProjCnt w))) (Samp.Model.eleCfg (hopped N Ne w ml rl rk t (eleProjCnt w))) (Samp.Model.eleNum (hopped N Ne w ml rl rk t (eleProjCnt w))) (sInvM K) (sPfM K))
    with (Shared (Samp.Model.eleIdx (w1 p)) (Samp.Model.eleCfg (w1 p)) (Samp.Model.eleNum (w1 p)) (sInvM K) (sPfM K)).
  rewrite E2. cbn [bind hIdx hCfg hNum hInv hPf].
  destruct (hop_proj V HV (w1 p) ri rj s (w1_c p) Hi Hj Hs (w1_a p) (w1_b p) p p true Hpr) as (p' & Ep' & Hpr').
  change (update_proj_cnt (vT V) rj ri s true p p (Samp.Model.eleNum (w2 p p)) = Some p') in Ep'. rewrite Ep'. cbn [bind].
  change (Samp.Model.eleIdx (w2 p p)) with x2.
  set (st := update_mall_two N Ne (2 * Ne) (gSl G) ml t mj s rl rj x2 0 (gNQPFull G) (sInvM K, sPfM K)).
  assert (Hcur : Pf.Spec.current N Ne Sl 0 (Slater.Model.NQPFull (vS V)) (moves V w q) (fst st) (snd st)).
  { rewrite moves_two. apply (update_two N Ne HNe Sl x (sInvM K) (sPfM K) ml t rk mj s ri rl rj 0 (Slater.Model.NQPFull (vS V))); [|exact el_l|exact el_j|exact lab_ne|exact Hk|exact Hi|apply (lat V HV w K rcnt ip HS)|apply (sa_mat _ _ _ _ _ HS)|].
    - intros k' Hk'. apply (skew V HV K). lia.
    - rewrite <- moves_two. apply (regular_of V HV K); [exact Hz| |exact Hp]. apply (moves_lattice V HN HNe w Hc). exact q_clean2. }
  destruct (through_energy q (w2 p p') rcnt (fst st) (snd st) P) as (E & EE & EV).
  - exact q_clean2.
  - apply w2_x.
  - apply w2_e.
  - apply w2_c.
  - exact Hpr'.
  - rewrite (Hrbm T). discriminate.
  - exact Hcur.
  - exact Hp.
  - exact HP.
  - assert (EE' : calculate_hamiltonian (with_mats G (fst st) (snd st)) H (calculate_ip (gA G) 0 (gNQPFull G) (snd st)) (Samp.Model.eleCfg (w2 p p)) (Samp.Model.eleNum (w2 p p)) p' rcnt P x2 = Some E)
      by (rewrite moves_two in EE; exact EE).
    rewrite EE'. cbn [bind].
    assert (E3 : hop_tables G true mj (mj + s * Ne) rj a b (Shared x2 (Samp.Model.eleCfg (w2 p p)) (Samp.Model.eleNum (w2 p p)) (sInvM K) (sPfM K)) = Some (Shared (Samp.Model.eleIdx (w1 p)) (Samp.Model.eleCfg (w1 p)) (Samp.Model.eleNum (w1 p)) (sInvM K) (sPfM K))).
    { unfold w2, x2. rewrite <- (mj_eq p). exact (hop_back V HV (w1 p) ri rj s p (w1_c p) Hi Hj Hs (w1_a p) (w1_b p) K (sInvM K) (sPfM K)). }
    rewrite E3. cbn [bind].
    assert (E4 : hop_tables G true ml (ml + t * Ne) rl c d (Shared (Samp.Model.eleIdx (w1 p)) (Samp.Model.eleCfg (w1 p)) (Samp.Model.eleNum (w1 p)) (sInvM K) (sPfM K)) = Some sh0)
      by exact (hop_back V HV w rk rl t p Hc Hk Hl Ht Ec Ed K (sInvM K) (sPfM K)).
    rewrite E4. cbn [bind]. f_equal. f_equal. rewrite <- EV. unfold factor. change (gFlagRBM G) with (vFlagRBM V). rewrite (Hrbm T). reflexivity.
Qed.
Lemma cal_hcaca2_ok P : execution (count H) P -> cal_hcaca2 G H kernel own (eleProjCnt w) rcnt P ri rj rk rl s t ip sh0 = Some (phi q, sh0).
Proof.
  intros HP. pose proof o_a as Oa. pose proof o_b as Ob. pose proof o_c as Oc. pose proof o_d as Od. destruct dist2 as (D1 & D2 & D3 & D4).
  unfold cal_hcaca2. change (gFlagRBM G) with (vFlagRBM V). rewrite (Hrbm T). rewrite genv_sh0. change (gNsite G) with N. change (hCfg sh0) with (Samp.Model.eleCfg w). change (hIdx sh0) with x. change (hNum sh0) with e. change (hInv sh0) with (sInvM K). change (hPf sh0) with (sPfM K). fold a b c d.
  destruct (green2_ok V HV w K rcnt ip HS ri rj rk rl s t (Work x e (projNew own) (rbmNew own) (pfBuf own)) Hi Hj Hk Hl Hs Ht) as (k' & E & Hk'); [split; reflexivity|].
  fold G N in E. fold a b c d in E. rewrite E. cbn [bind fst snd]. destruct (starts_eq w k' Hk') as (Ex & Ee). rewrite Ex, Ee. fold x e.
  do 4 (rewrite wr_ok by assumption; cbn [bind]).
  assert (E1 : upd (upd (upd (upd e a 1) b 0) c 1) d 0 = Samp.Model.eleNum (w2 (eleProjCnt w) (eleProjCnt w))).
  { unfold w2, w1. cbn [hopped Samp.Model.eleNum]. fold a b c d. apply functional_extensionality. intros i. rewrite !upd_get.
    clear - D1 D2 D3 D4 Nac Nbd; destruct (Z.eqb_spec i a), (Z.eqb_spec i b), (Z.eqb_spec i c), (Z.eqb_spec i d); first [reflexivity | congruence]. }
  rewrite E1. change (gNsite G) with N.
  rewrite (hamiltonian0_diag V HV (w2 (eleProjCnt w) (eleProjCnt w)) H HH G eq_refl P HP). cbn [bind]. do 4 (rewrite wr_ok by assumption; cbn [bind]).
  assert (E2 : upd (upd (upd (upd (Samp.Model.eleNum (w2 (eleProjCnt w) (eleProjCnt w))) a 0) b 1) c 0) d 1 = e).
  { rewrite <- E1. apply functional_extensionality. intros i. rewrite !upd_get. destruct (Z.eqb_spec i d) as [->|_]; [now rewrite Ed|]. destruct (Z.eqb_spec i c) as [->|_]; [now rewrite Ec|].
    destruct (Z.eqb_spec i b) as [->|_]; [now rewrite Eb|]. destruct (Z.eqb_spec i a) as [->|_]; [now rewrite Ea|]. reflexivity. }
  rewrite E2.
  assert (O2 : forall k, 0 <= k < 2 -> operator V (Ham.Model.two a c k, Ham.Model.two b d k)).
  { intros k Hk0. assert (k = 0 \/ k = 1) as [-> | ->] by (clear - Hk0; lia); cbn; [apply (op_ab ri rj s Hi Hj Hs)|apply (op_ab rk rl t Hk Hl Ht)]. }
  rewrite (tail_region 2 (Ham.Model.two a c) (Ham.Model.two b d)); [|now right|exact O2|exact HP|].
  - cbn [bind]. f_equal. f_equal. unfold phi, Ham, hamiltonian. rewrite before_app, value_app. change (operators 2 (Ham.Model.two a c) (Ham.Model.two b d)) with q.
    rewrite (diagonal_clean (w2 (eleProjCnt w) (eleProjCnt w)) q q_clean2 (w2_c _ _)) by apply w2_x. f_equal. apply Cmult_comm.
  - intros x' e' Hx He k t0 v Hk0 Ht0. apply n_transfer_ok; auto.
Qed.
End Clean2.
Lemma o2_a : 0 <= a < 2 * N. Proof. unfold a. clear - Hi Hs. nia. Qed.
Lemma o2_b : 0 <= b < 2 * N. Proof. unfold b. clear - Hj Hs. nia. Qed.
Lemma o2_c : 0 <= c < 2 * N. Proof. unfold c. clear - Hk Ht. nia. Qed.
Lemma o2_d : 0 <= d < 2 * N. Proof. unfold d. clear - Hl Ht. nia. Qed.
Hypothesis T : two_body.
Hypothesis Hrbm : two_body -> vFlagRBM V = false.
Lemma cal_hcaca_ok P : execution (count H) P -> cal_hcaca G H kernel own (eleProjCnt w) rcnt P ri rj rk rl s t (local_value V Ham x) ip sh0 = Some (phi q, sh0).
Proof.
  intros HP. pose proof o2_a as Oa. pose proof o2_b as Ob. pose proof o2_c as Oc. pose proof o2_d as Od.
  assert (O1 : operator V (a, b)) by apply (op_ab ri rj s Hi Hj Hs). assert (O2 : operator V (c, d)) by apply (op_ab rk rl t Hk Hl Ht).
  assert (I01 : e a = 0 \/ e a = 1) by (apply (e01 V HN HNe w Hc); exact Oa). assert (J01 : e b = 0 \/ e b = 1) by (apply (e01 V HN HNe w Hc); exact Ob).
  assert (K01 : e c = 0 \/ e c = 1) by (apply (e01 V HN HNe w Hc); exact Oc). assert (L01 : e d = 0 \/ e d = 1) by (apply (e01 V HN HNe w Hc); exact Od).
  assert (Z0 : (forall f, anti V f -> string V q f x = RtoC 0) -> Some (RtoC 0, sh0) = Some (phi q, sh0)) by (intros F; f_equal; f_equal; symmetry; now apply phi_0).
  unfold cal_hcaca. change (gNsite G) with N. change (hNum sh0) with e. fold a b c d. rewrite !rd_ok by assumption. cbn [bind].
  destruct (Z.eqb_spec c d) as [CD|CD].
  { destruct (Z.eqb_spec (e c) 1) as [C1|C1].
    - rewrite (cal_hca_ok ri rj s Hi Hj Hs P HP). f_equal. f_equal. apply phi_same. intros f Hf. symmetry. etransitivity; [apply (two_diag2 V HV w K rcnt ip HS a b c d f O2 CD)|]. fold e. now rewrite C1.
    - apply Z0. intros f Hf. etransitivity; [apply (two_diag2 V HV w K rcnt ip HS a b c d f O2 CD)|]. fold e. destruct K01 as [E|E]; [now rewrite E|congruence]. }
  destruct (Z.eqb_spec b c) as [BC|BC].
  { destruct (cell_eq V N rj s rk t Hj Hk Hs Ht BC) as (_ & Est).
    destruct (Z.eqb_spec (e b) 1) as [B1|B1].
    - apply Z0. intros f Hf. apply (two_0 V HV w K rcnt ip HS a b c d f Hf O2 CD). right. fold e. congruence.
    - rewrite (cal_hca_ok ri rl s Hi Hl Hs P HP). f_equal. f_equal. apply phi_same. intros f Hf. fold a. replace (rl + s * N) with d by (unfold d; now rewrite Est).
      assert (B0 : e b = 0) by (destruct J01; congruence). assert (C0 : e c = 0) by congruence. assert (Oad : operator V (a, d)) by (unfold a, d; rewrite <- Est; apply (op_ab ri rl s Hi Hl Hs)).
      destruct L01 as [L|L].
      + assert (R0 : string V q f x = RtoC 0) by (apply (two_0 V HV w K rcnt ip HS a b c d f Hf O2 CD); now left). rewrite R0.
        destruct (Z.eq_dec a d) as [AD|AD]; [rewrite <- AD in *; etransitivity; [apply (diag V HV w K rcnt ip HS a f Oad)|]; fold e; now rewrite L|].
        apply (single_0 V HV w K rcnt ip HS a d Oad AD (or_introl L) f Hf).
      + symmetry. apply (two_bc V HV w K rcnt ip HS a b c d f O1 O2 CD BC L C0). }
  destruct (Z.eqb_spec b d) as [BD|BD]; [apply Z0; intros f Hf; apply (two_bd V HV w K rcnt ip HS a b c d f Hf O2 CD BD)|].
  destruct (Z.eqb_spec a b) as [AB|AB].
  { destruct (Z.eqb_spec (e a) 1) as [A1|A1].
    - rewrite (cal_hca_ok rk rl t Hk Hl Ht P HP). f_equal. f_equal. apply phi_same. intros f Hf. symmetry. etransitivity; [apply (two_diag1 V HV w K rcnt ip HS a b c d f Hf O1 O2 CD BC BD AB)|]. fold e. now rewrite A1.
    - apply Z0. intros f Hf. etransitivity; [apply (two_diag1 V HV w K rcnt ip HS a b c d f Hf O1 O2 CD BC BD AB)|]. fold e. destruct I01 as [E|E]; [now rewrite E|congruence]. }
  destruct (Z.eqb_spec a c) as [AC|AC]; [apply Z0; intros f Hf; apply (two_ac V HV w K rcnt ip HS a b c d f Hf O1 O2 CD BC BD AB AC)|].
  destruct (Z.eqb_spec a d) as [AD|AD].
  { destruct (cell_eq V N ri s rl t Hi Hl Hs Ht AD) as (_ & Est).
    destruct (Z.eqb_spec (e a) 1) as [A1|A1].
    - rewrite (cal_hca_ok rk rj t Hk Hj Ht P HP). cbn [bind fst snd]. f_equal. f_equal. symmetry. apply phi_opp. intros f Hf. fold c. replace (rj + t * N) with b by (unfold b; now rewrite Est).
      assert (Ocb : operator V (c, b)) by (unfold c, b; rewrite Est; apply (op_ab rk rj t Hk Hj Ht)). assert (D1 : e d = 1) by congruence.
      assert (S0 : e b = 0 \/ e c = 1 -> string V [(c, b)] f x = RtoC 0) by (intros F; apply (single_0 V HV w K rcnt ip HS c b Ocb (not_eq_sym BC) F f Hf)).
      destruct K01 as [C0|C1]; [destruct J01 as [B0|B1]|].
      + rewrite S0 by now left. etransitivity; [apply (two_b0 V HV w K rcnt ip HS a b c d f Hf O1 O2 CD (not_eq_sym BC) B0)|]. apply SR.Proofs.Ceq; cbn; ring.
      + apply (two_ad V HV w K rcnt ip HS a b c d f Hf O1 O2 CD BC BD AD C0 D1 B1).
      + rewrite S0 by now right. etransitivity; [apply (two_0 V HV w K rcnt ip HS a b c d f Hf O2 CD (or_intror C1))|]. apply SR.Proofs.Ceq; cbn; ring.
    - apply Z0. intros f Hf. apply (two_0 V HV w K rcnt ip HS a b c d f Hf O2 CD). left. fold e. rewrite <- AD. destruct I01; congruence. }
  destruct (Z.eqb_spec (e d) 0) as [D0|D0]; [apply Z0; intros f Hf; apply (two_0 V HV w K rcnt ip HS a b c d f Hf O2 CD (or_introl D0))|].
  destruct (Z.eqb_spec (e c) 1) as [C1|C1]; [apply Z0; intros f Hf; apply (two_0 V HV w K rcnt ip HS a b c d f Hf O2 CD (or_intror C1))|].
  destruct (Z.eqb_spec (e b) 0) as [B0|B0]; [apply Z0; intros f Hf; apply (two_b0 V HV w K rcnt ip HS a b c d f Hf O1 O2 CD (not_eq_sym BC) B0)|].
  destruct (Z.eqb_spec (e a) 1) as [A1|A1]; [apply Z0; intros f Hf; apply (two_a1 V HV w K rcnt ip HS a b c d f Hf O1 O2 CD BC BD AB AD A1)|].
  assert (A' : e a = 0) by (destruct I01; congruence). assert (B' : e b = 1) by (destruct J01; congruence). assert (C' : e c = 0) by (destruct K01; congruence). assert (D' : e d = 1) by (destruct L01; congruence).
  rewrite check_gf2_ok by assumption. cbn [bind fst snd]. destruct (Rlt_dec tiny (Cmod (Cdiv (pairs V (moves V w q)) ip))) as [L|L]; [apply cal_hcaca1_ok|apply cal_hcaca2_ok]; try assumption.
  intros F. rewrite F in L. unfold Cdiv in L. rewrite Cmult_0_l, Cmod_0 in L. pose proof tiny_pos. lra.
Qed.
End Two.

(** ** the loops over all terms *)
Let h1 := local_value V Ham x.
Lemma cisajs_ok (Q : Z -> sched) n I out : (forall k, execution (count H) (Q k)) -> (forall k, 0 <= k < n -> site V (I k 0) /\ site V (I k 2) /\ spin (I k 3)) ->
  exists out', ls_local_cisajs G H kernel own (eleProjCnt w) rcnt Q n I h1 ip out sh0 = Some (out', sh0) /\
    (forall k, 0 <= k < n -> out' (k + n) = local_value V (times Ham [(RtoC 1, [(I k 0 + I k 3 * N, I k 2 + I k 3 * N)])]) x) /\
    forall i, i < n \/ 2 * n <= i -> out' i = out i.
Proof.
  intros HQ HI. unfold ls_local_cisajs.
  destruct (Z.leb_spec n 0) as [Hn|Hn].
  { exists out. rewrite loopM_nil by lia. split; [reflexivity|]. split; [intros; lia|reflexivity]. }
  set (v := fun k => phi [(I k 0 + I k 3 * N, I k 2 + I k 3 * N)]).
  destruct (loopM_pure_inv (fun st => snd st = sh0) 0 n
    (fun idx st => r <- cal_hca G H kernel own (eleProjCnt w) rcnt (Q idx) (I idx 0) (I idx 2) (I idx 3) h1 ip (snd st);; Some (upd (fst st) (idx + n) (fst r), snd r))
    (fun idx st => (upd (fst st) (idx + n) (v idx), sh0)) (out, sh0)) as (E & Es); [reflexivity| |].
  { intros i (o, sh) Hi0 Es. cbn [fst snd] in *. rewrite Es. destruct (HI i Hi0) as (S1 & S2 & S3). unfold h1. rewrite cal_hca_ok by (assumption || apply HQ). cbn [bind fst snd]. split; reflexivity. }
  rewrite E. set (st := loop 0 n _ (out, sh0)) in *.
  assert (J : (forall k, 0 <= k < n -> fst st (k + n) = v k) /\ forall k, k < n \/ 2 * n <= k -> fst st k = out k).
  { apply (loop_inv (fun i st => (forall k, 0 <= k < i -> fst st (k + n) = v k) /\ forall k, k < n \/ 2 * n <= k -> fst st k = out k)); [lia|cbn; split; [intros; lia|reflexivity]|].
    intros i (o, sh) Hi0 (H1 & H2). cbn [fst snd] in *. split.
    + intros k Hk. rewrite upd_get. destruct (Z.eqb_spec (k + n) (i + n)) as [F|F]; [assert (k = i) as -> by lia; reflexivity|]. apply H1. lia.
    + intros k Hk. rewrite upd_get. destruct (Z.eqb_spec k (i + n)); [lia|]. now apply H2. }
  destruct J as (J1 & J2). exists (fst st). split; [f_equal; destruct st; cbn in Es |- *; now rewrite Es|]. split; [|exact J2]. intros k Hk. rewrite J1 by exact Hk. symmetry. apply before_times.
Qed.
Hypothesis Hrbm : two_body -> vFlagRBM V = false.
Variable P : Z -> Z -> sched.
Hypothesis HPs : forall l k, execution (count H) (P l k).
Definition sum_phi (O : observable) : C := csum O (fun t => Cmult (fst t) (phi (snd t))).
Lemma square_sum O : local_value V (times Ham O) x = sum_phi O.
Proof.
  unfold local_value, times. rewrite SR.Proofs.csum_flat_map.
  rewrite (csum_ext Ham _ (fun t => csum O (fun t' => Cmult (fst t') (Cmult (fst t) (local V (snd t ++ snd t') x))))).
  2:{ intros t _. rewrite SR.Proofs.csum_map. apply csum_ext. intros t' _. cbn [fst snd]. ring. }
  rewrite csum_swap. apply csum_ext. intros t' _. unfold phi, local_value, before. rewrite SR.Proofs.csum_map. cbn [fst snd]. now rewrite csum_scal.
Qed.
Lemma sum_app O O' : sum_phi (O ++ O') = Cplus (sum_phi O) (sum_phi O'). Proof. apply csum_app. Qed.
Lemma sum_flat (f : Z -> observable) l : sum_phi (flat_map f l) = csum l (fun k => sum_phi (f k)). Proof. apply SR.Proofs.csum_flat_map. Qed.
Lemma sum_diagonal : sum_phi (diagonal V H) = Cmult (v_diag V w H) h1.
Proof.
  unfold sum_phi, h1. rewrite <- phi_nil. apply diagonal_gen. intros a b Ha Hb. fold e. rewrite !phi_eq. rewrite <- csum_scal. apply csum_ext. intros t _.
  unfold x. rewrite (string_two V HV w Hc) by assumption. cbn [string]. fold e.
  match goal with |- context [Cdiv (Cmult ?r ?f) ?d] => replace (Cdiv (Cmult r f) d) with (Cmult r (Cdiv f d)) by (unfold Cdiv; ring) end. rewrite conj_real. ring.
Qed.
Lemma hk_ok : calculate_hk G H kernel own (eleProjCnt w) rcnt P h1 ip sh0 = Some (sum_phi (flat_map (h_transfer V H) (zrange 0 (NTransfer H))), sh0).
Proof.
  unfold calculate_hk.
  rewrite (loop_sum _ (fun k => sum_phi (h_transfer V H k)) sh0 (NTransfer H) (RtoC 0)); [rewrite sum_flat; f_equal; f_equal; ring|].
  intros i v Hi0. destruct (ok_transfer V H HH i Hi0) as (S1 & S2 & S3 & S4). destruct Hsp as (T1 & _). cbn [fst snd]. unfold h1. rewrite cal_hca_ok by (assumption || apply HPs). unfold add_val. cbn [bind fst snd]. do 3 f_equal.
  unfold sum_phi, h_transfer. cbn [csum fst snd]. rewrite (T1 i Hi0). fold N. ring.
Qed.
Lemma hw_ok : calculate_hw G H kernel own (eleProjCnt w) rcnt P h1 ip sh0 =
  Some (Cplus (sum_phi (flat_map (h_pair V H) (zrange 0 (NPair H)))) (Cplus (sum_phi (flat_map (h_exchange V H) (zrange 0 (NExchange H)))) (sum_phi (flat_map (h_interall V H) (zrange 0 (NInterAll H))))), sh0).
Proof.
  unfold calculate_hw.
  rewrite (loop_sum _ (fun k => sum_phi (h_pair V H k)) sh0 (NPair H) (RtoC 0)).
  2:{ intros i v Hi0. assert (T : two_body) by (left; lia). destruct (ok_pair V H HH i Hi0) as (S1 & S2). cbn [fst snd]. unfold h1. rewrite cal_hcaca_ok by (assumption || apply HPs || lia). unfold add_val. cbn [bind fst snd]. do 3 f_equal.
      unfold sum_phi, h_pair. cbn [csum fst snd]. fold N. rewrite Z.mul_0_l, Z.mul_1_l, !Z.add_0_r. ring. }
  cbn [bind].
  rewrite (loop_sum _ (fun k => sum_phi (h_exchange V H k)) sh0 (NExchange H)).
  2:{ intros i v Hi0. assert (T : two_body) by (right; left; lia). destruct (ok_exchange V H HH i Hi0) as (S1 & S2). cbn [fst snd]. unfold h1. rewrite cal_hcaca_ok by (assumption || apply HPs || lia). cbn [bind fst snd]. rewrite cal_hcaca_ok by (assumption || apply HPs || lia). unfold add_val. cbn [bind fst snd]. do 3 f_equal.
      unfold sum_phi, h_exchange. cbn [csum fst snd]. fold N. rewrite Z.mul_0_l, Z.mul_1_l, !Z.add_0_r. ring. }
  cbn [bind].
  rewrite (loop_sum _ (fun k => sum_phi (h_interall V H k)) sh0 (NInterAll H)).
  2:{ intros i v Hi0. assert (T : two_body) by (right; right; lia). destruct (ok_interall V H HH i Hi0) as (S1 & S2 & S3 & S4 & S5 & S6 & S7 & S8). destruct Hsp as (_ & T1). destruct (T1 i Hi0) as (T2 & T3). cbn [fst snd]. unfold h1. rewrite cal_hcaca_ok by (assumption || apply HPs). unfold add_val. cbn [bind fst snd]. do 3 f_equal.
      unfold sum_phi, h_interall. cbn [csum fst snd]. fold N. rewrite T2, T3. ring. }
  rewrite !sum_flat. f_equal. f_equal. ring.
Qed.
Lemma square_ok P0 : execution (count H) P0 -> ls_local_q G H kernel own (eleProjCnt w) rcnt P0 P h1 ip sh0 = Some (local_value V (times Ham Ham) x, sh0).
Proof.
  intros HP0. unfold ls_local_q. rewrite genv_sh0. change (hNum sh0) with (Samp.Model.eleNum w). rewrite (hamiltonian0_diag V HV w H HH G eq_refl P0 HP0). cbn [bind]. rewrite hk_ok. cbn [bind fst snd]. rewrite hw_ok. cbn [bind fst snd].
  rewrite square_sum. unfold Ham, hamiltonian, hopping. rewrite !sum_app, sum_diagonal. f_equal. f_equal. ring.
Qed.
End Ls.
