(** The local energy with general spins is the matrix element of the Hamiltonian, for every division of the loops among threads. *)
From Coq Require Import ZArith List Bool Lia Reals Lra Permutation FunctionalExtensionality.
From Coquelicot Require Import Complex.
From Verif Require Import Base.ZLoop Base.Checked Base.RSum Proj.Model Proj.Spec Proj.Proofs Pf.Pfaffian Pf.Spec Slater.Model Slater.Spec Samp.Model Samp.Spec Green.Model Fsz.Model Fsz.Spec Gfz.Model Gfz.Spec Gfz.Anti Gfz.Proofs
  Ham.Model Hfz.Model Hfz.Spec.
From Verif Require SR.Proofs Green.Core.
Import ListNotations.
Local Open Scope Z_scope.

(** ** tables equal inside their bounds *)
Section Ext.
Variable V : fwave.
Let N := fsites V.
Let Ne := Slater.Model.Ne (fS V).
Let L := flabels V.
Definition fsame (x y : Z -> Z) : Prop := forall m, In m L -> x m = y m.
Definition fext (f : (Z -> Z) -> C) : Prop := forall x y, fsame x y -> f x = f y.
Lemma fsame_upd x y m v : fsame x y -> fsame (upd x m v) (upd y m v).
Proof. intros H i Hi. unfold upd. destruct (i =? m); auto. Qed.
Lemma fact_ext o f : fext f -> fext (fact L o f).
Proof. intros Hf x y H. unfold fact. apply csum_ext. intros m Hm. rewrite (H m Hm). destruct (_ =? _); [|reflexivity]. apply Hf. now apply fsame_upd. Qed.
Lemma fstring_ext ops : forall f, fext f -> fext (fstring L ops f).
Proof. induction ops as [|o ops IH]; intros f Hf; [exact Hf|]. cbn. apply IH. now apply fact_ext. Qed.
Lemma foccupation_same x y : fsame x y -> foccupation L x = foccupation L y.
Proof.
  intros H. apply functional_extensionality. intros c. unfold foccupation.
  assert (E : forall l, (forall m, In m l -> In m L) -> existsb (fun m => x m =? c) l = existsb (fun m => y m =? c) l).
  { induction l as [|m l IH]; intros Hl; [reflexivity|]. cbn. rewrite (H m) by (apply Hl; now left). f_equal. apply IH. intros; apply Hl; now right. }
  now rewrite E.
Qed.
Lemma fpsi_ext : fext (fpsi V).
Proof.
  intros x y H. unfold fpsi. fold L. rewrite (foccupation_same x y H). f_equal. unfold fpairs, amplitude_fsz. apply csum_ext. intros o _. apply csum_ext. intros m _. f_equal. unfold pfaffian_fsz.
  apply (pf_ext _ _ (length (flabels V))); [apply le_n|]. intros i j Hi Hj. now rewrite (H i Hi), (H j Hj).
Qed.
Lemma flocal_same ops x y : fsame x y -> flocal V ops x = flocal V ops y.
Proof. intros H. unfold flocal. fold L. now rewrite (fstring_ext ops (fpsi V) fpsi_ext x y H), (fpsi_ext x y H). Qed.

Hypothesis HV : wf_fwave V.
Variables (G : env) (w : walker) (ip : C).
Hypothesis HS : sampled_fsz V G w ip.
Variables i' s' e' : Z -> Z.
Hypothesis Hi : forall m, 0 <= m < 2 * Ne -> i' m = Samp.Model.eleIdx w m.
Hypothesis Hs : forall m, 0 <= m < 2 * Ne -> s' m = Samp.Model.eleSpn w m.
Hypothesis He : forall rs, 0 <= rs < 2 * N -> e' rs = Samp.Model.eleNum w rs.
Definition fredone : walker := Walker i' (Samp.Model.eleCfg w) e' (eleProjCnt w) s'.
Lemma pm_same Sl q i j : 0 <= i < 2 * Ne -> 0 <= j < 2 * Ne -> pair_matrix_fsz N Sl q i' s' i j = pair_matrix_fsz N Sl q (Samp.Model.eleIdx w) (Samp.Model.eleSpn w) i j.
Proof. intros A B. unfold pair_matrix_fsz, spin_orbital. now rewrite !Hi, !Hs by assumption. Qed.
Lemma fredone_sampled : sampled_fsz V G fredone ip.
Proof.
  destruct HS as [S1 [T1 T2] S4 S6 S7 S8]. fold N Ne in T1, T2. constructor; try assumption.
  - fold N Ne. constructor; cbn [fredone Samp.Model.eleIdx Samp.Model.eleCfg Samp.Model.eleNum Samp.Model.eleSpn].
    + intros x Hx. rewrite Hi, Hs by assumption. now apply T1.
    + intros r s Hr Hs'. rewrite He by nia. destruct (T2 r s Hr Hs') as [A|(x & A1 & A2 & A3 & A4 & A5)]; [left; exact A|]. right. exists x. rewrite Hi, Hs by assumption. auto.
  - cbn [fredone eleProjCnt Samp.Model.eleNum]. pose proof (wf_sites V HV) as S1'. fold N in S1'.
    apply (is_proj_cnt_occ (fT V) (wf_T V HV) (Samp.Model.eleNum w) e'); [|exact S4]. intros r Hr. apply Green.Core.same_occ; [|exact Hr]. rewrite S1'. intros rs Hrs. symmetry. now apply He.
  - cbn [fredone Samp.Model.eleIdx Samp.Model.eleSpn]. fold N Ne in S6 |- *. intros q Hq. destruct (S6 q Hq) as (A1 & A2 & A3 & A4). split.
    + rewrite A1. symmetry. apply (pf_ext _ _ (length (zrange 0 (2 * Ne)))); [apply le_n|]. intros i j A B. apply zrange_in in A, B. now apply pm_same.
    + split; [|split; [|exact A4]]; intros i j A B; [rewrite <- A2 by assumption|rewrite <- A3 by assumption]; apply csum_ext; intros k Hk; apply zrange_in in Hk; now rewrite pm_same.
Qed.
Lemma fredone_local ops : flocal V ops (config V fredone) = flocal V ops (config V w).
Proof. apply flocal_same. intros m Hm. apply zrange_in in Hm. unfold config, spin_orbital. cbn [fredone Samp.Model.eleIdx Samp.Model.eleSpn]. now rewrite Hi, Hs. Qed.
End Ext.

(** ** sums over threads *)
Lemma fruns_cons {S} i l (f : Z -> S -> option S) s : runs (i :: l) f s = bind (f i s) (runs l f).
Proof. unfold runs. cbn. destruct (f i s); cbn; [reflexivity|]. induction l as [|j l IH]; [reflexivity|exact IH]. Qed.
Lemma fruns_sum (I : fwork -> Prop) (f : Z -> ftstate -> option ftstate) (T : Z -> C) l : forall st,
  (forall i w v, In i l -> I w -> exists w', f i (w, v) = Some (w', Cplus v (T i)) /\ I w') -> I (fst st) ->
  exists w', runs l f st = Some (w', Cplus (snd st) (csum l T)) /\ I w'.
Proof.
  induction l as [|i l IH]; intros (w, v) Hf HI.
  - exists w. split; [|exact HI]. unfold runs. cbn. f_equal. f_equal. cbn. ring.
  - rewrite fruns_cons. destruct (Hf i w v (or_introl eq_refl) HI) as (w1 & E & H1). rewrite E. cbn [bind].
    destruct (IH (w1, Cplus v (T i))) as (w2 & E2 & H2); [intros; apply Hf; [now right|assumption]|exact H1|].
    exists w2. split; [|exact H2]. rewrite E2. cbn [snd csum]. f_equal. f_equal. ring.
Qed.
Lemma fthreads_sum (f : Z -> C -> option C) (B : Z -> C) l : forall e, (forall t e, In t l -> f t e = Some (Cplus e (B t))) -> runs l f e = Some (Cplus e (csum l B)).
Proof.
  induction l as [|t l IH]; intros e Hf; [unfold runs; cbn; f_equal; ring|]. rewrite fruns_cons, Hf by now left. cbn [bind]. rewrite IH by (intros; apply Hf; now right). f_equal. cbn [csum]. ring.
Qed.
Lemma fregion_sum P start body (B : Z -> C) : (forall t, In t (zrange 0 (fthreads P)) -> exists w', body t (start (fspace P t), RtoC 0) = Some (w', B t)) ->
  fregion P start body = Some (csum (zrange 0 (fthreads P)) B).
Proof.
  intros H. unfold fregion. rewrite (fthreads_sum _ B); [f_equal; ring|]. intros t e Ht. destruct (H t Ht) as (w' & E). rewrite E. reflexivity.
Qed.
Lemma fplan_sum n P l (T : Z -> C) : fexecution n P -> 0 <= l <= 6 -> csum (zrange 0 (fthreads P)) (fun t => csum (fplan P l t) T) = csum (zrange 0 (n l)) T.
Proof. intros H Hl. rewrite <- SR.Proofs.csum_flat_map. apply csum_perm. now apply H. Qed.
Lemma fplan_in n P l t i : fexecution n P -> 0 <= l <= 6 -> In t (zrange 0 (fthreads P)) -> In i (fplan P l t) -> 0 <= i < n l.
Proof. intros H Hl Ht Hi. apply zrange_in. apply (Permutation_in _ (H l Hl)). apply in_flat_map. eauto. Qed.
Lemma fvalue_flat V (h : Z -> observable) l x : fvalue V (flat_map h l) x = csum l (fun k => fvalue V (h k) x).
Proof. unfold fvalue. apply SR.Proofs.csum_flat_map. Qed.
Lemma fvalue_app V O O' x : fvalue V (O ++ O') x = Cplus (fvalue V O x) (fvalue V O' x).
Proof. unfold fvalue. apply csum_app. Qed.

Section Energy.
Variable V : fwave.
Hypothesis HV : wf_fwave V.
Variables (G : env) (w : walker) (ip : C).
Hypothesis HS : sampled_fsz V G w ip.
Let N := fsites V.
Let Ne := Slater.Model.Ne (fS V).
Let X := config V w.
Let e := Samp.Model.eleNum w.
Let HN : 0 < N := fN_pos V HV.
Let HG : gNsite G = N := ld_N _ _ (sf_loaded _ _ _ _ HS).
Let HGe : gNe G = Ne := ld_Ne _ _ (sf_loaded _ _ _ _ HS).
Lemma orb_range c : 0 <= c < 2 * N -> exists r s, c = r + s * N /\ site_spin N r s.
Proof. intros Hc. destruct (orbital_of V HV w c Hc) as (r & s & E & A & B). exists r, s. split; [exact E|]. now split. Qed.
Lemma local_num c : 0 <= c < 2 * N -> flocal V [num c] X = RtoC (IZR (e c)).
Proof. intros Hc. destruct (orb_range c Hc) as (r & s & -> & A). exact (num_at V HV G w ip HS r s A). Qed.
Lemma local_num2 a b : 0 <= a < 2 * N -> 0 <= b < 2 * N -> flocal V [num a; num b] X = RtoC (IZR (e a * e b)).
Proof.
  intros Ha Hb. destruct (orb_range a Ha) as (r & s & Ea & A). destruct (orb_range b Hb) as (r' & s' & Eb & B).
  destruct (occ_01 _ _ _ _ (x_occ V HV G w ip HS b Hb)) as [E|E]; fold e in E; rewrite E.
  - rewrite Z.mul_0_r. unfold num. rewrite Ea. rewrite Eb in E |- *. exact (v_cd0 V HV G w ip HS r r r' r' s s s' s' B eq_refl E).
  - rewrite Z.mul_1_r, <- local_num by exact Ha. unfold num. rewrite Ea. rewrite Eb in E |- *. exact (v_cd1 V HV G w ip HS r r r' r' s s s' s' B eq_refl E).
Qed.

Variable H : terms.
Hypothesis HH : fsites_ok N H.
Definition w_intra (k : Z) : R := (ParaIntra H k * IZR (e (Intra H k)) * IZR (e (Intra H k + N)))%R.
Definition w_inter (k : Z) : R := (ParaInter H k * IZR (e (Inter H k 0) + e (Inter H k 0 + N)) * IZR (e (Inter H k 1) + e (Inter H k 1 + N)))%R.
Definition w_hund (k : Z) : R := (- (ParaHund H k * IZR (e (Hund H k 0) * e (Hund H k 1) + e (Hund H k 0 + N) * e (Hund H k 1 + N))))%R.
Lemma o_up r : fsite N r -> 0 <= r < 2 * N. Proof. unfold fsite. lia. Qed.
Lemma o_dn r : fsite N r -> 0 <= r + N < 2 * N. Proof. unfold fsite. lia. Qed.
Lemma f_intra_value k : 0 <= k < NIntra H -> fvalue V (f_intra N H k) X = RtoC (w_intra k).
Proof.
  intros Hk. assert (S := fok_intra N H HH k Hk). unfold f_intra, fvalue. cbn [csum fst snd]. rewrite local_num2 by (first [apply o_up; exact S | apply o_dn; exact S]).
  unfold w_intra. rewrite mult_IZR, !RtoC_mult. ring.
Qed.
Lemma f_inter_value k : 0 <= k < NInter H -> fvalue V (f_inter N H k) X = RtoC (w_inter k).
Proof.
  intros Hk. destruct (fok_inter N H HH k Hk) as (S1 & S2). unfold f_inter, fvalue. cbn [csum fst snd]. rewrite !local_num2 by (first [apply o_up; assumption | apply o_dn; assumption]).
  unfold w_inter. rewrite !plus_IZR, !mult_IZR, !RtoC_mult, !RtoC_plus. ring.
Qed.
Lemma f_hund_value k : 0 <= k < NHund H -> fvalue V (f_hund N H k) X = RtoC (w_hund k).
Proof.
  intros Hk. destruct (fok_hund N H HH k Hk) as (S1 & S2). unfold f_hund, fvalue. cbn [csum fst snd]. rewrite !local_num2 by (first [apply o_up; assumption | apply o_dn; assumption]).
  unfold w_hund. rewrite RtoC_opp, RtoC_mult, plus_IZR, !mult_IZR, RtoC_plus, !RtoC_mult. ring.
Qed.
Lemma ft_intra_ok k t v : 0 <= k < NIntra H -> ft_intra G H e k (t, v) = Some (t, Cplus v (fvalue V (f_intra N H k) X)).
Proof.
  intros Hk. rewrite f_intra_value by exact Hk. assert (S := fok_intra N H HH k Hk). unfold ft_intra. rewrite HG. unfold fsite in S. rewrite !rd_ok by lia. reflexivity.
Qed.
Lemma ft_inter_ok k t v : 0 <= k < NInter H -> ft_inter G H e k (t, v) = Some (t, Cplus v (fvalue V (f_inter N H k) X)).
Proof.
  intros Hk. rewrite f_inter_value by exact Hk. destruct (fok_inter N H HH k Hk) as (S1 & S2). unfold ft_inter. rewrite HG. unfold fsite in S1, S2. rewrite !rd_ok by lia. reflexivity.
Qed.
Lemma ft_hund_ok k t v : 0 <= k < NHund H -> ft_hund G H e k (t, v) = Some (t, Cplus v (fvalue V (f_hund N H k) X)).
Proof.
  intros Hk. rewrite f_hund_value by exact Hk. destruct (fok_hund N H HH k Hk) as (S1 & S2). unfold ft_hund. rewrite HG. unfold fsite in S1, S2. rewrite !rd_ok by lia. reflexivity.
Qed.

Section Thread.
Variables i' s' e' : Z -> Z.
Hypothesis Hi : forall m, 0 <= m < 2 * Ne -> i' m = Samp.Model.eleIdx w m.
Hypothesis Hs : forall m, 0 <= m < 2 * Ne -> s' m = Samp.Model.eleSpn w m.
Hypothesis He : forall rs, 0 <= rs < 2 * N -> e' rs = e rs.
Let w' := fredone w i' s' e'.
Let HS' : sampled_fsz V G w' ip := fredone_sampled V HV G w ip HS i' s' e' Hi Hs He.
Let I (k : fwork) : Prop := starts_fsz w' k.
Let cfg := Samp.Model.eleCfg w.
Lemma good_add ops p g st : good_fsz w' (flocal V ops (config V w')) g ->
  exists t', fadd_green st p g = Some (t', Cplus (snd st) (Cmult p (flocal V ops X))) /\ I t'.
Proof. intros (t' & -> & Ht'). exists t'. split; [|exact Ht']. unfold fadd_green. cbn [bind fst snd]. do 4 f_equal. now apply fredone_local. Qed.
Lemma s_up r : fsite N r -> site_spin N r 0. Proof. intros A. split; [exact A|lia]. Qed.
Lemma s_dn r : fsite N r -> site_spin N r 1. Proof. intros A. split; [exact A|lia]. Qed.
Lemma spin0 r : r + 0 * N = r. Proof. lia. Qed.
Lemma spin1 r : r + 1 * N = r + N. Proof. lia. Qed.
Lemma ft_transfer_ok k t v : 0 <= k < NTransfer H -> I t -> exists t', ft_transfer G H ip cfg (eleProjCnt w) k (t, v) = Some (t', Cplus v (fvalue V (f_transfer N H k) X)) /\ I t'.
Proof.
  intros Hk Ht. destruct (fok_transfer N H HH k Hk) as (S1 & S2). unfold ft_transfer.
  edestruct (good_add [(Transfer H k 0 + Transfer H k 1 * N, Transfer H k 2 + Transfer H k 3 * N)] (Copp (ParaTransfer H k))) as (t' & E & Ht').
  2:{ exists t'. split; [|exact Ht']. rewrite E. cbn [fst snd]. unfold fvalue, f_transfer. cbn [csum fst snd]. f_equal. f_equal. ring. }
  cbn [fst]. destruct (Z.eqb_spec (Transfer H k 1) (Transfer H k 3)) as [Es|Ns].
  - rewrite <- Es in S2 |- *. exact (green1_fsz_ok V HV G w' ip HS' _ _ _ t S1 S2 Ht).
  - refine (green1_fsz2_ok V HV G w' ip HS' _ _ _ _ t S1 S2 _ Ht). intros E. apply Ns. exact (proj2 (same_of V w _ _ _ _ S1 S2 E)).
Qed.
Lemma ft_pair_ok k t v : 0 <= k < NPair H -> I t -> exists t', ft_pair G H ip cfg (eleProjCnt w) k (t, v) = Some (t', Cplus v (fvalue V (f_pair N H k) X)) /\ I t'.
Proof.
  intros Hk Ht. destruct (fok_pair N H HH k Hk) as (S1 & S2). unfold ft_pair.
  edestruct (good_add [(Pair H k 0, Pair H k 1); (Pair H k 0 + N, Pair H k 1 + N)] (RtoC (ParaPair H k))) as (t' & E & Ht').
  2:{ exists t'. split; [|exact Ht']. rewrite E. cbn [fst snd]. unfold fvalue, f_pair. cbn [csum fst snd]. f_equal. f_equal. ring. }
  cbn [fst]. pose proof (green2_fsz_ok V HV G w' ip HS' (Pair H k 0) (Pair H k 1) (Pair H k 0) (Pair H k 1) 0 1 t (s_up _ S1) (s_up _ S2) (s_dn _ S1) (s_dn _ S2) Ht) as Q.
  fold N in Q. rewrite !spin0, !spin1 in Q. exact Q.
Qed.
Lemma ft_exchange_ok k t v : 0 <= k < NExchange H -> I t -> exists t', ft_exchange G H ip cfg (eleProjCnt w) k (t, v) = Some (t', Cplus v (fvalue V (f_exchange N H k) X)) /\ I t'.
Proof.
  intros Hk Ht. destruct (fok_exchange N H HH k Hk) as (S1 & S2). unfold ft_exchange.
  destruct (green2_fsz_ok V HV G w' ip HS' (Exchange H k 0) (Exchange H k 1) (Exchange H k 1) (Exchange H k 0) 0 1 t (s_up _ S1) (s_up _ S2) (s_dn _ S2) (s_dn _ S1) Ht) as (t1 & E1 & Ht1).
  destruct (green2_fsz_ok V HV G w' ip HS' (Exchange H k 0) (Exchange H k 1) (Exchange H k 1) (Exchange H k 0) 1 0 t1 (s_dn _ S1) (s_dn _ S2) (s_up _ S2) (s_up _ S1) Ht1) as (t' & E & Ht').
  change (Samp.Model.eleCfg w') with cfg in E, E1. change (eleProjCnt w') with (eleProjCnt w) in E, E1. unfold w' in E, E1. rewrite fredone_local in E, E1 by assumption.
  fold N X in E, E1. rewrite !spin0, !spin1 in E, E1. exists t'. split; [|exact Ht']. cbn [fst]. rewrite E1. unfold fadd_green. cbn [bind fst snd]. rewrite E. cbn [bind fst snd]. f_equal. f_equal.
  unfold fvalue, f_exchange. cbn [csum fst snd]. ring.
Qed.
Lemma ft_interall_ok k t v : 0 <= k < NInterAll H -> I t -> exists t', ft_interall G H ip cfg (eleProjCnt w) k (t, v) = Some (t', Cplus v (fvalue V (f_interall N H k) X)) /\ I t'.
Proof.
  intros Hk Ht. destruct (fok_interall N H HH k Hk) as (S1 & S2 & S3 & S4). unfold ft_interall.
  edestruct (good_add [(InterAll H k 0 + InterAll H k 1 * N, InterAll H k 2 + InterAll H k 3 * N); (InterAll H k 4 + InterAll H k 5 * N, InterAll H k 6 + InterAll H k 7 * N)] (ParaInterAll H k)) as (t' & E & Ht').
  2:{ exists t'. split; [|exact Ht']. rewrite E. cbn [fst snd]. unfold fvalue, f_interall. cbn [csum fst snd]. f_equal. f_equal. ring. }
  cbn [fst]. destruct ((InterAll H k 1 =? InterAll H k 3) && (InterAll H k 5 =? InterAll H k 7)) eqn:Es.
  - apply andb_true_iff in Es. destruct Es as (Es & Eu). apply Z.eqb_eq in Es, Eu. rewrite <- Es in S2 |- *. rewrite <- Eu in S4 |- *. exact (green2_fsz_ok V HV G w' ip HS' _ _ _ _ _ _ t S1 S2 S3 S4 Ht).
  - exact (green2_fsz2_ok V HV G w' ip HS' _ _ _ _ _ _ _ _ t S1 S2 S3 S4 Ht).
Qed.
End Thread.

Lemma fcopy_get {A} n (f g : Z -> A) i : 0 <= i < n -> loop 0 n (fun i a => upd a i (f i)) g i = f i.
Proof.
  clear. intros Hj. apply (loop_inv (fun j g => forall i, 0 <= i < j -> g i = f i) 0 n (fun i g => upd g i (f i)) g); [lia|lia| |exact Hj].
  intros j g' Hi IH k Hk. rewrite upd_get. destruct (Z.eqb_spec k j) as [->|]; [reflexivity|apply IH; lia].
Qed.
Definition part P l t : C := csum (fplan P l t) (fun i =>
  fvalue V ((if l =? 0 then f_intra else if l =? 1 then f_inter else if l =? 2 then f_hund else if l =? 3 then f_transfer else if l =? 4 then f_pair else if l =? 5 then f_exchange else f_interall) N H i) X).
Lemma diag_runs P t : fexecution (fcount H) P -> In t (zrange 0 (fthreads P)) -> forall k v,
  bind (runs (fplan P 0 t) (ft_intra G H e) (k, v)) (fun st => bind (runs (fplan P 1 t) (ft_inter G H e) st) (fun st => runs (fplan P 2 t) (ft_hund G H e) st)) =
  Some (k, Cplus v (Cplus (part P 0 t) (Cplus (part P 1 t) (part P 2 t)))).
Proof.
  intros HP Ht k v.
  destruct (fruns_sum (fun k' => k' = k) (ft_intra G H e) (fun i => fvalue V (f_intra N H i) X) (fplan P 0 t) (k, v)) as (k1 & E1 & ->); [|reflexivity|].
  { intros i k' v' A ->. exists k. split; [|reflexivity]. apply ft_intra_ok. exact (fplan_in (fcount H) P 0 t i HP ltac:(lia) Ht A). }
  rewrite E1. cbn [bind].
  match goal with |- context [bind (runs _ ?f ?st) _] => destruct (fruns_sum (fun k' => k' = k) f (fun i => fvalue V (f_inter N H i) X) (fplan P 1 t) st) as (k2 & E2 & ->); [|reflexivity|] end.
  { intros i k' v' A ->. exists k. split; [|reflexivity]. apply ft_inter_ok. exact (fplan_in (fcount H) P 1 t i HP ltac:(lia) Ht A). }
  rewrite E2. cbn [bind].
  match goal with |- runs _ ?f ?st = _ => destruct (fruns_sum (fun k' => k' = k) f (fun i => fvalue V (f_hund N H i) X) (fplan P 2 t) st) as (k3 & E3 & ->); [|reflexivity|] end.
  { intros i k' v' A ->. exists k. split; [|reflexivity]. apply ft_hund_ok. exact (fplan_in (fcount H) P 2 t i HP ltac:(lia) Ht A). }
  rewrite E3. f_equal. f_equal. cbn [snd]. unfold part. cbn [Z.eqb Pos.eqb]. ring.
Qed.
Lemma fdiagonal_ok P : fexecution (fcount H) P -> calculate_hamiltonian0_fsz G H e P = Some (fvalue V (fdiagonal N H) X).
Proof.
  intros HP. unfold calculate_hamiltonian0_fsz. erewrite fregion_sum.
  2:{ intros t Ht. eexists. rewrite (diag_runs P t HP Ht). f_equal. f_equal. rewrite Cplus_0_l. reflexivity. }
  f_equal. rewrite !csum_add. unfold part. cbn [Z.eqb Pos.eqb]. rewrite !(fplan_sum (fcount H) P) by (exact HP || lia).
  unfold fdiagonal. rewrite !fvalue_app, !fvalue_flat. reflexivity.
Qed.
Lemma fenergy P : fexecution (fcount H) P ->
  calculate_hamiltonian_fsz G H ip (Samp.Model.eleCfg w) e (eleProjCnt w) P (Samp.Model.eleIdx w) (Samp.Model.eleSpn w) = Some (fvalue V (fhamiltonian N H) X).
Proof.
  intros HP. unfold calculate_hamiltonian_fsz.
  rewrite (fregion_sum P _ _ (fun t => Cplus (Cplus (part P 0 t) (Cplus (part P 1 t) (part P 2 t))) (Cplus (part P 3 t) (Cplus (part P 4 t) (Cplus (part P 5 t) (part P 6 t)))))).
  - f_equal. rewrite !csum_add. unfold part. cbn [Z.eqb Pos.eqb]. rewrite !(fplan_sum (fcount H) P) by (exact HP || lia).
    unfold fhamiltonian, fdiagonal, fhopping. rewrite !fvalue_app, !fvalue_flat. reflexivity.
  - intros t Ht. set (k0 := fcopy_tables G e (Samp.Model.eleIdx w) (Samp.Model.eleSpn w) (fspace P t)).
    assert (Hi : forall m, 0 <= m < 2 * Ne -> fIdx k0 m = Samp.Model.eleIdx w m) by (intros m Hm; unfold k0, fcopy_tables; cbn [fIdx]; rewrite HGe; now apply fcopy_get).
    assert (Hs : forall m, 0 <= m < 2 * Ne -> fSpn k0 m = Samp.Model.eleSpn w m) by (intros m Hm; unfold k0, fcopy_tables; cbn [fSpn]; rewrite HGe; now apply fcopy_get).
    assert (He : forall rs, 0 <= rs < 2 * N -> fNum k0 rs = e rs) by (intros m Hm; unfold k0, fcopy_tables; cbn [fNum]; rewrite HG; now apply fcopy_get).
    assert (D := diag_runs P t HP Ht k0 (RtoC 0)).
    destruct (runs (fplan P 0 t) (ft_intra G H e) (k0, RtoC 0)) as [st1|]; [|discriminate]. cbn [bind] in D |- *.
    destruct (runs (fplan P 1 t) (ft_inter G H e) st1) as [st2|]; [|discriminate]. cbn [bind] in D |- *. rewrite D. cbn [bind]. clear D.
    set (I := fun k => starts_fsz (fredone w (fIdx k0) (fSpn k0) (fNum k0)) k). assert (I0 : I k0) by (repeat split).
    match goal with |- context [bind (runs _ ?f ?st) _] => destruct (fruns_sum I f (fun i => fvalue V (f_transfer N H i) X) (fplan P 3 t) st) as (k1 & E1 & H1); [|exact I0|] end.
    { intros i k' v' A Hk'. apply ft_transfer_ok; try assumption. exact (fplan_in (fcount H) P 3 t i HP ltac:(lia) Ht A). }
    rewrite E1. cbn [bind].
    match goal with |- context [bind (runs _ ?f ?st) _] => destruct (fruns_sum I f (fun i => fvalue V (f_pair N H i) X) (fplan P 4 t) st) as (k2 & E2 & H2); [|exact H1|] end.
    { intros i k' v' A Hk'. apply ft_pair_ok; try assumption. exact (fplan_in (fcount H) P 4 t i HP ltac:(lia) Ht A). }
    rewrite E2. cbn [bind].
    match goal with |- context [bind (runs _ ?f ?st) _] => destruct (fruns_sum I f (fun i => fvalue V (f_exchange N H i) X) (fplan P 5 t) st) as (k3 & E3 & H3); [|exact H2|] end.
    { intros i k' v' A Hk'. apply ft_exchange_ok; try assumption. exact (fplan_in (fcount H) P 5 t i HP ltac:(lia) Ht A). }
    rewrite E3. cbn [bind].
    match goal with |- context [runs _ ?f ?st] => destruct (fruns_sum I f (fun i => fvalue V (f_interall N H i) X) (fplan P 6 t) st) as (k4 & E4 & H4); [|exact H3|] end.
    { intros i k' v' A Hk'. apply ft_interall_ok; try assumption. exact (fplan_in (fcount H) P 6 t i HP ltac:(lia) Ht A). }
    exists k4. etransitivity; [exact E4|]. f_equal. f_equal. cbn [snd]. unfold part. cbn [Z.eqb Pos.eqb]. ring.
Qed.
Lemma fsz_ok : exists z, calculate_sz_fsz G e = Some z /\ RtoC z = Cmult (RtoC 2) (fvalue V (spin_z N) X).
Proof.
  exists (rsum (zrange 0 N) (fun r => IZR (e r - e (r + N)))). split.
  - unfold calculate_sz_fsz. rewrite HG.
    enough (Q : forall j, 0 <= j <= N -> loop 0 j (fun ri o => z <- o;; a <- rd (2 * N) e ri;; b <- rd (2 * N) e (ri + N);; Some (z + IZR (a - b))%R) (Some 0%R) = Some (rsum (zrange 0 j) (fun r => IZR (e r - e (r + N))))) by (apply Q; lia).
    intros j Hj. assert (Q := natlike_ind (fun j => j <= N -> loop 0 j (fun ri o => z <- o;; a <- rd (2 * N) e ri;; b <- rd (2 * N) e (ri + N);; Some (z + IZR (a - b))%R) (Some 0%R) = Some (rsum (zrange 0 j) (fun r => IZR (e r - e (r + N)))))).
    apply Q; [intros _; reflexivity| |lia|lia]. intros m Hm IH Hle. unfold Z.succ. rewrite loop_last by lia. rewrite IH by lia. cbn [bind]. rewrite !rd_ok by lia. cbn [bind].
    rewrite zrange_snoc by lia. rewrite rsum_app. cbn [rsum]. f_equal. ring.
  - unfold spin_z. rewrite fvalue_flat. unfold N. transitivity (csum (zrange 0 (fsites V)) (fun r => RtoC (IZR (e r - e (r + fsites V))))).
    + induction (zrange 0 (fsites V)) as [|r l IH]; [reflexivity|]. cbn [rsum csum]. now rewrite RtoC_plus, IH.
    + rewrite <- csum_scal. apply csum_ext. intros r Hr. apply zrange_in in Hr. unfold fvalue. cbn [csum fst snd]. fold N in Hr |- *. rewrite !local_num by lia. rewrite minus_IZR, RtoC_minus. apply SR.Proofs.Ceq; cbn; lra.
Qed.
End Energy.
