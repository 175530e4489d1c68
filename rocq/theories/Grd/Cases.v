(** A complete optimisation step on two sites with one pair of electrons, and one that is stuck at a zero. *)
From Coq Require Import ZArith List Bool Lia Reals Lra Permutation FunctionalExtensionality.
From Coquelicot Require Import Complex.
From Verif Require Import Base.ZLoop Base.Checked Base.RSum Proj.Model Proj.Spec Proj.Proofs Pf.Pfaffian Pf.Spec Pf.Proofs Pf.ProofsSeq
  Slater.Model Slater.Spec Slater.Derive Slater.ProofsProp Slater.Cases Rbm.Model Rbm.Spec Rbm.Proofs Rbm.Cases Samp.Model Samp.Spec Green.Model Green.Spec Green.Core Green.Cases
  Ham.Model Ham.Spec Ham.Properties SR.Model SR.Spec Grd.Model Grd.Spec Grd.ProofsDer Grd.ProofsSum Grd.ProofsGrad Grd.ProofsEnd.
From Verif Require Slater.ProofsDer Uhf.Spec Green.Proofs SR.Proofs.
Notation Ceq := SR.Proofs.Ceq (only parsing).
Import ListNotations.
Local Open Scope Z_scope.

(** ** samples of all configurations with non-vanishing amplitude *)
Lemma choose {A B} (Q : A -> B -> Prop) (l : list A) : (forall a, In a l -> exists b, Q a b) -> exists L, Forall2 Q l L.
Proof.
  induction l as [|a l IH]; intros H; [now exists []|]. destruct (H a (or_introl eq_refl)) as (b & Hb). destruct IH as (L & HL); [intros; apply H; now right|].
  exists (b :: L). now constructor.
Qed.
Definition weighs (V : wave) (H : terms) (u : list Z) (s : sample) : Prop := ok s = true /\ wgt s = Rsqr (Cmod (psi V (conf u))) /\ evaluated V H s (conf u).
Lemma exact_samples V H X : norm V (psi V) <> 0%R ->
  (forall F, rsum X (fun u => Rsqr (Cmod (psi V (conf u))) * F u)%R = rsum (configurations V) (fun u => Rsqr (Cmod (psi V (conf u))) * F u)%R) ->
  (forall u, In u X -> exists s, weighs V H u s) ->
  exists l, length l = length X /\ counted l = l /\ unbiased V l X /\ (forall s u, In (s, u) (combine (counted l) X) -> evaluated V H s (conf u)) /\ (forall s, In s l -> 0 <= wgt s)%R.
Proof.
  intros Hn HX Hs. destruct (choose (weighs V H) X Hs) as (l & Hl). exists l.
  assert (L : length l = length X) by (clear - Hl; induction Hl; cbn; congruence).
  assert (Cl : counted l = l).
  { clear - Hl. induction Hl as [|u s X l (E & _) _ IH]; [reflexivity|]. unfold counted in *. cbn. rewrite E. now rewrite IH. }
  assert (E : forall F, rsum (combine l X) (fun sx => wgt (fst sx) * F (snd sx))%R = rsum X (fun u => Rsqr (Cmod (psi V (conf u))) * F u)%R).
  { intros F. clear - Hl. induction Hl as [|u s X l (_ & E & _) _ IH]; [reflexivity|]. cbn [combine rsum fst snd]. now rewrite E, IH. }
  assert (T : total_weight l = norm V (psi V)).
  { transitivity (rsum X (fun u => Rsqr (Cmod (psi V (conf u))) * 1)%R).
    - unfold total_weight. rewrite Cl. clear - Hl. induction Hl as [|u s X l (_ & E & _) _ IH]; [reflexivity|]. cbn [rsum]. rewrite E, IH. ring.
    - rewrite (HX (fun _ => 1%R)). unfold norm. apply rsum_ext. intros; ring. }
  split; [exact L|]. split; [exact Cl|]. split; [|split].
  - split; [rewrite Cl; now symmetry|]. split; [now rewrite T|]. intros F. rewrite Cl, E, T, HX. reflexivity.
  - rewrite Cl. clear - Hl. induction Hl as [|u s X l (_ & _ & E) _ IH]; intros s' u' I; [destruct I|]. destruct I as [I|I]; [now injection I as <- <-|now apply IH].
  - clear - Hl. induction Hl as [|u s X l (_ & E & _) _ IH]; intros s' I; [destruct I|]. destruct I as [<-|I]; [rewrite E; apply Rle_0_sqr|now apply IH].
Qed.
Definition S_one (H : terms) (w0 : work) : sched := Sched 1 (fun l _ => zrange 0 (count H l)) (fun _ => w0).
Lemma S_one_ok H w0 : execution (count H) (S_one H w0).
Proof. intros l _. change (zrange 0 (threads (S_one H w0))) with [0]. cbn [flat_map S_one plan]. rewrite app_nil_r. apply Permutation_refl. Qed.
Lemma weighed V0 P H K w rcnt ip u : let V := with_para V0 P in wf_wave V -> (vFlagRBM V0 = true -> complete (vM V0)) -> sites_ok V H -> spins_kept H ->
  sampled V K w rcnt ip -> (forall m, Samp.Model.eleIdx w m = conf u m) -> exists s, weighs V H u s.
Proof.
  intros V HV Hc Hok Hsp Hs Hx.
  destruct (assembled V0 P HV K w rcnt ip Hs (fun _ => RtoC 0) Hc) as (O' & HO & _).
  set (w0 := Work (fun _ => 0) (fun _ => 0) (fun _ => 0) (fun _ => RtoC 0) (fun _ => RtoC 0)).
  exists (Smp true (Rsqr (Cmod (psi V (conf u)))) (local_value V (hamiltonian V H) (Samp.Model.eleIdx w)) O' (fun _ => RtoC 0) (fun _ => RtoC 0)).
  split; [reflexivity|]. split; [reflexivity|]. exists K, w, rcnt, ip, (S_one H w0), (fun _ => RtoC 0). split; [exact Hs|]. split; [apply S_one_ok|]. split; [exact Hx|]. split.
  - exact (C59_energy V HV K w rcnt ip Hs H Hok Hsp _ (S_one_ok H w0)).
  - exact HO.
Qed.

(** ** two sites, one up and one down electron, four pair parameters, one Gutzwiller and one Jastrow parameter, with or without machine *)
Definition Sg : sizes := {| Slater.Model.Nsite := 2; Slater.Model.Ne := 1; NSPGaussLeg := 1; NMPTrans := 1; NQPOptTrans := 1; NSlater := 4 |}.
Definition Qg : qptables := {| QPOptTrans := fun _ r => r; QPOptTransSgn := fun _ _ => 1; QPTrans := fun _ r => r; QPTransSgn := fun _ _ => 1;
  OrbitalIdx := fun a b => 2 * a + b; OrbitalSgn := fun _ _ => 1 |}.
Definition Vg (flag : bool) : wave := {| vS := Sg; vQ := Qg; vstot := 0; vbeta := fun _ => 0%R; vweight := fun _ => 0%R; vpara := one_ex; vflag := false; vopt := one_ex; vsl := fun _ => czero;
  vT := T2; vProj := fun _ => czero; vFlagRBM := flag; vM := ma; vRBM := fun _ => czero |}.
Definition base (flag : bool) : Z := 2 + n_rbm flag ma.
(** all parameters real *)
Definition Pg (p : Z -> R) (k : Z) : C := RtoC (p k).
Definition Wg flag p : wave := with_para (Vg flag) (Pg p).
Lemma Wg_wf flag p : wf_wave (Wg flag p).
Proof.
  constructor; cbn [vS vQ vflag vT vM vRBM vFlagRBM Wg with_para Vg].
  - unfold valid, Sg, Qg. cbn [Slater.Model.Nsite Slater.Model.Ne NSPGaussLeg NMPTrans NQPOptTrans NSlater QPOptTrans QPTrans OrbitalIdx]. do 6 (split; [lia|]). split; [reflexivity|]. split; [intros; lia|]. split; [intros; lia|]. intros; lia.
  - constructor; cbn; intros; lia.
  - exact ma_wf.
  - split; reflexivity.
  - intros _ e _. apply real_weight. intros k. unfold section, Pg. destruct (inb _ k); reflexivity.
Qed.
Definition pv flag (p : Z -> R) (a b : Z) : R := p (base flag + (2 * a + b)).
Lemma two m : 0 <= m < 2 -> m = 0 \/ m = 1. Proof. lia. Qed.
Lemma base_is flag : base flag = NProj T2 + n_rbm flag ma. Proof. reflexivity. Qed.
Lemma elem_g flag p x i j : on_lattice 2 (2 * 1) x -> 0 <= i < 2 -> 0 <= j < 2 ->
  Slater.Spec.element 2 Qg (vsl (Wg flag p)) 0 0 0 (orbital 2 1 x i) (orbital 2 1 x j) = RtoC (if i =? j then 0 else if i =? 0 then pv flag p (x 0%Z) (x 1%Z) else - pv flag p (x 0%Z) (x 1%Z))%R.
Proof.
  intros Hx Hi Hj.
  assert (D : forall k, 0 <= k < 2 -> (x k + k / 1 * 2) / 2 = k / 1 /\ (x k + k / 1 * 2) mod 2 = x k).
  { intros k Hk. specialize (Hx k ltac:(lia)). split; [rewrite Z.div_add by lia; rewrite Z.div_small by lia; lia|rewrite Z.mod_add by lia; apply Z.mod_small; lia]. }
  unfold Slater.Spec.element, orbital. destruct (D i Hi) as (-> & ->), (D j Hj) as (-> & ->).
  assert (S : pair Qg (vsl (Wg flag p)) 0 0 (x 0) (x 1) = RtoC (pv flag p (x 0) (x 1))).
  { unfold pair, image, sign, pv. cbn [QPOptTrans QPOptTransSgn QPTrans QPTransSgn OrbitalSgn OrbitalIdx Qg vsl Wg with_para]. unfold section.
    pose proof (Hx 0 ltac:(lia)). pose proof (Hx 1 ltac:(lia)). change (NSlater (vS (Vg flag))) with 4. rewrite inb_true by lia. unfold Pg. rewrite base_is.
    cbn [vT Vg vFlagRBM vM]. generalize (p (NProj T2 + n_rbm flag ma + (2 * x 0 + x 1))). intros r. apply Ceq; cbn; lra. }
  destruct (two i Hi) as [->| ->], (two j Hj) as [->| ->]; unfold up, down; cbn -[cos sin pair Wg vsl]; rewrite ?cos_0, ?sin_0, ?S; apply Ceq; cbn; try lra.
Qed.
Definition table_g flag p := elements_of (Wg flag p) one_ex (fun _ => czero).
Lemma pm_g flag p x i j : on_lattice 2 (2 * 1) x -> 0 <= i < 2 -> 0 <= j < 2 ->
  pair_matrix 2 1 (table_g flag p) 0 x i j = RtoC (if i =? j then 0 else if i =? 0 then pv flag p (x 0%Z) (x 1%Z) else - pv flag p (x 0%Z) (x 1%Z))%R.
Proof.
  intros Hx Hi Hj. rewrite <- (elem_g flag p x i j Hx Hi Hj).
  assert (H := Slater.ProofsDer.PM Sg Qg 0 (fun _ => 0%R) (fun _ => 0%R) one_ex one_ex one_ex false (wv_valid _ (Wg_wf flag p)) (vsl (Wg flag p)) (fun _ => czero) x Hx 0 0 0 i j).
  cbv zeta in H. unfold projection in H. change ((0 * NMPTrans Sg + 0) * NSPGaussLeg Sg + 0) with 0 in H. apply H; [repeat split; cbn; lia|exact Hi|exact Hj].
Qed.
Lemma pairs_g flag p x : on_lattice 2 (2 * 1) x -> pairs (Wg flag p) x = RtoC (pv flag p (x 0) (x 1)).
Proof.
  intros Hx. unfold pairs, amplitude. change (vS (Wg flag p)) with Sg. change (zrange 0 (NQPOptTrans Sg)) with [0]. change (zrange 0 (NMPTrans Sg)) with [0]. change (zrange 0 (NSPGaussLeg Sg)) with [0]. cbn [csum].
  replace (pfaffian Sg (vQ (Wg flag p)) (vbeta (Wg flag p)) (vsl (Wg flag p)) x 0 0 0) with (RtoC (pv flag p (x 0) (x 1))).
  - unfold spin_weight, opt_weight. cbn -[pv]. apply Ceq; cbn -[pv]; ring.
  - unfold pfaffian. change (zrange 0 (2 * Slater.Model.Ne Sg)) with [0; 1]. rewrite pf_two_by_two. change (half Sg (vbeta (Wg flag p)) 0) with 0%R.
    change (vQ (Wg flag p)) with Qg. change (Slater.Model.Nsite Sg) with 2. change (Slater.Model.Ne Sg) with 1. rewrite (elem_g flag p x 0 1 Hx) by lia. reflexivity.
Qed.
(** the walker with the up electron on a and the down electron on b *)
Definition Inv_g (v : R) (k : Z) : C := RtoC (if k =? 1 then - / v else if k =? 2 then / v else 0)%R.
Definition K_g flag p a b : setting := {| sopt0 := one_ex; sE0 := fun _ => czero; sclog := principal; sNB := 8; sThreads := 3; sjunk := fun _ _ => czero;
  sInvM := Inv_g (pv flag p a b); sPfM := fun _ => RtoC (pv flag p a b) |}.
Definition e_g (a b rs : Z) : Z := if (rs =? a) || (rs =? b + 2) then 1 else 0.
Definition w_g (a b : Z) (cnt : Z -> Z) : walker := Walker (conf [a; b]) (fun rs => if (rs =? a) || (rs =? b + 2) then 0 else -1) (e_g a b) cnt (fun _ => 0).
Lemma conf_on a b : 0 <= a < 2 -> 0 <= b < 2 -> on_lattice 2 (2 * 1) (conf [a; b]).
Proof. intros Ha Hb k Hk. assert (k = 0 \/ k = 1) as [->| ->] by lia; [exact Ha|exact Hb]. Qed.
Lemma sampled_g flag p a b : 0 <= a < 2 -> 0 <= b < 2 -> pv flag p a b <> 0%R -> exists cnt rcnt, sampled (Wg flag p) (K_g flag p a b) (w_g a b cnt) rcnt (RtoC (pv flag p a b)).
Proof.
  intros Ha Hb Hp.
  assert (Ho : occ01 2 (e_g a b)) by (intros rs _; unfold e_g; destruct (_ || _); auto).
  destruct (make_correct T2 (wv_T _ (Wg_wf flag p)) (e_g a b) Ho (fun _ => 0)) as (cnt & _ & Hcnt & _).
  destruct (make_cells ma ma_wf (vRBM (Wg flag p)) (fun _ => RtoC 0) (e_g a b)) as (rcnt & _ & Hrcnt).
  pose proof (conf_on a b Ha Hb) as Hx.
  assert (Hst : forall i j, 0 <= i < 2 -> 0 <= j < 2 -> stored (2 * 1) (Inv_g (pv flag p a b)) 0 i j = RtoC (if i =? j then 0 else if i =? 0 then - / pv flag p a b else / pv flag p a b)%R).
  { intros i j Hi Hj. destruct (two i Hi) as [->| ->], (two j Hj) as [->| ->]; reflexivity. }
  exists cnt, rcnt. constructor.
  - exact principal_log.
  - cbn; lia.
  - constructor.
    + intros mi s Hmi Hs. cbn in Hmi. assert (mi = 0) as -> by lia. change (sites (Wg flag p)) with 2. change (Slater.Model.Ne (vS (Wg flag p))) with 1.
      destruct (two a Ha) as [-> | ->], (two b Hb) as [-> | ->]; (assert (s = 0 \/ s = 1) as [-> | ->] by lia); eexists; (split; [reflexivity|]); (split; [split; [vm_compute; discriminate|reflexivity]|reflexivity]).
    + intros r s Hr Hs. change (sites (Wg flag p)) with 2 in *. change (Slater.Model.Ne (vS (Wg flag p))) with 1.
      destruct (two a Ha) as [-> | ->], (two b Hb) as [-> | ->], (two r Hr) as [-> | ->]; (assert (s = 0 \/ s = 1) as [-> | ->] by lia);
        cbn; try (left; split; reflexivity); right; exists 0; repeat split; try reflexivity; lia.
  - exact Hcnt.
  - intros _. exact Hrcnt.
  - intros q Hq. change (Slater.Model.NQPFull (vS (Wg flag p)) - 0) with 1 in Hq. assert (q = 0) as -> by lia. change (0 + 0) with 0.
    change (sites (Wg flag p)) with 2. change (Slater.Model.Ne (vS (Wg flag p))) with 1. change (elements_of (Wg flag p) (sopt0 (K_g flag p a b)) (sE0 (K_g flag p a b))) with (table_g flag p).
    change (Samp.Model.eleIdx (w_g a b cnt)) with (conf [a; b]). cbn [sInvM sPfM K_g]. split.
    + change (zrange 0 (2 * 1)) with [0; 1]. rewrite pf_two_by_two, pm_g by (assumption || lia). reflexivity.
    + apply is_inverse_intro.
      * apply skew_spec. intros i j Hi Hj. change (2 * 1) with 2 in Hi, Hj. rewrite !Hst by lia. destruct (two i Hi) as [->| ->], (two j Hj) as [->| ->]; cbn -[pv]; apply Ceq; cbn -[pv]; ring.
      * apply skew_spec. intros i j Hi Hj. change (2 * 1) with 2 in Hi, Hj. rewrite !pm_g by (assumption || lia). destruct (two i Hi) as [->| ->], (two j Hj) as [->| ->]; cbn -[pv]; apply Ceq; cbn -[pv]; ring.
      * apply left_inverse_spec. intros i j Hi Hj. change (zrange 0 (2 * 1)) with [0; 1]. change (2 * 1) with 2 in Hi, Hj. cbn [csum]. rewrite !Hst, !pm_g by (assumption || lia).
        change (conf [a; b] 0) with a. change (conf [a; b] 1) with b.
        unfold kron. destruct (two i Hi) as [->| ->], (two j Hj) as [->| ->]; cbn [Z.eqb Pos.eqb]; apply Ceq; cbn -[pv]; try (field; exact Hp); ring.
  - symmetry. change (sPfM (K_g flag p a b)) with (fun _ : Z => RtoC (pv flag p a b)). transitivity (pairs (Wg flag p) (conf [a; b])); [|exact (pairs_g flag p (conf [a; b]) Hx)].
    apply (Green.Core.pairs_ok (Wg flag p) (Wg_wf flag p) (K_g flag p a b) (conf [a; b])); [intros k Hk; apply zrange_in in Hk; apply Hx; exact Hk|].
    intros q Hq. change (Slater.Model.NQPFull (vS (Wg flag p))) with 1 in Hq. assert (q = 0) as -> by lia.
    change (labels (Wg flag p)) with [0; 1]. rewrite pf_two_by_two. symmetry. exact (pm_g flag p (conf [a; b]) 0 1 Hx ltac:(lia) ltac:(lia)).
  - intros E. apply RtoC_inj in E. contradiction.
Qed.

(** ** Hamiltonian: repulsion on both sites, between the sites, Hund coupling, complex hopping, pair hopping and exchange *)
Definition H_g : terms := Terms 2 (fun k => k) (fun k => IZR (5 + k)) 1 (fun _ c => c) (fun _ => 1%R) 1 (fun _ c => c) (fun _ => 2%R)
  4 (fun k c => if c =? 0 then k / 2 else if c =? 2 then 1 - k / 2 else k mod 2) (fun k => (1, IZR (1 - 2 * (k / 2)))%R) 2 (fun k c => (k + c) mod 2) (fun _ => (-3)%R)
  1 (fun _ c => c) (fun _ => 4%R) 0 (fun _ _ => 0) (fun _ => RtoC 0).
Lemma H_g_sites V : sites V = 2 -> sites_ok V H_g.
Proof.
  intros EV. constructor; cbn [H_g NIntra Intra NInter Inter NHund Hund NTransfer Transfer NPair Pair NExchange Exchange NInterAll InterAll]; intros k Hk; unfold site, spin; rewrite EV; try lia.
  - assert (k = 0 \/ k = 1 \/ k = 2 \/ k = 3) as [->|[->|[->| ->]]] by lia; cbv; intuition discriminate.
Qed.
Lemma H_g_spins : spins_kept H_g.
Proof. split; cbn; intros k Hk; [reflexivity|lia]. Qed.
Lemma H_g_herm : Uhf.Spec.files_hermitian 2 H_g.
Proof.
  assert (E : Cconj (1, IZR (1 - 2 * (0 / 2)))%R = (1, IZR (1 - 2 * (2 / 2)))%R /\ Cconj (1, IZR (1 - 2 * (2 / 2)))%R = (1, IZR (1 - 2 * (0 / 2)))%R) by (split; apply Ceq; cbn; lra).
  split; [|split].
  - unfold Uhf.Spec.transfers. cbn [H_g NTransfer Transfer ParaTransfer]. change (zrange 0 4) with [0; 1; 2; 3]. cbn [map]. change (1 / 2) with (0 / 2). change (3 / 2) with (2 / 2). rewrite !(proj1 E), !(proj2 E).
    change (0 / 2) with 0. change (2 / 2) with 1. cbn.
    match goal with |- Permutation [?a; ?b; ?c; ?d] [?c; ?d; ?a; ?b] => exact (Permutation_app_comm [a; b] [c; d]) end.
  - apply Permutation_refl.
  - unfold Uhf.Spec.pair_terms. cbn [H_g NPair Pair ParaPair]. change (zrange 0 2) with [0; 1]. cbn. apply perm_swap.
Qed.

(** all configurations have non-vanishing amplitude *)
Lemma configurations_g flag : configurations (Vg flag) = [[0; 0]; [0; 1]; [1; 0]; [1; 1]]. Proof. reflexivity. Qed.
Lemma psi_g flag p x : on_lattice 2 (2 * 1) x -> psi (Wg flag p) x =
  Cmult (Cmult (RtoC (correlation (Wg flag p) (occupation (Wg flag p) x))) (boltzmann (Wg flag p) (occupation (Wg flag p) x))) (RtoC (pv flag p (x 0) (x 1))).
Proof. intros Hx. unfold psi. now rewrite pairs_g. Qed.
Lemma psi_g_nz flag p x : on_lattice 2 (2 * 1) x -> pv flag p (x 0) (x 1) <> 0%R -> psi (Wg flag p) x <> RtoC 0.
Proof.
  intros Hx Hp. rewrite psi_g by exact Hx. apply Cmult_neq_0; [apply Cmult_neq_0|].
  - intros Z. apply RtoC_inj in Z. unfold correlation in Z. match type of Z with exp ?a = _ => pose proof (exp_pos a) end. lra.
  - unfold boltzmann. destruct (vFlagRBM (Wg flag p)) eqn:F; [|intros Z; apply RtoC_inj in Z; lra]. apply (wv_rbm _ (Wg_wf flag p) F). apply occupation_01.
  - intros Z. apply RtoC_inj in Z. contradiction.
Qed.
Lemma norm_g flag p a b : 0 <= a < 2 -> 0 <= b < 2 -> pv flag p a b <> 0%R -> norm (Wg flag p) (psi (Wg flag p)) <> 0%R.
Proof.
  intros Ha Hb Hp. unfold norm. change (configurations (Wg flag p)) with [[0; 0]; [0; 1]; [1; 0]; [1; 1]]. cbn [rsum].
  pose proof (Rle_0_sqr (Cmod (psi (Wg flag p) (conf [0; 0])))). pose proof (Rle_0_sqr (Cmod (psi (Wg flag p) (conf [0; 1])))).
  pose proof (Rle_0_sqr (Cmod (psi (Wg flag p) (conf [1; 0])))). pose proof (Rle_0_sqr (Cmod (psi (Wg flag p) (conf [1; 1])))).
  assert (K : (0 < Rsqr (Cmod (psi (Wg flag p) (conf [a; b]))))%R).
  { apply Rsqr_pos_lt. intros E. apply Cmod_eq_0 in E. exact (psi_g_nz flag p (conf [a; b]) (conf_on a b Ha Hb) Hp E). }
  destruct (two a Ha) as [->| ->], (two b Hb) as [->| ->]; lra.
Qed.
Lemma weighs_g flag p a b : 0 <= a < 2 -> 0 <= b < 2 -> pv flag p a b <> 0%R -> exists s, weighs (Wg flag p) H_g [a; b] s.
Proof.
  intros Ha Hb Hp. destruct (sampled_g flag p a b Ha Hb Hp) as (cnt & rcnt & Hs).
  apply (weighed (Vg flag) (Pg p) H_g (K_g flag p a b) (w_g a b cnt) rcnt _ [a; b] (Wg_wf flag p) (fun _ => ma_complete) (H_g_sites (Wg flag p) eq_refl) H_g_spins Hs).
  reflexivity.
Qed.
(** parameters 1, 2, 3, ... *)
Definition p_case (k : Z) : R := IZR (k + 1).
Lemma p_case_nz a b : 0 <= a < 2 -> 0 <= b < 2 -> pv true p_case a b <> 0%R.
Proof. intros Ha Hb E. apply eq_IZR in E. change (base true) with (2 + NRBM ma) in E. assert (0 <= NRBM ma) by (vm_compute; discriminate). lia. Qed.
Lemma case_samples : exists l, length l = 4%nat /\ unbiased (Wg true p_case) l (configurations (Vg true)) /\
  (forall s u, In (s, u) (combine (counted l) (configurations (Vg true))) -> evaluated (Wg true p_case) H_g s (conf u)) /\ (forall s, In s (counted l) -> 0 <= wgt s)%R.
Proof.
  destruct (exact_samples (Wg true p_case) H_g (configurations (Vg true))) as (l & L & Cl & U & E & W).
  - apply (norm_g true p_case 0 0); try lia. apply p_case_nz; lia.
  - reflexivity.
  - intros u Hu. rewrite configurations_g in Hu. destruct Hu as [<-|[<-|[<-|[<-|[]]]]]; apply weighs_g; try lia; apply p_case_nz; lia.
  - exists l. split; [exact L|]. split; [exact U|]. split; [exact E|]. rewrite Cl. exact W.
Qed.
Lemma case_flat c : flat_nodes (Vg true) (Pg p_case) c.
Proof.
  intros u Hu _ E. exfalso. rewrite configurations_g in Hu. revert E. change (with_para (Vg true) (Pg p_case)) with (Wg true p_case).
  destruct Hu as [<-|[<-|[<-|[<-|[]]]]]; apply psi_g_nz; try (apply conf_on; lia); apply p_case_nz; cbv; intuition discriminate.
Qed.
