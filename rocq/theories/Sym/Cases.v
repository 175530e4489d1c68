(** An antiperiodic ring of four sites with momentum, and files that the reader mishandles. *)
From Coq Require Import ZArith List Bool Lia Reals Lra Permutation.
From Coquelicot Require Import Complex.
From Verif Require Import Base.ZLoop Base.Checked Base.RSum Pf.Pfaffian Pf.Spec Proj.Model Proj.Spec Slater.Model Slater.Spec Rbm.Model Rbm.Spec Rbm.Cases Rbm.ProofsRatio SR.Proofs Green.Spec Grd.Spec Sym.Model Sym.Spec Sym.ProofsPf Sym.ProofsOcc Sym.ProofsMean Sym.ProofsRead.
Import ListNotations.
Local Open Scope Z_scope.

(** ** the ring *)
Definition turn (m r : Z) : Z := (r + m) mod 4.
Definition wrap (m r : Z) : Z := if r + m <? 4 then 1 else -1.
Definition Qr : qptables := {| QPOptTrans := fun _ r => r; QPOptTransSgn := fun _ _ => 1; QPTrans := turn; QPTransSgn := wrap; OrbitalIdx := fun a b => 4 * a + b; OrbitalSgn := fun _ _ => 1 |}.
Definition Sr : sizes := {| Slater.Model.Nsite := 4; Slater.Model.Ne := 1; NSPGaussLeg := 1; NMPTrans := 4; NQPOptTrans := 1; NSlater := 16 |}.
(** powers of i *)
Definition ipow (m : Z) : C := if m =? 0 then (1, 0)%R else if m =? 1 then (0, 1)%R else if m =? 2 then (-1, 0)%R else (0, -1)%R.
(** one Gutzwiller factor, Jastrow factors by distance, doublon-holon factors of the neighbours at distance 1 and 1, 2 *)
Definition Tr : tables := Tables 4 1 2 1 1 (fun _ => 0) (fun r r' => if (r - r') mod 2 =? 0 then 1 else 0)
  (fun _ k => (k / 2 + (if k mod 2 =? 0 then 1 else 3)) mod 4) (fun _ k => (k / 4 + (if k mod 4 =? 0 then 1 else if k mod 4 =? 1 then 3 else 2)) mod 4).
(** one neuron of each kind per site, coupled by distance *)
Definition Mr : machine := {| Rbm.Model.Nsite := 4; NPhysC := 1; NPhysS := 1; NPhysG := 2; NHidC := 1; NHidS := 1; NHidG := 1; NPhC := 4; NPhS := 4; NPhG := 8; NneuronC := 4; NneuronS := 4; NneuronG := 4; NneuronX := 0;
  PhysC := fun _ => 0; PhysS := fun _ => 0; PhysG := fun rs => rs / 4; HidC := fun _ => 0; HidS := fun _ => 0; HidG := fun _ => 0;
  PhC := fun r h => (h - r) mod 4; PhS := fun r h => (h - r) mod 4; PhG := fun rs h => (h - rs) mod 4 + rs / 4 * 4 |}.
Definition Vr : wave := {| vS := Sr; vQ := Qr; vstot := 0; vbeta := fun _ => 0%R; vweight := fun _ => 0%R; vpara := ipow; vflag := false; vopt := fun _ => RtoC 1; vsl := fun k => if k =? 1 then RtoC 1 else RtoC 0;
  vT := Tr; vProj := fun k => RtoC (IZR k); vFlagRBM := true; vM := Mr; vRBM := fun k => RtoC (IZR k) |}.
Lemma four r : 0 <= r < 4 -> r = 0 \/ r = 1 \/ r = 2 \/ r = 3. Proof. lia. Qed.
Lemma eight r : 0 <= r < 8 -> r = 0 \/ r = 1 \/ r = 2 \/ r = 3 \/ r = 4 \/ r = 5 \/ r = 6 \/ r = 7. Proof. lia. Qed.
Ltac each4 H := destruct (four _ H) as [->|[->|[->| ->]]].
Ltac each8 H := destruct (eight _ H) as [->|[->|[->|[->|[->|[->|[->| ->]]]]]]].
Ltac fin := vm_compute; repeat split; congruence.
Lemma Vr_wf : wf_wave Vr.
Proof.
  constructor.
  - unfold valid. cbn [vS vQ vflag Vr Sr Qr Slater.Model.Nsite Slater.Model.Ne NSPGaussLeg NMPTrans NQPOptTrans NSlater QPOptTrans QPTrans OrbitalIdx]. repeat split; try lia; intros; unfold turn; pose proof (Z.mod_pos_bound (r + m) 4); lia.
  - constructor; cbn [vT Vr Tr Proj.Model.Nsite NGutzwillerIdx NJastrowIdx NDoublonHolon2siteIdx NDoublonHolon4siteIdx GutzwillerIdx JastrowIdx DoublonHolon2siteIdx DoublonHolon4siteIdx]; try lia; intros; try lia; try (destruct (_ =? _); lia); apply Z.mod_pos_bound; lia.
  - constructor; cbn [vM Vr Mr Rbm.Model.Nsite NPhysC NPhysS NPhysG NHidC NHidS NHidG NPhC NPhS NPhG NneuronC NneuronS NneuronG NneuronX PhysC PhysS PhysG HidC HidS HidG PhC PhS PhG]; unfold below; [repeat split; lia| | | | | | | | |]; intros _ r; intros.
    + lia.
    + lia.
    + split; [apply Z.div_pos; lia|apply Z.div_lt_upper_bound; lia].
    + lia.
    + lia.
    + lia.
    + apply Z.mod_pos_bound. lia.
    + apply Z.mod_pos_bound. lia.
    + pose proof (Z.mod_pos_bound (h - r) 4). assert (0 <= r / 4 < 2) by (split; [apply Z.div_pos; lia|apply Z.div_lt_upper_bound; lia]). lia.
  - split; reflexivity.
  - intros _ e _. apply real_weight. reflexivity.
Qed.
Lemma turn_permutes g : permutes 4 (turn g).
Proof.
  split; [intros k _; apply Z.mod_pos_bound; lia|]. intros k l Hk Hl E. unfold turn in E. unfold site in *. pose proof (Z.div_mod (k + g) 4). pose proof (Z.div_mod (l + g) 4). lia.
Qed.
Lemma Vr_symmetry g : 0 <= g < 4 -> symmetry Vr g.
Proof.
  intros Hg. split; [|split].
  - exists (turn g). constructor.
    + exact Hg.
    + exact (turn_permutes g).
    + exact (turn_permutes g).
    + intros m r Hm Hr. change (0 <= m < 4) in Hm. change (0 <= r < 4) in Hr. change (turn (turn g m) r = turn m (turn g r)). each4 Hg; each4 Hm; each4 Hr; reflexivity.
    + intros m Hm. change (0 <= m < 4) in Hm. exists (if g + m <? 4 then 1 else -1). split; [destruct (_ <? _); auto|]. intros r Hr. change (0 <= r < 4) in Hr.
      change (wrap (turn g m) r = (if g + m <? 4 then 1 else -1) * (wrap g r * wrap m (turn g r))). each4 Hg; each4 Hm; each4 Hr; reflexivity.
    + intros r _. change (wrap g r = 1 \/ wrap g r = -1). unfold wrap. destruct (_ <? _); auto.
    + intros m Hm. change (0 <= m < 4) in Hm. change (ipow (turn g m) = Cmult (ipow m) (ipow g)). each4 Hg; each4 Hm; apply Ceq; cbn; lra.
    + reflexivity.
    + intros o r _ _. cbn [vQ Vr Qr QPOptTransSgn QPOptTrans]. ring.
  - change (invariant_factors Tr (turn g)). constructor.
    + reflexivity.
    + intros _ r r' Hr Hr' D. change (0 <= r < 4) in Hr. change (0 <= r' < 4) in Hr'. each4 Hg; each4 Hr; each4 Hr'; try (now elim D); split; reflexivity.
    + intros n r _ Hr. change (0 <= r < 4) in Hr. cbn [map]. each4 Hg; each4 Hr; vm_compute; apply Permutation_refl.
    + intros n r _ Hr. change (0 <= r < 4) in Hr. cbn [map]. each4 Hg; each4 Hr; vm_compute; apply Permutation_refl.
  - intros _. exists (turn g), (turn g), (turn g). change (invariant_machine Mr (turn g) (turn g) (turn g) (turn g)). constructor; try reflexivity; try exact (turn_permutes g).
    + intros _ rs H. change (0 <= rs < 8) in H. each4 Hg; each8 H; reflexivity.
    + intros _ r h Hr Hh. change (0 <= r < 4) in Hr. change (0 <= h < 4) in Hh. each4 Hg; each4 Hr; each4 Hh; reflexivity.
    + intros _ r h Hr Hh. change (0 <= r < 4) in Hr. change (0 <= h < 4) in Hh. each4 Hg; each4 Hr; each4 Hh; reflexivity.
    + intros _ r h Hr Hh. change (0 <= r < 8) in Hr. change (0 <= h < 4) in Hh. each4 Hg; each8 Hr; each4 Hh; reflexivity.
Qed.
Lemma ipow_mod g : 0 <= g < 4 -> Cmod (ipow g) = 1%R.
Proof. intros Hg. each4 Hg; unfold Cmod, ipow; cbn -[sqrt]; [replace (1 * (1 * 1) + 0 * (0 * 1))%R with 1%R by ring|replace (0 * (0 * 1) + 1 * (1 * 1))%R with 1%R by ring|replace (-1 * (-1 * 1) + 0 * (0 * 1))%R with 1%R by ring|replace (0 * (0 * 1) + -1 * (-1 * 1))%R with 1%R by ring]; apply sqrt_1. Qed.
(** the wave function does not vanish *)
Lemma pairs_r : pairs Vr (fun i => i) = RtoC 1.
Proof.
  unfold pairs, amplitude. change (zrange 0 (NQPOptTrans (vS Vr))) with [0]. change (zrange 0 (NMPTrans (vS Vr))) with [0; 1; 2; 3]. change (zrange 0 (NSPGaussLeg (vS Vr))) with [0]. cbn [csum].
  assert (A : forall m, 0 <= m < 4 -> pfaffian (vS Vr) (vQ Vr) (vbeta Vr) (vsl Vr) (fun i => i) 0 m 0 = if m =? 0 then RtoC 1 else RtoC 0).
  { intros m Hm. unfold pfaffian. change (zrange 0 (2 * Slater.Model.Ne (vS Vr))) with [0; 1]. rewrite pf_cons. cbn [psum]. rewrite pf_nil. unfold Slater.Spec.element, orbital, half. change (NSPGaussLeg (vS Vr) =? 1) with true. cbv iota.
    change (Slater.Model.Nsite (vS Vr)) with 4. change (Slater.Model.Ne (vS Vr)) with 1. change ((0 + 0 / 1 * 4) mod 4) with 0. change ((0 + 0 / 1 * 4) / 4) with 0. change ((1 + 1 / 1 * 4) mod 4) with 1. change ((1 + 1 / 1 * 4) / 4) with 1.
    unfold up, down. cbn [Z.eqb]. rewrite cos_0, sin_0. each4 Hm; unfold Slater.Spec.pair, sign, image; cbn; apply Ceq; cbn; ring. }
  rewrite !A by lia. unfold spin_weight, opt_weight. cbn. apply Ceq; cbn; ring.
Qed.
Lemma psi_r : psi Vr (fun i => i) <> RtoC 0.
Proof.
  unfold psi. rewrite pairs_r. apply Cmult_neq_0; [apply Cmult_neq_0|].
  - intros E. apply (f_equal fst) in E. cbn in E. pose proof (exp_pos (rsum (zrange 0 (NProj (vT Vr))) (fun k => fst (vProj Vr k) * IZR (counter (vT Vr) (occupation Vr (fun i => i)) k))%R)). unfold correlation in E. cbn [fst RtoC] in E. lra.
  - unfold boltzmann. cbn [vFlagRBM Vr]. apply real_weight. reflexivity.
  - intros E. apply (f_equal fst) in E. cbn in E. lra.
Qed.
(** its file *)
Definition rows_r : list row := flat_map (fun m => map (fun r => Row m r (turn m r) (Some (wrap m r))) (zrange 0 4)) (zrange 0 4).
Definition ws_r : list (Z * C) := map (fun m => (m, ipow m)) (zrange 0 4).
Lemma NoDup_pairs (l : list (Z * Z)) : (forall a l1 l2, l = l1 ++ a :: l2 -> existsb (fun b => (fst b =? fst a) && (snd b =? snd a)) l2 = false) -> NoDup l.
Proof.
  induction l as [|a l IH]; intros H; constructor.
  - intros I. specialize (H a [] l eq_refl). assert (existsb (fun b => (fst b =? fst a) && (snd b =? snd a)) l = true) by (apply existsb_exists; exists a; rewrite !Z.eqb_refl; auto). congruence.
  - apply IH. intros b l1 l2 ->. exact (H b (a :: l1) l2 eq_refl).
Qed.
Lemma file_r : weights_ok 4 ws_r /\ table_ok true 4 4 rows_r /\ Z.of_nat (length rows_r) = 4 * 4.
Proof.
  split; [|split; [split|reflexivity]].
  - split; [reflexivity|]. split; [intros w Hw; unfold ws_r in Hw; apply in_map_iff in Hw; destruct Hw as (m & <- & Hm); now apply in_zrange|]. unfold ws_r. rewrite map_map. cbn [fst]. rewrite map_id. apply zrange_NoDup.
  - intros r Hr. unfold rows_r in Hr. apply in_flat_map in Hr. destruct Hr as (m & Hm & Hr). apply in_map_iff in Hr. destruct Hr as (k & <- & Hk). apply in_zrange in Hm, Hk. split; [split; [exact Hm|split; [exact Hk|apply turn_permutes; exact Hk]]|discriminate].
  - vm_compute. repeat (constructor; [cbn [In]; intros I; repeat (destruct I as [I|I]; [discriminate I|]); exact I|]). constructor.
Qed.

(** ** files that are mishandled *)
(** antiperiodic boundaries, lines without the sign: accepted, all signs are 0 and the wave function is 0 everywhere *)
Definition junk0 : memory := Memory (fun _ _ => 7) (fun _ _ => 7) (fun _ _ => 7) (fun _ => RtoC 7).
Lemma no_sign_refuted : exists N n ws rows m', 0 < N /\ 0 < n /\ weights_ok n ws /\ table_ok false n N rows /\ get_trans_sym true N n ws rows junk0 = Some (0, m') /\
  forall V, valid (vS V) (vQ V) (vflag V) -> sites V = N -> NMPTrans (vS V) = n -> (forall m r, QPTrans (vQ V) m r = mTrans m' m r /\ QPTransSgn (vQ V) m r = mSgn m' m r) -> forall x, on_lattice V x -> psi V x = RtoC 0.
Proof.
  set (rows := [Row 0 0 0 None; Row 0 1 1 None]).
  exists 2, 1, [(0, RtoC 1)], rows. eexists. split; [lia|]. split; [lia|]. split; [|split; [|split; [vm_compute; reflexivity|]]].
  - split; [reflexivity|]. split; [intros w [<-|[]]; cbn; unfold site; lia|]. cbn. constructor; [intros []|constructor].
  - split; [intros r [<-|[<-|[]]]; unfold row_ok, site; cbn; repeat split; try lia; discriminate|]. cbn. constructor; [intros [E|[]]; discriminate E|constructor; [intros []|constructor]].
  - intros V HV HN Hn HQ x Hx. unfold psi. assert (E : pairs V x = RtoC 0); [|rewrite E; ring]. unfold pairs, amplitude. apply csum_zero. intros o Ho. apply csum_zero. intros m Hm. apply csum_zero. intros s Hs.
    apply in_zrange in Ho, Hm. assert (P : pfaffian (vS V) (vQ V) (vbeta V) (vsl V) x o m s = RtoC 0); [|rewrite P; ring]. unfold pfaffian.
    assert (HNe : 0 < Slater.Model.Ne (vS V)) by (destruct HV as (_ & H & _); exact H).
    rewrite (pf_ext _ (fun i j => Cmult (Cmult (RtoC 0) (RtoC 0)) (RtoC 0)) _ _ (Nat.le_refl _)).
    + rewrite (pf_rows (fun _ => RtoC 0) (fun _ _ => RtoC 0) _ _ (Nat.le_refl _)). rewrite zrange_cons by lia. cbn [cprod]. ring.
    + intros i j Hi Hj. pose proof (Hx i Hi) as Si. pose proof (Hx j Hj) as Sj. destruct (spin_orbital V i x Hi Si) as (A1 & A2). destruct (spin_orbital V j x Hj Sj) as (B1 & B2).
      change (orbital (Slater.Model.Nsite (vS V)) (Slater.Model.Ne (vS V)) x) with (orb V x). unfold Slater.Spec.element. change (Slater.Model.Nsite (vS V)) with (sites V). rewrite A1, A2, B1, B2.
      assert (Z0 : forall r r', site (sites V) r -> site (sites V) r' -> Slater.Spec.pair (vQ V) (vsl V) o m r r' = RtoC 0).
      { intros r r' Hr Hr'. unfold Slater.Spec.pair. assert (S0 : sign (vQ V) o m r = 0).
        { unfold sign. destruct HV as (_ & _ & _ & _ & _ & _ & _ & H & _). pose proof (H o r Ho Hr) as T. change (Slater.Model.Nsite (vS V)) with (sites V) in T. rewrite HN in T. rewrite Hn in Hm. unfold site in Hm. replace m with 0 in * by lia.
          rewrite (proj2 (HQ _ _)). assert (C0 : QPOptTrans (vQ V) o r = 0 \/ QPOptTrans (vQ V) o r = 1) by lia. destruct C0 as [-> | ->]; match goal with |- ?a * _ = 0 => change (a * 0 = 0) end; apply Z.mul_0_r. }
        rewrite S0. apply Ceq; cbn; ring. }
      rewrite !Z0 by assumption. ring.
Qed.
(** a site that does not exist is written outside the table *)
Lemma site_refuted : exists N n ws rows, 0 < N /\ 0 < n /\ weights_ok n ws /\ Z.of_nat (length rows) = N * n /\ (exists r, In r rows /\ ~ row_ok n N r) /\ forall m, get_trans_sym false N n ws rows m = None.
Proof.
  exists 2, 1, [(0, RtoC 1)], [Row 0 0 0 None; Row 0 1 2 None]. split; [lia|]. split; [lia|]. split; [|split; [reflexivity|split; [|intros m; reflexivity]]].
  - split; [reflexivity|]. split; [intros w [<-|[]]; cbn; unfold site; lia|]. cbn. constructor; [intros []|constructor].
  - eexists. split; [right; left; reflexivity|]. unfold row_ok, site. cbn. lia.
Qed.
(** one entry twice and another not at all: accepted, the missing entry is what was in memory *)
Lemma repeated_refuted : exists N n ws rows, weights_ok n ws /\ (forall r, In r rows -> row_ok n N r) /\
  forall m, exists m', get_trans_sym false N n ws rows m = Some (0, m') /\ mTrans m' 0 1 = mTrans m 0 1.
Proof.
  exists 2, 1, [(0, RtoC 1)], [Row 0 0 1 None; Row 0 0 1 None]. split; [|split].
  - split; [reflexivity|]. split; [intros w [<-|[]]; cbn; unfold site; lia|]. cbn. constructor; [intros []|constructor].
  - intros r [<-|[<-|[]]]; unfold row_ok, site; cbn; lia.
  - intros m. eexists. split; [reflexivity|]. reflexivity.
Qed.
(** more transformations requested (NMPTrans) than in the file: the weights used depend on memory behind the array *)
Lemma number_refuted : exists S n para para', NMPTrans S > n /\ 0 < n /\ (forall k, site n k -> para k = para' k) /\
  exists k, QPFixWeight (init_qp_weight S 0 (fun _ => 0%R) (fun _ => 0%R) para false (fun _ => RtoC 1)) k <> QPFixWeight (init_qp_weight S 0 (fun _ => 0%R) (fun _ => 0%R) para' false (fun _ => RtoC 1)) k.
Proof.
  exists {| Slater.Model.Nsite := 2; Slater.Model.Ne := 1; NSPGaussLeg := 1; NMPTrans := 2; NQPOptTrans := 1; NSlater := 4 |}, 1, (fun _ => RtoC 1), (fun k => if k =? 0 then RtoC 1 else RtoC 0).
  split; [cbn; lia|]. split; [lia|]. split; [intros k Hk; unfold site in Hk; replace k with 0 by lia; reflexivity|]. exists 1. intros E. change (RtoC 1 = RtoC 0) in E. apply RtoC_inj in E. lra.
Qed.
