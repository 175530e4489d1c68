(** The sampler's use of the updaters, and what is wrong with it. *)
From Coq Require Import ZArith List Bool Lia Reals.
From Coquelicot Require Import Complex.
From Verif Require Import Base.ZLoop Base.Checked Base.RSum Pf.Pfaffian Pf.Spec Pf.Proofs Ltl.Model Ltl.Spec Ltl.Arr Ltl.Cases Blk.Model Blk.Spec Blk.Alg Blk.Arr Blk.State Blk.Ratio Blk.Proofs Blk.ProofsMerge Blk.ProofsRun Blk.Reference.
Import ListNotations.
Local Open Scope Z_scope.

Lemma pf_negated A : forall m l, length l = (2 * m)%nat -> pf (fun i j => Copp (A i j)) l = if Nat.even m then pf A l else Copp (pf A l).
Proof.
  induction m as [|m IH]; intros l Hl.
  - destruct l; [reflexivity|discriminate].
  - destruct l as [|x l]; [discriminate|]. rewrite !pf_cons. cbn [length] in Hl.
    rewrite (psum_ext l _ (fun z r => if Nat.even m then Copp (Cmult (A x z) (pf A r)) else Cmult (A x z) (pf A r))).
    + rewrite Nat.even_succ, <- Nat.negb_even. destruct (Nat.even m); cbn [negb]; [apply psum_opp|reflexivity].
    + intros z r _ _ Hr. rewrite IH by lia. destruct (Nat.even m); ring.
Qed.
Lemma pf_pairs Ne A B : 0 < Ne -> (forall i j, 0 <= i < 2 * Ne -> 0 <= j < 2 * Ne -> A i j = Copp (B i j)) -> Copp (pf A (zrange 0 (2 * Ne))) = turned Ne (pf B (zrange 0 (2 * Ne))).
Proof.
  intros HNe H. rewrite (pf_ext A (fun i j => Copp (B i j)) (length (zrange 0 (2 * Ne)))); [|lia|intros i j Hi Hj; apply zrange_in in Hi; apply zrange_in in Hj; now apply H].
  rewrite (pf_negated B (Z.to_nat Ne)) by (rewrite zrange_length; lia). unfold turned. replace (Nat.even (Z.to_nat Ne)) with (Z.even Ne); [destruct (Z.even Ne); ring|].
  rewrite <- (Z2Nat.id Ne) at 1 by lia. generalize (Z.to_nat Ne). clear. intros k. induction k as [|k IH]; [reflexivity|]. rewrite Nat2Z.inj_succ, Z.even_succ, <- Z.negb_even, IH, Nat.even_succ, <- Nat.negb_even. reflexivity.
Qed.

Section Sampler.
Variables (Nsite Ne mmax : Z) (Sl : Z -> C) (qp : Z).
Hypothesis HSl : skew_table Nsite Sl qp.
Hypothesis HNe : 0 < Ne.
Local Notation X := (orbital_matrix Nsite Sl qp).
Local Notation els e := (elements Nsite e (universal_spins Ne)).
Local Notation amp := (amplitudes (2 * Nsite) X).
Local Notation pm := (pair_matrix Nsite Ne Sl qp).
Local Notation val e := (pf (pm e) (zrange 0 (2 * Ne))).
Local Notation value c := (pf (amp c) (zrange 0 (2 * Ne))).

Lemma X_at a b : at_ X (2 * Nsite) a b = Sl (qp * (2 * Nsite) * (2 * Nsite) + b * (2 * Nsite) + a).
Proof. unfold at_, orbital_matrix. f_equal. ring. Qed.
Lemma X_skew : skew_array (2 * Nsite) X.
Proof. intros a b Ha Hb. rewrite !X_at. now apply HSl. Qed.
Lemma spin_of k : 0 <= k < 2 * Ne -> universal_spins Ne k = k / Ne.
Proof. intros Hk. unfold universal_spins. destruct (Z.ltb_spec k Ne); [symmetry; apply Z.div_small; lia|]. apply Z.div_unique with (k - Ne); lia. Qed.
Lemma els_range e : on_lattice Nsite (2 * Ne) e -> forall i, 0 <= i < 2 * Ne -> 0 <= els e i < 2 * Nsite.
Proof. intros He i Hi. specialize (He i Hi). unfold elements, universal_spins. destruct (Z.ltb_spec i Ne); lia. Qed.
Lemma value_is c e : on_lattice Nsite (2 * Ne) e -> (forall i, 0 <= i < 2 * Ne -> c i = els e i) -> Copp (value c) = turned Ne (val e).
Proof.
  intros He H. apply pf_pairs; [exact HNe|]. intros i j Hi Hj. unfold amplitudes. rewrite !H by assumption. rewrite X_at. unfold pair_matrix.
  assert (EO : forall k, 0 <= k < 2 * Ne -> orbital Nsite Ne e k = els e k) by (intros k Hk; unfold orbital, elements; now rewrite spin_of). rewrite !EO by assumption. apply HSl; now apply els_range.
Qed.
Lemma turned_zero z : turned Ne z = RtoC 0 <-> z = RtoC 0.
Proof. unfold turned. destruct (Z.even Ne); [|tauto]. split; intros E; [replace z with (Copp (Copp z)) by ring; rewrite E; ring|rewrite E; ring]. Qed.
Lemma value_nonzero c e : on_lattice Nsite (2 * Ne) e -> (forall i, 0 <= i < 2 * Ne -> c i = els e i) -> val e <> RtoC 0 -> value c <> RtoC 0.
Proof. intros He H V E. apply V. apply turned_zero. rewrite <- (value_is c e He H), E. ring. Qed.

Lemma moved_lattice e mv : on_lattice Nsite (2 * Ne) e -> possible Nsite Ne mmax mv -> on_lattice Nsite (2 * Ne) (moved Ne e mv).
Proof.
  intros He Hp k Hk. destruct mv; cbn [moved possible] in *.
  - destruct (Z.eq_dec k (mi + s * Ne)) as [->|N]; [rewrite upd_same; tauto|]. rewrite upd_other by assumption. now apply He.
  - destruct (Z.eq_dec k (mj + (1 - s) * Ne)) as [->|N]; [rewrite upd_same; tauto|]. rewrite upd_other by assumption. destruct (Z.eq_dec k (mi + s * Ne)) as [->|N']; [rewrite upd_same; tauto|]. rewrite upd_other by assumption. now apply He.
Qed.
Lemma spin_index mi s : electron Ne mi s -> 0 <= mi + s * Ne < 2 * Ne /\ universal_spins Ne (mi + s * Ne) = s.
Proof. intros (Hm & Hs). unfold universal_spins. destruct Hs as [-> | ->]; destruct (Z.ltb_spec (mi + 0 * Ne) Ne), (Z.ltb_spec (mi + 1 * Ne) Ne); lia. Qed.
Lemma other_spin s : s = 0 \/ s = 1 -> 1 - s = 0 \/ 1 - s = 1. Proof. lia. Qed.
Lemma els_upd c e k x : (forall i, 0 <= i < 2 * Ne -> c i = els e i) -> forall i, 0 <= i < 2 * Ne -> upd c k (x + universal_spins Ne k * Nsite) i = els (upd e k x) i.
Proof. intros H i Hi. unfold elements. destruct (Z.eq_dec i k) as [->|N]; [now rewrite !upd_same|]. rewrite !upd_other by assumption. now apply H. Qed.
Lemma moved_is c e mv : possible Nsite Ne mmax mv -> (forall i, 0 <= i < 2 * Ne -> c i = els e i) -> forall i, 0 <= i < 2 * Ne -> proposed c (trial_of Nsite Ne mv) i = els (moved Ne e mv) i.
Proof.
  intros Hp H. destruct mv; cbn [moved possible proposed trial_of] in *.
  - destruct (spin_index mi s (proj1 Hp)) as (_ & E). pose proof (els_upd c e (mi + s * Ne) rj H) as G. rewrite E in G. exact G.
  - destruct Hp as (_ & (Hm & Hs) & Hj & _). destruct (spin_index mi s (conj Hm Hs)) as (_ & E). destruct (spin_index mj (1 - s) (conj Hj (other_spin s Hs))) as (_ & E'). pose proof (els_upd c e (mi + s * Ne) rj H) as G. rewrite E in G. pose proof (els_upd _ _ (mj + (1 - s) * Ne) ri G) as G'. rewrite E' in G'. exact G'.
Qed.
Lemma legal_is mv : possible Nsite Ne mmax mv -> legal (2 * Nsite) (2 * Ne) mmax (trial_of Nsite Ne mv).
Proof.
  intros Hp. destruct mv; cbn [possible trial_of legal] in *.
  - destruct Hp as (He & Hr). destruct (spin_index mi s He) as (R & _). destruct He as (_ & [-> | ->]); lia.
  - destruct Hp as (H2 & He & Hj & Hri & Hrj). destruct (spin_index mi s He) as (R & _). destruct He as (Hm & Hs). destruct (spin_index mj (1 - s) (conj Hj (other_spin s Hs))) as (R' & _). destruct Hs as [-> | ->]; lia.
Qed.
Definition asked (l : list (smove * bool)) : list (trial * bool) := map (fun m => (trial_of Nsite Ne (fst m), snd m)) l.
Lemma visited_is l : forall c e, on_lattice Nsite (2 * Ne) e -> (forall i, 0 <= i < 2 * Ne -> c i = els e i) -> Forall (fun m => possible Nsite Ne mmax (fst m)) l ->
  map (fun c => Copp (value c)) (tried c (asked l)) = map (fun e => turned Ne (val e)) (visited Ne e l).
Proof.
  induction l as [|(mv, a) l IH]; intros c e He H HL; [reflexivity|]. apply Forall_cons_iff in HL. destruct HL as (HL & HLs). cbn [fst] in HL.
  cbn [asked map tried visited fst snd]. f_equal.
  - apply value_is; [now apply moved_lattice|now apply moved_is].
  - apply IH; [destruct a; [now apply moved_lattice|exact He]| |exact HLs]. intros i Hi. unfold kept. cbn [fst snd]. destruct a; [now apply moved_is|now apply H].
Qed.
Lemma regular_is l : forall c e, on_lattice Nsite (2 * Ne) e -> (forall i, 0 <= i < 2 * Ne -> c i = els e i) -> Forall (fun m => possible Nsite Ne mmax (fst m)) l ->
  stays_regular Ne (fun e => val e <> RtoC 0) e l -> kept_regular (fun c => value c <> RtoC 0) c (asked l).
Proof.
  induction l as [|(mv, a) l IH]; intros c e He H HL HR; [exact I|]. apply Forall_cons_iff in HL. destruct HL as (HL & HLs). cbn [fst] in HL. destruct HR as (_ & HR).
  cbn [asked map kept_regular].
  assert (G : forall i, 0 <= i < 2 * Ne -> kept c (trial_of Nsite Ne mv, a) i = els (if a then moved Ne e mv else e) i) by (intros i Hi; unfold kept; cbn [fst snd]; destruct a; [now apply moved_is|now apply H]).
  assert (L : on_lattice Nsite (2 * Ne) (if a then moved Ne e mv else e)) by (destruct a; [now apply moved_lattice|exact He]).
  split; [|now apply (IH _ (if a then moved Ne e mv else e))]. apply (value_nonzero _ _ L G). destruct l as [|(mv', a') l]; [exact HR|exact (proj1 HR)].
Qed.
Lemma regular_start l e : stays_regular Ne (fun e => val e <> RtoC 0) e l -> val e <> RtoC 0. Proof. destruct l as [|(mv, a) l]; [exact (fun H => H)|exact (fun H => proj1 H)]. Qed.

Theorem sampling_ok junk sktrf skpfa trtri npanel M0 e l : 1 <= mmax < 2 ^ 64 -> factorises_upper sktrf -> pfaffian_of_upper skpfa -> inverts trtri ->
  on_lattice Nsite (2 * Ne) e -> Forall (fun m => possible Nsite Ne mmax (fst m)) l -> stays_regular Ne (fun e => val e <> RtoC 0) e l ->
  exists s0 s, initialize (2 * Nsite) (2 * Ne) X junk sktrf trtri npanel M0 (els e) = Some s0 /\ Copp (get_pfa s0) = turned Ne (val e) /\
    trials (2 * Nsite) (2 * Ne) mmax X junk sktrf skpfa trtri npanel (asked l) s0 = Some (map (fun e => turned Ne (val e)) (visited Ne e l), s).
Proof.
  intros Hm Htrf Hpfa Htri He HL HR.
  destruct (run_ok (2 * Nsite) (2 * Ne) mmax X junk sktrf skpfa trtri npanel X_skew ltac:(lia) ltac:(now exists Ne) Hm Htrf Hpfa Htri M0 (els e) (asked l)) as (s0 & s & s' & E0 & P0 & E & _).
  - now apply els_range.
  - apply (value_nonzero _ e He); [reflexivity|]. now apply regular_start with l.
  - apply Forall_map. revert HL. apply Forall_impl. intros (mv, a) Hp. now apply legal_is.
  - now apply (regular_is l _ e).
  - exists s0, s. split; [exact E0|]. split; [rewrite P0; now apply value_is|]. rewrite E. now rewrite (visited_is l (els e) e).
Qed.
End Sampler.

(** ** a block size of 1 *)
Lemma push_count norbs n mmax X skpfa osi msj c s s' : push_update norbs n mmax X skpfa osi msj c s = Some s' -> tK s < mmax /\ tK s' = tK s + 1.
Proof.
  unfold push_update. destruct (Z.leb_spec mmax (tK s)) as [L|L]; [discriminate|]. cbv zeta. set (w := loop 0 (tK s) _ _). destruct w as [[U Q] V]. intros E. injection E as <-. split; [exact L|].
  destruct c; [|reflexivity]. set (s1 := Tdi _ _ _ _ _ _ _ _ _ _ _ _ _ _ _). destruct (tK s + 1 =? 1); [cbn [with_ratio tK]; unfold require_q; destruct (Z.leb _ _); reflexivity|]. unfold central_pfaffian. destruct (skpfa _ _ _). cbn [tK]. cbn [assemble require_umu tK]. unfold require_q; destruct (Z.leb _ _); reflexivity.
Qed.
Lemma merge_count n mmax junk sktrf trtri npanel s s' : merge_updates n mmax junk sktrf trtri npanel s = Some s' -> tK s' = 0.
Proof.
  unfold merge_updates. cbv zeta. destruct (Z.eqb_spec (tK s) 0) as [E|N]; [intros F; injection F as <-; exact E|].
  match goal with |- bind ?x _ = _ -> _ => destruct x as [(Cm, s2)|] end; [|discriminate]. cbn [bind]. intros F. injection F as <-. reflexivity.
Qed.
Theorem block1_fails norbs n X junk sktrf skpfa trtri npanel osi msj osk msl c s : 0 <= tK s -> push_pair norbs n 1 X junk sktrf skpfa trtri npanel osi msj osk msl c s = None.
Proof.
  intros HK. unfold push_pair.
  assert (G : forall s, 0 <= tK s -> bind (push_update norbs n 1 X skpfa osi msj false s) (fun s => push_update norbs n 1 X skpfa osk msl c s) = None).
  { intros s0 H0. destruct (push_update norbs n 1 X skpfa osi msj false s0) as [s1|] eqn:E1; [|reflexivity]. cbn [bind]. apply push_count in E1. destruct (push_update norbs n 1 X skpfa osk msl c s1) as [s2|] eqn:E2; [|reflexivity]. apply push_count in E2. lia. }
  match goal with |- bind ?x _ = _ => destruct x as [s1|] eqn:E end; [|reflexivity]. cbn [bind]. apply G.
  destruct (Z.ltb _ _); [apply merge_count in E; lia|]. destruct (_ || _); [apply merge_count in E; lia|]. injection E as <-. exact HK.
Qed.

(** ** the weighted sum over the projections *)
Lemma weight_ok Ne N w (P : Z -> C) : group_ip w [(0, N)] (fun q => turned Ne (P q)) = turned Ne (csum (zrange 0 N) (fun q => Cmult (w q) (P q))).
Proof.
  unfold group_ip. cbn [csum fst snd]. rewrite Z.sub_0_r, Cplus_0_r. unfold turned. destruct (Z.even Ne).
  - replace (Copp (csum (zrange 0 N) (fun q => Cmult (w q) (P q)))) with (Cmult (RtoC (-1)) (csum (zrange 0 N) (fun q => Cmult (w q) (P q)))) by (apply (f_equal2 (@pair R R)); cbn; ring).
    rewrite <- csum_scal. apply csum_ext. intros q _. rewrite Z.add_0_r. apply (f_equal2 (@pair R R)); cbn; ring.
  - apply csum_ext. intros q _. now rewrite Z.add_0_r.
Qed.
Lemma weight_ratio Ne N w (P P' : Z -> C) : csum (zrange 0 N) (fun q => Cmult (w q) (P q)) <> RtoC 0 ->
  Cdiv (group_ip w [(0, N)] (fun q => turned Ne (P' q))) (group_ip w [(0, N)] (fun q => turned Ne (P q))) =
  Cdiv (csum (zrange 0 N) (fun q => Cmult (w q) (P' q))) (csum (zrange 0 N) (fun q => Cmult (w q) (P q))).
Proof.
  intros H. rewrite !weight_ok. unfold turned. destruct (Z.even Ne); [|reflexivity]. field. split; [exact H|]. intros E. apply H. replace (csum (zrange 0 N) (fun q => Cmult (w q) (P q))) with (Copp (Copp (csum (zrange 0 N) (fun q => Cmult (w q) (P q))))) by ring. rewrite E. ring.
Qed.
