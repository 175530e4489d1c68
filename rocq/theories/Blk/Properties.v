(** C71: block updates. *)
From Coq Require Import ZArith List Bool Lia Reals.
From Coquelicot Require Import Complex.
From Verif Require Import Base.ZLoop Base.RSum Pf.Pfaffian Pf.Spec Ltl.Model Ltl.Spec Ltl.Cases Blk.Model Blk.Spec Blk.Arr Blk.Ratio Blk.State Blk.Proofs Blk.ProofsMerge Blk.ProofsRun Blk.Reference Blk.ProofsSampler Blk.Cases.
Import ListNotations.
Local Open Scope Z_scope.

(** One updater through a whole run: initialised with a configuration of any number of electrons, then any sequence of hops and pairs of
    hops, each kept or undone.  Each trial delivers the negative Pfaffian of the configuration that is tried; after a final merge the
    configuration, the Pfaffian and the stored inverse are those of what was kept.  Any block size (at least 2 if there are pairs), any
    contents of fresh memory, any panel width. *)
Theorem C71_updates norbs n mmax X junk sktrf skpfa trtri npanel M0 cfg l :
  skew_array norbs X -> 0 < n -> Z.Even n -> 1 <= mmax < 2 ^ 64 -> factorises_upper sktrf -> pfaffian_of_upper skpfa -> inverts trtri ->
  (forall i, 0 <= i < n -> 0 <= cfg i < norbs) -> pf (amplitudes norbs X cfg) (zrange 0 n) <> RtoC 0 ->
  Forall (fun t => legal norbs n mmax (fst t)) l -> kept_regular (fun c => pf (amplitudes norbs X c) (zrange 0 n) <> RtoC 0) cfg l ->
  exists s0 s s', initialize norbs n X junk sktrf trtri npanel M0 cfg = Some s0 /\ get_pfa s0 = pf (amplitudes norbs X cfg) (zrange 0 n) /\
    trials norbs n mmax X junk sktrf skpfa trtri npanel l s0 = Some (map (fun c => Copp (pf (amplitudes norbs X c) (zrange 0 n))) (tried cfg l), s) /\
    merge_updates n mmax junk sktrf trtri npanel s = Some s' /\ (forall i, 0 <= i < n -> tCfg s' i = final cfg l i) /\ tK s' = 0 /\
    get_pfa s' = pf (amplitudes norbs X (final cfg l)) (zrange 0 n) /\ is_inverse n (full (tM s') n) (amplitudes norbs X (final cfg l)).
Proof. exact (fun HX Hn He Hm Ht Hp Hi => run_ok norbs n mmax X junk sktrf skpfa trtri npanel HX Hn He Hm Ht Hp Hi M0 cfg l). Qed.
Print Assumptions C71_updates.

(** The same in terms of the sampler: hops of one electron and exchanges of two on its list of electrons, and the matrix of pair
    amplitudes that C22 and C70 speak of.  All values carry one sign, which depends on the number of electrons alone. *)
Theorem C71_sampling Nsite Ne mmax Sl qp junk sktrf skpfa trtri npanel M0 e l :
  skew_table Nsite Sl qp -> 0 < Ne -> 1 <= mmax < 2 ^ 64 -> factorises_upper sktrf -> pfaffian_of_upper skpfa -> inverts trtri ->
  on_lattice Nsite (2 * Ne) e -> Forall (fun m => possible Nsite Ne mmax (fst m)) l ->
  stays_regular Ne (fun e => pf (pair_matrix Nsite Ne Sl qp e) (zrange 0 (2 * Ne)) <> RtoC 0) e l ->
  exists s0 s, initialize (2 * Nsite) (2 * Ne) (orbital_matrix Nsite Sl qp) junk sktrf trtri npanel M0 (elements Nsite e (universal_spins Ne)) = Some s0 /\
    Copp (get_pfa s0) = turned Ne (pf (pair_matrix Nsite Ne Sl qp e) (zrange 0 (2 * Ne))) /\
    trials (2 * Nsite) (2 * Ne) mmax (orbital_matrix Nsite Sl qp) junk sktrf skpfa trtri npanel (map (fun m => (trial_of Nsite Ne (fst m), snd m)) l) s0 =
      Some (map (fun e => turned Ne (pf (pair_matrix Nsite Ne Sl qp e) (zrange 0 (2 * Ne)))) (visited Ne e l), s).
Proof. exact (fun HS HN => sampling_ok Nsite Ne mmax Sl qp HS HN junk sktrf skpfa trtri npanel M0 e l). Qed.
Print Assumptions C71_sampling.

(** An updater cannot be initialised exactly when the Pfaffian of the configuration is zero. *)
Theorem C71_singular norbs n X junk sktrf trtri npanel M0 cfg : skew_array norbs X -> 0 < n -> Z.Even n -> factorises_upper sktrf -> inverts trtri ->
  (forall i, 0 <= i < n -> 0 <= cfg i < norbs) ->
  (initialize norbs n X junk sktrf trtri npanel M0 cfg = None <-> pf (amplitudes norbs X cfg) (zrange 0 n) = RtoC 0).
Proof. exact (fun HX Hn He Ht Hi Hc => initialize_iff norbs n X junk sktrf trtri npanel M0 cfg HX Hn He Ht Hi Hc). Qed.
Print Assumptions C71_singular.

(** With one process for all projections the ratio of the projected amplitudes, from which the move is accepted or rejected, is exact. *)
Theorem C71_ratio Ne N w P P' : csum (zrange 0 N) (fun q => Cmult (w q) (P q)) <> RtoC 0 ->
  Cdiv (group_ip w [(0, N)] (fun q => turned Ne (P' q))) (group_ip w [(0, N)] (fun q => turned Ne (P q))) =
  Cdiv (csum (zrange 0 N) (fun q => Cmult (w q) (P' q))) (csum (zrange 0 N) (fun q => Cmult (w q) (P q))).
Proof. exact (weight_ratio Ne N w P P'). Qed.
Print Assumptions C71_ratio.

(** The sign put in because the table is "interpreted as row-major" (pf_interface.cc:83-85) does not give the Pfaffian: with two electrons of each spin the
    delivered number is its negative. *)
Theorem C71_sign_refuted : ~ forall Nsite Ne Sl qp junk sktrf trtri npanel M0 e s0, skew_table Nsite Sl qp -> 0 < Ne -> factorises_upper sktrf -> inverts trtri -> on_lattice Nsite (2 * Ne) e ->
  initialize (2 * Nsite) (2 * Ne) (orbital_matrix Nsite Sl qp) junk sktrf trtri npanel M0 (elements Nsite e (universal_spins Ne)) = Some s0 ->
  Copp (get_pfa s0) = pf (pair_matrix Nsite Ne Sl qp e) (zrange 0 (2 * Ne)).
Proof. exact sign_refuted. Qed.
Print Assumptions C71_sign_refuted.

(** If the projections are split over two processes, each of them multiplies its weights with the first Pfaffians: the sum is not that over
    the projections, and the ratio of two configurations is wrong too. *)
Theorem C71_split_refuted : ~ forall (w P P' : Z -> C), csum (zrange 0 2) (fun q => Cmult (w q) (P q)) <> RtoC 0 -> group_ip w [(0, 1); (1, 2)] P <> RtoC 0 ->
  Cdiv (group_ip w [(0, 1); (1, 2)] P') (group_ip w [(0, 1); (1, 2)] P) = Cdiv (csum (zrange 0 2) (fun q => Cmult (w q) (P' q))) (csum (zrange 0 2) (fun q => Cmult (w q) (P q))).
Proof. exact split_refuted. Qed.
Print Assumptions C71_split_refuted.

(** VMC_BLOCK_UPDATE_SIZE=1 is accepted, and then every exchange of two electrons writes beyond the updater's arrays. *)
Theorem C71_block1_refuted NExUpdatePath norbs n X junk sktrf skpfa trtri npanel osi msj osk msl c s : 0 <= tK s ->
  block_size 1 NExUpdatePath = 1 /\ push_pair norbs n (block_size 1 NExUpdatePath) X junk sktrf skpfa trtri npanel osi msj osk msl c s = None.
Proof. exact (fun H => conj eq_refl (block1_fails norbs n X junk sktrf skpfa trtri npanel osi msj osk msl c s H)). Qed.
Print Assumptions C71_block1_refuted.

(** Cases: external routines that meet the contracts for all sizes, and a run with two electrons of each spin on three sites, block size 2,
    where updates are merged both because the block is full and because an electron moves again. *)
Example C71_case_contracts : factorises_upper ref_sktrf /\ pfaffian_of_upper ref_skpfa /\ inverts ref_trtri.
Proof. exact (conj ref_factorises (conj ref_pfaffian ref_inverts)). Qed.
Example C71_case_run junk M0 : skew_table 3 Sl6 0 /\ on_lattice 3 (2 * 2) start4 /\ Forall (fun m => possible 3 2 2 (fst m)) moves4 /\
  stays_regular 2 (fun e => pf (pair_matrix 3 2 Sl6 0 e) (zrange 0 (2 * 2)) <> RtoC 0) start4 moves4 /\
  exists s0 s, initialize (2 * 3) (2 * 2) (orbital_matrix 3 Sl6 0) junk ref_sktrf ref_trtri 64 M0 (elements 3 start4 (universal_spins 2)) = Some s0 /\
    trials (2 * 3) (2 * 2) 2 (orbital_matrix 3 Sl6 0) junk ref_sktrf ref_skpfa ref_trtri 64 (map (fun m => (trial_of 3 2 (fst m), snd m)) moves4) s0 =
      Some (map (fun z => RtoC (IZR z)) [-144; -540; -720; -540], s).
Proof. exact (conj (Sl6_skew 0) (conj lattice4 (conj possible4 (conj regular4 (case4 junk M0))))). Qed.
