(** What the program evaluates for two walkers with general spins that differ by a symmetry. *)
From Coq Require Import ZArith List Bool Lia Reals Lra Permutation.
From Coquelicot Require Import Complex.
From Verif Require Import Base.ZLoop Base.RSum Pf.Pfaffian Pf.Spec Proj.Model Proj.Spec Slater.Model Slater.Spec Rbm.Model Samp.Model Samp.Spec Green.Model Green.Spec Green.Core Ham.Model Grd.Model Grd.Spec Grd.ProofsSum
  Fsz.Model Fsz.Spec Fsz.ProofsDer Gfz.Model Gfz.Spec Hfz.Model Hfz.Spec Sym.Spec Sym.ProofsPf Sym.ProofsOcc Inv.Spec Ifz.Spec Ifz.Proofs Ifz.ProofsHam.
From Verif Require Gfz.Proofs Hfz.Proofs Grd.ProofsDer Inv.ProofsRun.
Import ListNotations.
Local Open Scope Z_scope.

(** walker w' is walker w with every electron moved by g *)
Definition displaced (V : fwave) (g : Z) (w w' : walker) : Prop := forall i, In i (flabels V) -> config V w' i = carried (lattice V) g (config V w i).

Lemma foverlap_moved V g G w ip G' w' ip' : wf_fwave V -> fsymmetry V g -> sampled_fsz V G w ip -> sampled_fsz V G' w' ip' -> displaced V g w w' ->
  Cmult (fpara V g) ip' = Cmult (fcollected V g (config V w)) ip.
Proof.
  intros HV HS S1 S2 Hm. rewrite (Gfz.Proofs.ip_is V HV G w ip S1), (Gfz.Proofs.ip_is V HV G' w' ip' S2). unfold fpairs.
  rewrite <- (amplitude_moved V g (wf_valid _ HV) HS (fsl V) (config V w)). f_equal.
  unfold amplitude_fsz. apply csum_ext. intros o _. apply csum_ext. intros m _. f_equal. unfold pfaffian_fsz. apply (pf_ext _ _ _ _ (Nat.le_refl _)). intros i j Hi Hj. rewrite (Hm i Hi), (Hm j Hj). reflexivity.
Qed.
Theorem fenergies_agree V g H G w ip P G' w' ip' P' : wf_fwave V -> fsymmetry V g -> Cmod (fpara V g) = 1%R -> fsites_ok (fsites V) H -> symmetric_files (lattice V) g H ->
  sampled_fsz V G w ip -> sampled_fsz V G' w' ip' -> displaced V g w w' -> fexecution (fcount H) P -> fexecution (fcount H) P' ->
  exists e, calculate_hamiltonian_fsz G H ip (Samp.Model.eleCfg w) (Samp.Model.eleNum w) (eleProjCnt w) P (Samp.Model.eleIdx w) (Samp.Model.eleSpn w) = Some e /\
            calculate_hamiltonian_fsz G' H ip' (Samp.Model.eleCfg w') (Samp.Model.eleNum w') (eleProjCnt w') P' (Samp.Model.eleIdx w') (Samp.Model.eleSpn w') = Some e.
Proof.
  intros HV HS H1 Hok Hf SA SB Hm E E'. eexists. split; [exact (Hfz.Proofs.fenergy V HV G w ip SA H Hok P E)|].
  rewrite (Hfz.Proofs.fenergy V HV G' w' ip' SB H Hok P' E'). f_equal. pose proof (Gfz.Proofs.fpsi_nz V HV G w ip SA) as Hn.
  rewrite <- (fenergy_moved V g (wf_valid _ HV) HS (wf_T _ HV) (wf_sites _ HV) H1 (fhamiltonian (fsites V) H) _ (ffiles_invariant V g H HV HS Hok Hf) Hn).
  unfold fvalue. apply csum_ext. intros t _. f_equal. apply (Hfz.Proofs.flocal_same V). exact Hm.
Qed.
(** counters *)
Lemma fcounters_agree V g G w ip G' w' ip' : wf_fwave V -> fsymmetry V g -> sampled_fsz V G w ip -> sampled_fsz V G' w' ip' -> displaced V g w w' ->
  forall k, 0 <= k < NProj (fT V) -> eleProjCnt w' k = eleProjCnt w k.
Proof.
  intros HV HS SA SB Hm k Hk. rewrite (counter_of _ _ _ (wf_T _ HV) (sf_cnt _ _ _ _ SA) k Hk), (counter_of _ _ _ (wf_T _ HV) (sf_cnt _ _ _ _ SB) k Hk).
  assert (C : forall G w ip, sampled_fsz V G w ip -> counter (fT V) (Samp.Model.eleNum w) k = counter (fT V) (foccupation (flabels V) (config V w)) k).
  { intros G0 w0 ip0 S0. pose proof (Gfz.Proofs.x_occ V HV G0 w0 ip0 S0) as O. apply counter_ext; [exact (wf_T _ HV)| | |exact Hk]; rewrite (wf_sites _ HV).
    - intros c Hc. destruct (O c Hc) as [(E & _)|(E & _)]; rewrite E; tauto.
    - intros c Hc. apply Gfz.Proofs.foccupation_of. now apply O. }
  rewrite (C G w ip SA), (C G' w' ip' SB). rewrite (Hfz.Proofs.foccupation_same V (config V w') (fmoved V g (config V w)) Hm).
  pose proof (fp_perm V g HS) as P. pose proof HS as (_ & HF & _). rewrite <- (wf_sites _ HV) in P. assert (HN : 0 < Proj.Model.Nsite (fT V)) by (rewrite (wf_sites _ HV); exact (proj1 (wf_valid _ HV))).
  apply (counter_moved (fT V) (QPTrans (fQ V) g) _ _ HN (wf_T _ HV) P HF); [|exact Hk]. intros rs. rewrite (wf_sites _ HV). exact (foccupation_moved V g (wf_valid _ HV) HS (config V w) rs).
Qed.
Lemma shift_re_0 sl k : shift_re sl k 0 = sl.
Proof. apply FunctionalExtensionality.functional_extensionality. intros i. unfold shift_re, upd. destruct (Z.eqb_spec i k) as [->|]; [|reflexivity]. apply SR.Proofs.Ceq; cbn; ring. Qed.
Lemma shift_im_0 sl k : shift_im sl k 0 = sl.
Proof. apply FunctionalExtensionality.functional_extensionality. intros i. unfold shift_im, upd. destruct (Z.eqb_spec i k) as [->|]; [|reflexivity]. apply SR.Proofs.Ceq; cbn; ring. Qed.
(** the derivatives of one walker as the routine leaves them *)
Definition fdiff (V : fwave) (G : env) (w : walker) (ip : C) : (Z -> C) -> Z -> C := slater_elm_diff_fsz (fS V) (fQ V) (gA G) (gInvM G) (gPfM G) ip (Samp.Model.eleIdx w) (Samp.Model.eleSpn w).
Lemma fdiff_log V G w ip sr k : wf_fwave V -> sampled_fsz V G w ip -> 0 <= k < NSlater (fS V) ->
  let amp := fun sl => amplitude_fsz (fS V) (fQ V) (fpara V) (opt_weight (fflag V) (fopt V)) sl (config V w) in
  amp (fsl V) <> RtoC 0 /\ log_derivative (fun t => amp (shift_re (fsl V) k t)) (fdiff V G w ip sr (2 * k)) /\ log_derivative (fun t => amp (shift_im (fsl V) k t)) (fdiff V G w ip sr (2 * k + 1)).
Proof.
  intros HV SA Hk amp. assert (Hn : amp (fsl V) <> RtoC 0). { pose proof (Gfz.Proofs.ip_is V HV G w ip SA) as E. pose proof (sf_nz _ _ _ _ SA) as Z0. rewrite E in Z0. exact Z0. }
  split; [exact Hn|]. unfold fdiff. rewrite (sf_ip _ _ _ _ SA). pose proof (sf_mat _ _ _ _ SA) as M. rewrite (ld_Q _ _ (sf_loaded _ _ _ _ SA)) in *.
  destruct (ld_A _ _ (sf_loaded _ _ _ _ SA)) as (stot & beta & weight & opt0 & EA). destruct (ld_S _ _ (sf_loaded _ _ _ _ SA)) as (E0 & ES). rewrite EA. rewrite ES in M.
  exact (derivative_fsz (fS V) (fQ V) stot beta weight (fpara V) opt0 (fopt V) (fflag V) (fsl V) E0 (gInvM G) (gPfM G) (Samp.Model.eleIdx w) (Samp.Model.eleSpn w) sr k (wf_valid _ HV) (Gfz.Proofs.x_placed V G w ip SA) M Hk Hn).
Qed.
Theorem fderivatives_agree V g G w ip O G' w' ip' O' : wf_fwave V -> fsymmetry V g -> Cmod (fpara V g) = 1%R -> sampled_fsz V G w ip -> sampled_fsz V G' w' ip' -> displaced V g w w' ->
  forall i, 0 <= i < 2 * (NProj (fT V) + NSlater (fS V)) + 2 -> sr_opt_o_fsz (NProj (fT V)) (fdiff V G' w' ip') (eleProjCnt w') O' i = sr_opt_o_fsz (NProj (fT V)) (fdiff V G w ip) (eleProjCnt w) O i.
Proof.
  intros HV HS H1 SA SB Hm i Hi. pose proof (wf_T _ HV) as HT. pose proof (wf_ng _ HT). pose proof (wf_nj _ HT). pose proof (wf_n2 _ HT). pose proof (wf_n4 _ HT). assert (Hp : 0 <= NProj (fT V)) by (unfold NProj; lia).
  set (np := NProj (fT V)) in *. destruct (Grd.ProofsDer.opt_proj_cells np (eleProjCnt w) O Hp) as (A0 & A1 & A2 & _). destruct (Grd.ProofsDer.opt_proj_cells np (eleProjCnt w') O' Hp) as (B0 & B1 & B2 & _).
  cbv zeta in A0, A1, A2, B0, B1, B2. unfold sr_opt_o_fsz, at_offset. cbv zeta.
  destruct (Z.ltb_spec i (2 * np + 2)) as [Hl|Hl].
  - assert (D : ~ 0 <= i - (2 * np + 2) < 2 * NSlater (fS V)) by lia. unfold fdiff. rewrite !diff_other_fsz by exact D. replace (2 * np + 2 + (i - (2 * np + 2))) with i by lia.
    assert (Ci : i = 0 \/ i = 1 \/ exists k, 0 <= k < np /\ (i = 2 * k + 2 \/ i = 2 * k + 3)).
    { destruct (Z.eq_dec i 0); [now left|]. destruct (Z.eq_dec i 1); [right; now left|]. right. right. exists (i / 2 - 1). pose proof (Z.div_mod i 2). pose proof (Z.mod_pos_bound i 2). lia. }
    destruct Ci as [->|[->|(k & Hk & [->| ->])]]; [congruence|congruence| |].
    + destruct (A2 k Hk) as (-> & _). destruct (B2 k Hk) as (-> & _). now rewrite (fcounters_agree V g G w ip G' w' ip' HV HS SA SB Hm k Hk).
    + destruct (A2 k Hk) as (_ & ->). destruct (B2 k Hk) as (_ & ->). reflexivity.
  - set (j := i - (2 * np + 2)). assert (Hj : 0 <= j < 2 * NSlater (fS V)) by (unfold j; lia). set (k := j / 2). assert (Hk : 0 <= k < NSlater (fS V)) by (unfold k; split; [apply Z.div_pos; lia|apply Z.div_lt_upper_bound; lia]).
    destruct (fdiff_log V G w ip (fun i => opt_proj np (eleProjCnt w) O (2 * np + 2 + i)) k HV SA Hk) as (_ & L1 & L2).
    destruct (fdiff_log V G' w' ip' (fun i => opt_proj np (eleProjCnt w') O' (2 * np + 2 + i)) k HV SB Hk) as (Hn & M1 & M2).
    assert (Ha : fpara V g <> RtoC 0) by (intros E; rewrite E, Cmod_0 in H1; lra).
    assert (Es : forall sl, Cmult (fpara V g) (amplitude_fsz (fS V) (fQ V) (fpara V) (opt_weight (fflag V) (fopt V)) sl (config V w')) = Cmult (fcollected V g (config V w)) (amplitude_fsz (fS V) (fQ V) (fpara V) (opt_weight (fflag V) (fopt V)) sl (config V w))).
    { intros sl. rewrite <- (amplitude_moved V g (wf_valid _ HV) HS sl (config V w)). f_equal.
      unfold amplitude_fsz. apply csum_ext. intros o _. apply csum_ext. intros m _. f_equal. unfold pfaffian_fsz. apply (pf_ext _ _ _ _ (Nat.le_refl _)). intros i' j' Hi' Hj'. rewrite (Hm i' Hi'), (Hm j' Hj'). reflexivity. }
    assert (Cj : j = 2 * k \/ j = 2 * k + 1) by (unfold k; pose proof (Z.div_mod j 2); pose proof (Z.mod_pos_bound j 2); lia). destruct Cj as [Ej|Ej]; rewrite Ej.
    + refine (Inv.ProofsRun.log_agree _ _ _ _ (fpara V g) (fcollected V g (config V w)) Ha _ _ L1 M1); [cbv beta; rewrite shift_re_0; exact Hn|intros t; apply Es].
    + refine (Inv.ProofsRun.log_agree _ _ _ _ (fpara V g) (fcollected V g (config V w)) Ha _ _ L2 M2); [cbv beta; rewrite shift_im_0; exact Hn|intros t; apply Es].
Qed.
