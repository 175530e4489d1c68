(** What the program evaluates for two walkers that differ by a symmetry. *)
From Coq Require Import ZArith List Bool Lia Reals Lra Permutation.
From Coquelicot Require Import Coquelicot.
From Verif Require Import Base.ZLoop Base.RSum Pf.Spec Proj.Model Proj.Spec Slater.Model Slater.Spec Slater.Derive Rbm.Model Rbm.Spec Samp.Model Samp.Spec Green.Model Green.Spec Green.Core Ham.Model Ham.Spec Ham.ProofsExt Grd.Model Grd.Spec Grd.ProofsSum Grd.ProofsDer
  Sym.Spec Sym.ProofsPf Sym.ProofsOcc Sym.ProofsMean Inv.Spec Inv.Proofs Inv.ProofsHam.
From Verif Require Ham.Proofs.
Import ListNotations.
Local Open Scope Z_scope.

Theorem energies_agree V g H K w rcnt ip S K' w' rcnt' ip' S' : wf_wave V -> symmetry V g -> Cmod (vpara V g) = 1%R -> sites_ok V H -> spins_kept H -> symmetric_files V g H ->
  sampled V K w rcnt ip -> sampled V K' w' rcnt' ip' -> (forall i, In i (labels V) -> Samp.Model.eleIdx w' i = QPTrans (vQ V) g (Samp.Model.eleIdx w i)) -> execution (count H) S -> execution (count H) S' ->
  exists e, calculate_hamiltonian (env_of V K) H ip (Samp.Model.eleCfg w) (Samp.Model.eleNum w) (eleProjCnt w) rcnt S (Samp.Model.eleIdx w) = Some e /\
            calculate_hamiltonian (env_of V K') H ip' (Samp.Model.eleCfg w') (Samp.Model.eleNum w') (eleProjCnt w') rcnt' S' (Samp.Model.eleIdx w') = Some e.
Proof.
  intros HV HS H1 Hok Hsp Hf HA HB Hm E E'. eexists. split; [exact (Ham.Proofs.energy V HV K w rcnt ip HA H Hok Hsp S E)|].
  rewrite (Ham.Proofs.energy V HV K' w' rcnt' ip' HB H Hok Hsp S' E'). f_equal. pose proof (consistent_on_lattice V w HV (sa_tables _ _ _ _ _ HA)) as L.
  pose proof (psi_nz V HV w (sa_tables _ _ _ _ _ HA) K rcnt ip HA) as Hn. rewrite <- (energy_moved V g HV HS H1 (hamiltonian V H) _ (files_invariant V g H HV HS Hok Hf) L Hn).
  unfold local_value. apply csum_ext. intros t _. f_equal. apply (local_same V). exact Hm.
Qed.

(** ** derivatives *)
Lemma log_cderive F d : log_derivative F d -> cderive F (Cmult d (F 0%R)).
Proof. intros [A B]. split; apply is_derive_Reals; assumption. Qed.
Lemma cderive_const c F d : cderive F d -> cderive (fun t => Cmult c (F t)) (Cmult c d).
Proof.
  intros [A B]. split; cbn.
  - apply (is_derive_minus (fun t => fst c * fst (F t))%R (fun t => snd c * snd (F t))%R); apply is_derive_scal; assumption.
  - apply (is_derive_plus (fun t => fst c * snd (F t))%R (fun t => snd c * fst (F t))%R); apply is_derive_scal; assumption.
Qed.
Lemma log_agree F F' d d' a b : a <> RtoC 0 -> F' 0%R <> RtoC 0 -> (forall t, Cmult a (F' t) = Cmult b (F t)) -> log_derivative F d -> log_derivative F' d' -> d' = d.
Proof.
  intros Ha Hn E L L'. pose proof (cderive_const a F' _ (log_cderive _ _ L')) as D'. pose proof (cderive_const b F _ (log_cderive _ _ L)) as D.
  assert (D2 : cderive (fun t => Cmult a (F' t)) (Cmult b (Cmult d (F 0%R)))). { destruct D as (A & B). split; (eapply is_derive_ext; [|eassumption]); intros t; cbv beta; now rewrite (E t). }
  pose proof (cderive_unique _ _ _ D' D2) as U. replace (Cmult b (Cmult d (F 0%R))) with (Cmult d (Cmult b (F 0%R))) in U by ring. rewrite <- E in U.
  assert (Z0 : Cmult (Cmult a (F' 0%R)) (Cminus d' d) = RtoC 0). { replace (Cmult (Cmult a (F' 0%R)) (Cminus d' d)) with (Cminus (Cmult a (Cmult d' (F' 0%R))) (Cmult d (Cmult a (F' 0%R)))) by ring. rewrite U. ring. }
  destruct (Ceq_dec d' d) as [|Dd]; [assumption|]. exfalso. apply (Cmult_neq_0 (Cmult a (F' 0%R)) (Cminus d' d)); [now apply Cmult_neq_0| |exact Z0].
  intros M. apply Dd. replace d' with (Cplus (Cminus d' d) d) by ring. rewrite M. ring.
Qed.
Lemma shifted_0 P c i : shifted P c 0 i = P i.
Proof. unfold shifted, shift_re, shift_im, upd. destruct (c mod 2 =? 0); destruct (Z.eqb_spec i (c / 2)) as [->|]; try reflexivity; apply SR.Proofs.Ceq; cbn; ring. Qed.
Theorem derivatives_agree V P g K w rcnt ip junk O K' w' rcnt' ip' junk' O' : wf_wave (with_para V P) -> (vFlagRBM V = true -> complete (vM V)) -> symmetry V g -> Cmod (vpara V g) = 1%R ->
  sampled (with_para V P) K w rcnt ip -> sampled (with_para V P) K' w' rcnt' ip' -> (forall i, In i (labels V) -> Samp.Model.eleIdx w' i = QPTrans (vQ V) g (Samp.Model.eleIdx w i)) ->
  sr_opt_o (vS V) (vQ V) (NProj (vT V)) (vFlagRBM V) (vM V) (angles_of (with_para V P) (sopt0 K)) (sInvM K) (sPfM K) ip (Samp.Model.eleIdx w) (Samp.Model.eleNum w) (eleProjCnt w) rcnt junk = Some O ->
  sr_opt_o (vS V) (vQ V) (NProj (vT V)) (vFlagRBM V) (vM V) (angles_of (with_para V P) (sopt0 K')) (sInvM K') (sPfM K') ip' (Samp.Model.eleIdx w') (Samp.Model.eleNum w') (eleProjCnt w') rcnt' junk' = Some O' ->
  forall i, 0 <= i < 2 * n_para V + 2 -> O' i = O i.
Proof.
  intros HV Hc HS H1 HA HB Hm EO EO' i Hi.
  destruct (assembled V P HV K w rcnt ip HA junk Hc) as (O1 & E1 & A0 & A1 & A2 & _). destruct (assembled V P HV K' w' rcnt' ip' HB junk' Hc) as (O2 & E2 & B0 & B1 & B2 & _).
  rewrite EO in E1. injection E1 as <-. rewrite EO' in E2. injection E2 as <-.
  assert (C : i = 0 \/ i = 1 \/ 2 <= i) by lia. destruct C as [->|[->|G]]; [congruence|congruence|]. replace i with (i - 2 + 2) by lia.
  pose proof (consistent_on_lattice _ w HV (sa_tables _ _ _ _ _ HA)) as L.
  assert (Hs : forall Q, symmetry (with_para V Q) g) by (intros Q; destruct HS as ((after & [G1 G2 G3 G4 G5 G6 G7 G8 G9]) & HF & HM); split; [exists after; constructor; assumption|split; [exact HF|exact HM]]).
  pose proof (psi_nz _ HV w' (sa_tables _ _ _ _ _ HB) K' rcnt' ip' HB) as Hn.
  apply (log_agree (fun t => psi (Vt V P (i - 2) t) (Samp.Model.eleIdx w)) (fun t => psi (Vt V P (i - 2) t) (Samp.Model.eleIdx w')) _ _ (vpara V g) (collected V g (Samp.Model.eleIdx w))).
  - intros E. rewrite E, Cmod_0 in H1. lra.
  - unfold Vt. replace (shifted P (i - 2) 0) with P; [exact Hn|]. apply FunctionalExtensionality.functional_extensionality. intros j. symmetry. apply shifted_0.
  - intros t. rewrite (psi_ext (Vt V P (i - 2) t) (Samp.Model.eleIdx w') (moved V g (Samp.Model.eleIdx w)) Hm).
    exact (psi_moved_core (Vt V P (i - 2) t) g (Samp.Model.eleIdx w) (wv_valid _ HV) (wv_T _ HV) (wv_sites _ HV) (Hs _) L).
  - apply A2. lia.
  - apply B2. lia.
Qed.
