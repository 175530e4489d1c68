(** The wave function is differentiable in every parameter, also where it vanishes. *)
From Coq Require Import ZArith List Bool Lia Reals Lra FunctionalExtensionality.
From Coquelicot Require Import Coquelicot.
From Verif Require Import Base.ZLoop Base.Checked Base.RSum Proj.Model Pf.Pfaffian Pf.Spec Slater.Model Slater.Spec Slater.Derive Slater.ProofsProp
  Rbm.Model Rbm.Spec Samp.Model Samp.Spec Green.Model Green.Spec Grd.Model Grd.Spec Grd.ProofsDer Grd.ProofsEnd.
From Verif Require Slater.ProofsDer.
Import ListNotations.
Local Open Scope Z_scope.

Lemma pfaffian_derivable S T beta sl dir x o m s : exists v, cderive (fun t => pfaffian S T beta (fun j => Cplus (sl j) (Cmult (RtoC t) (dir j))) x o m s) v.
Proof.
  unfold pfaffian, pf. set (l := zrange 0 (2 * Slater.Model.Ne S)).
  set (A := fun i j => Slater.Spec.element (Slater.Model.Nsite S) T sl o m (half S beta s) (orbital (Slater.Model.Nsite S) (Slater.Model.Ne S) x i) (orbital (Slater.Model.Nsite S) (Slater.Model.Ne S) x j)).
  set (B := fun i j => Slater.Spec.element (Slater.Model.Nsite S) T dir o m (half S beta s) (orbital (Slater.Model.Nsite S) (Slater.Model.Ne S) x i) (orbital (Slater.Model.Nsite S) (Slater.Model.Ne S) x j)).
  exists (dpfn (length l) A B l). apply (cderive_ext (fun t => pfn (length l) (line A B t) l)); [|apply dpfn_derive].
  intros t. apply pfn_ext. intros i j. unfold line, A, B, Slater.Spec.element, pair. ring.
Qed.
Lemma csum_derivable {A} (l : list A) (F : R -> A -> C) : (forall a, exists v, cderive (fun t => F t a) v) -> exists v, cderive (fun t => csum l (F t)) v.
Proof.
  intros H. induction l as [|a l (v & IH)]; [exists (RtoC 0); cbn [csum]; exact (cderive_const (RtoC 0))|]. destruct (H a) as (u & Hu). exists (Cplus u v). cbn [csum]. now apply (cderive_plus (fun t => F t a) (fun t => csum l (F t))).
Qed.
Lemma amplitude_derivable S T stot beta weight para opt sl dir x : exists v, cderive (fun t => amplitude S T stot beta weight para opt (fun j => Cplus (sl j) (Cmult (RtoC t) (dir j))) x) v.
Proof.
  unfold amplitude. apply csum_derivable. intros o. apply (csum_derivable _ (fun t m => csum _ _)). intros m. apply (csum_derivable _ (fun t s => Cmult _ _)). intros s.
  destruct (pfaffian_derivable S T beta sl dir x o m s) as (v & Hv). eexists. apply Slater.ProofsDer.cderive_scal. exact Hv.
Qed.
Definition direction (odd : bool) (k j : Z) : C := if j =? k then (if odd then Ci else RtoC 1) else RtoC 0.
Lemma shift_line P first n c t : first <= c / 2 < first + n ->
  section (shifted P c t) first n = fun j => Cplus (section P first n j) (Cmult (RtoC t) (direction (negb (c mod 2 =? 0)) (c / 2 - first) j)).
Proof.
  intros H. rewrite section_in by exact H. apply functional_extensionality. intros j. unfold direction. destruct (c mod 2 =? 0); cbn [negb]; unfold shift_re, shift_im; rewrite upd_get.
  all: destruct (Z.eqb_spec j (c / 2 - first)) as [->|]; [|ring]; destruct (section P first n (c / 2 - first)); unfold Ci, Cplus, Cmult, RtoC; cbn [fst snd]; f_equal; ring.
Qed.
Lemma pair_derivable V0 P c x : wf_wave (with_para V0 P) -> NProj (vT V0) + n_rbm (vFlagRBM V0) (vM V0) <= c / 2 < NProj (vT V0) + n_rbm (vFlagRBM V0) (vM V0) + NSlater (vS V0) ->
  exists v, cderive (fun t => psi (with_para V0 (shifted P c t)) x) v.
Proof.
  intros HV Hc. destruct (sizes_ok V0 P HV) as (S1 & S2 & S3).
  destruct (amplitude_derivable (vS V0) (vQ V0) (vstot V0) (vbeta V0) (vweight V0) (vpara V0) (opt_weight (vflag V0) (vopt V0))
    (section P (NProj (vT V0) + n_rbm (vFlagRBM V0) (vM V0)) (NSlater (vS V0))) (direction (negb (c mod 2 =? 0)) (c / 2 - (NProj (vT V0) + n_rbm (vFlagRBM V0) (vM V0)))) x) as (v & Hv).
  set (V := with_para V0 P). set (a := Cmult (RtoC (correlation V (occupation V x))) (boltzmann V (occupation V x))). exists (Cmult a v).
  eapply cderive_ext; [|apply Slater.ProofsDer.cderive_scal; exact Hv].
  intros t. cbv beta. unfold psi, a. change (occupation (with_para V0 (shifted P c t)) x) with (occupation V x). f_equal; [f_equal|].
  - f_equal. unfold correlation, V. cbn [with_para vProj vT]. rewrite section_out by lia. reflexivity.
  - unfold boltzmann, V. cbn [with_para vFlagRBM vM vRBM]. rewrite section_out by lia. reflexivity.
  - unfold pairs. cbn [with_para vS vQ vstot vbeta vweight vpara vflag vopt vsl]. rewrite shift_line by lia. reflexivity.
Qed.
Lemma nodes_exist V0 P c : wf_wave (with_para V0 P) -> 0 <= c < 2 * n_para V0 -> exists d, node_derivatives V0 P c d.
Proof.
  intros HV Hc. destruct (sizes_ok V0 P HV) as (S1 & S2 & S3). destruct (parity c) as (Ep & Hpar). unfold n_para in Hc.
  assert (0 <= c / 2 < NProj (vT V0) + n_rbm (vFlagRBM V0) (vM V0) \/ NProj (vT V0) + n_rbm (vFlagRBM V0) (vM V0) <= c / 2 < NProj (vT V0) + n_rbm (vFlagRBM V0) (vM V0) + NSlater (vS V0)) as [H|H] by lia.
  - exists (fun _ => RtoC 0). now apply flat_auto.
  - set (F := fun l t => psi (with_para V0 (shifted P c t)) (conf l)).
    exists (fun l => (Derive (fun t => fst (F l t)) R0, Derive (fun t => snd (F l t)) R0)). intros l _ _ _. apply cderive_spec.
    destruct (pair_derivable V0 P c (conf l) HV H) as (v & [A B]). split; cbn [fst snd]; apply Derive_correct; eexists; [exact A|exact B].
Qed.
