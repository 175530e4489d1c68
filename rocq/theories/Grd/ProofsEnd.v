(** Zeros of the wave function, the solved step, and the vector of the program for electrons without fixed spin. *)
From Coq Require Import ZArith List Bool Lia Reals Lra FunctionalExtensionality.
From Coquelicot Require Import Coquelicot.
From Verif Require Import Base.ZLoop Base.Checked Base.RSum Proj.Model Proj.Spec Slater.Model Slater.Spec Slater.Derive Slater.ProofsProp
  Rbm.Model Rbm.Spec Rbm.Proofs Samp.Model Samp.Spec Green.Model Green.Spec Ham.Model Ham.Spec SR.Model SR.Spec SR.Proofs
  Grd.Model Grd.Spec Grd.ProofsDer Grd.ProofsSum Grd.ProofsHerm Grd.ProofsGrad.
From Verif Require Uhf.Spec SR.ProofsEnd.
Import ListNotations.
Local Open Scope Z_scope.

Lemma occupation_01 V x : occ01 (sites V) (occupation V x).
Proof. intros rs _. unfold occupation. destruct (existsb _ _); auto. Qed.
Lemma cmult_zero_r a b : a <> RtoC 0 -> Cmult a b = RtoC 0 -> b = RtoC 0.
Proof. intros Ha E. replace b with (Cmult (Cinv a) (Cmult a b)) by (field; exact Ha). rewrite E. ring. Qed.
Lemma cmult_zero_l a b : b <> RtoC 0 -> Cmult a b = RtoC 0 -> a = RtoC 0.
Proof. intros Hb E. rewrite Cmult_comm in E. now apply cmult_zero_r in E. Qed.
(** correlation factors and the machine do not move zeros *)
Lemma flat_auto V0 P c : wf_wave (with_para V0 P) -> 0 <= c / 2 < NProj (vT V0) + n_rbm (vFlagRBM V0) (vM V0) -> flat_nodes V0 P c.
Proof.
  intros HV Hc u Hu _ E. apply cderive_spec. apply (cderive_ext (fun _ => RtoC 0)); [|apply cderive_const].
  intros t. symmetry. unfold psi in *. set (o := occupation (with_para V0 P) (conf u)) in *.
  change (occupation (with_para V0 (shifted P c t)) (conf u)) with o.
  apply cmult_zero_r in E.
  - replace (pairs (with_para V0 (shifted P c t)) (conf u)) with (RtoC 0); [ring|].
    rewrite <- E. unfold pairs. cbn [with_para vS vQ vstot vbeta vweight vpara vflag vopt vsl]. rewrite section_out by lia. reflexivity.
  - apply Cmult_neq_0.
    + intros Z. apply RtoC_inj in Z. unfold correlation in Z. match type of Z with exp ?a = _ => pose proof (exp_pos a) end. lra.
    + unfold boltzmann. destruct (vFlagRBM (with_para V0 P)) eqn:F; [|intros Z; apply RtoC_inj in Z; lra].
      apply (wv_rbm _ HV F). apply occupation_01.
Qed.
Lemma missed_0 V O f : missed V O f (fun _ => RtoC 0) = 0%R.
Proof.
  unfold missed. rewrite csum_zero; [apply Rmult_0_l|]. intros l _. destruct (Ceq_dec _ _); ring.
Qed.

(** ** the assembled and solved step *)
Lemma covMat_is l idx del i j : covMat l idx del i j = (covO l (idx i) (idx j) * (if i =? j then 1 + del else 1))%R.
Proof. reflexivity. Qed.
Section Step.
Variables (V0 : wave) (P : Z -> C).
Notation V := (with_para V0 P).
Hypothesis HV : wf_wave V.
Hypothesis Hcomp : vFlagRBM V0 = true -> complete (vM V0).
Variable H : terms.
Hypothesis Hok : sites_ok V0 H.
Hypothesis Hsp : spins_kept H.
Hypothesis Hh : Uhf.Spec.files_hermitian (sites V0) H.
Lemma flat_gradient l xs c : unbiased V l xs -> (forall s u, In (s, u) (combine (counted l) xs) -> evaluated V H s (conf u)) -> 0 <= c < 2 * n_para V0 -> flat_nodes V0 P c ->
  derivable_pt_lim (fun t => energy V0 (hamiltonian V0 H) (psi (with_para V0 (shifted P c t)))) 0 (2 * force l c)%R.
Proof.
  intros Hun Hev Hc Hf. pose proof (force_gradient V0 P HV Hcomp H Hok Hsp Hh l xs Hun Hev c Hc _ Hf) as D.
  rewrite missed_0, Rmult_0_r, Rplus_0_r in D. exact D.
Qed.
Lemma downhill groups gsize N smp st me xs nn idx del dt S0 g0 y g :
  let l := all_samples groups N smp in
  let ps := procs groups gsize in
  let A := fun p => main_cal (n_para V0 + 1) false false N (gsize (fst p)) (snd p) (smp (fst p)) (st p) in
  let M := stcOptInit (n_para V0 + 1) del dt nn idx (average_vec ps (total_weight l) (fun p => OO (A p)) me) (average_vec ps (total_weight l) (fun p => HO (A p)) me) S0 g0 in
  0 <= N -> (forall k, 0 <= k < groups -> 1 <= gsize k) -> In me ps -> 0 <= nn -> (0 <= del)%R -> (0 < dt)%R ->
  unbiased V l xs -> (forall s u, In (s, u) (combine (counted l) xs) -> evaluated V H s (conf u)) -> (forall s, In s (counted l) -> 0 <= wgt s)%R ->
  (forall i, 0 <= i < nn -> 0 <= idx i < 2 * n_para V0 /\ flat_nodes V0 P (idx i)) ->
  (forall i, 0 <= i < nn -> rsum (zrange 0 nn) (fun j => fst M (i + nn * j)%Z * y j)%R = snd M i) ->
  (forall i, 0 <= i < nn -> derivable_pt_lim (fun t => energy V0 (hamiltonian V0 H) (psi (with_para V0 (shifted P (idx i) t)))) 0 (g i)) ->
  (rsum (zrange 0 nn) (fun i => y i * g i) <= 0)%R /\
  ((0 < del)%R -> (forall i, 0 <= i < nn -> (0 < fst M (i + nn * i)%Z)%R) -> (exists i, 0 <= i < nn /\ g i <> 0%R) -> (rsum (zrange 0 nn) (fun i => y i * g i) < 0)%R).
Proof.
  intros l ps A M HN Hg Hme Hnn Hdel Hdt Hun Hev Hw Hidx Hsol Hgr.
  pose proof Hun as (_ & HT & _).
  assert (HTp : (0 < total_weight l)%R).
  { assert (0 <= total_weight l)%R by (apply rsum_nonneg; exact Hw). lra. }
  assert (Hnp : 0 <= n_para V0) by (pose proof (sizes_ok V0 P HV); unfold n_para; lia).
  destruct (SR.ProofsEnd.assembled (n_para V0 + 1) groups gsize N smp st me nn idx del dt S0 g0 ltac:(lia) HN Hg Hme HT) as [HM HG].
  { intros k Hk. destruct (Hidx k Hk). lia. }
  fold l ps A in HM, HG. fold M in HM, HG.
  assert (G : forall i, 0 <= i < nn -> g i = (2 * force l (idx i))%R).
  { intros i Hi. destruct (Hidx i Hi) as (Hc & Hf). exact (uniqueness_limite _ _ _ _ (Hgr i Hi) (flat_gradient l xs (idx i) Hun Hev Hc Hf)). }
  destruct (step_downhill l idx del nn dt y Hnn Hw HTp Hdel Hdt) as [A1 A2].
  { intros i Hi. rewrite <- HG by exact Hi. rewrite <- Hsol by exact Hi. apply rsum_ext. intros j Hj. apply zrange_in in Hj. rewrite HM by assumption. reflexivity. }
  assert (Es : rsum (zrange 0 nn) (fun i => y i * g i)%R = rsum (zrange 0 nn) (fun i => y i * (2 * force l (idx i)))%R).
  { apply rsum_ext. intros i Hi. apply zrange_in in Hi. now rewrite G. }
  rewrite Es. split; [exact A1|]. intros D1 D2 (i & Hi & Hne). apply A2; [exact D1| |].
  - intros k Hk. specialize (D2 k Hk). rewrite HM, Z.eqb_refl in D2 by assumption. nra.
  - exists i. split; [exact Hi|]. rewrite G in Hne by exact Hi. lra.
Qed.
End Step.

(** there is always a parameter *)
Lemma n_para_pos V P : wf_wave (with_para V P) -> 0 < n_para V.
Proof.
  intros HV. pose proof (wv_T _ HV) as [W1 W2 W3 W4 W5 W6 W7]. pose proof (wv_M _ HV) as HM. pose proof (wf_sizes _ HM) as W8.
  pose proof (wv_valid _ HV) as (A1 & A2 & A3 & A4 & A5 & A6 & A7 & A8 & A9 & A10). cbn [with_para vS vQ vT vM vFlagRBM] in *. specialize (A10 0 0 ltac:(lia) ltac:(lia)).
  assert (0 <= NProj (vT V)) by (unfold NProj; lia). assert (0 <= n_rbm (vFlagRBM V) (vM V)) by (unfold n_rbm, NRBM, NHid, NPhys, NPh; destruct (vFlagRBM V); lia).
  unfold n_para. lia.
Qed.
Lemma energy_printed_all V P H l xs : wf_wave (with_para V P) -> (vFlagRBM V = true -> complete (vM V)) -> sites_ok V H -> spins_kept H -> unbiased (with_para V P) l xs ->
  (forall s u, In (s, u) (combine (counted l) xs) -> evaluated (with_para V P) H s (conf u)) ->
  rmean l (fun s => fst (ene s)) = energy V (hamiltonian V H) (psi (with_para V P)).
Proof.
  intros HV Hc Hok Hsp Hu He. pose proof (n_para_pos V P HV). exact (energy_printed V P HV Hc H Hok Hsp l xs Hu He 0 ltac:(lia)).
Qed.
