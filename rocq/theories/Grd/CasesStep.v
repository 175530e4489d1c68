(** The Gutzwiller parameter of the concrete case: its derivative counts doubly occupied sites, so the system for it can be solved. *)
From Coq Require Import ZArith List Bool Lia Reals Lra Permutation FunctionalExtensionality.
From Coquelicot Require Import Coquelicot.
From Verif Require Import Base.ZLoop Base.Checked Base.RSum Proj.Model Proj.Spec Proj.Proofs Pf.Spec
  Slater.Model Slater.Spec Slater.Derive Slater.ProofsProp Slater.Cases Rbm.Model Rbm.Spec Rbm.Proofs Rbm.ProofsDiff Rbm.Cases Samp.Model Samp.Spec Green.Model Green.Spec Green.Cases
  Ham.Model Ham.Spec SR.Model SR.Spec Grd.Model Grd.Spec Grd.ProofsDer Grd.ProofsSum Grd.ProofsGrad Grd.ProofsEnd Grd.Cases.
From Verif Require Slater.ProofsDer Uhf.Spec Green.Proofs SR.Proofs SR.ProofsEnd.
Import ListNotations.
Local Open Scope Z_scope.

Notation W := (Wg true p_case).
Definition doubly (u : list Z) : R := match u with [a; b] => if a =? b then 1%R else 0%R | _ => 0%R end.
Lemma corr_t u t : In u (configurations (Vg true)) ->
  correlation (with_para (Vg true) (shifted (Pg p_case) 0 t)) (occupation W (conf u)) = (exp (t * doubly u) * correlation W (occupation W (conf u)))%R.
Proof.
  intros Hu. unfold correlation. rewrite <- exp_plus. f_equal. change (NProj (vT _)) with 2. change (zrange 0 2) with [0; 1]. cbn [rsum].
  cbn [vProj vT Wg with_para Vg]. unfold section. change (NProj T2) with 2. cbn [inb Z.leb Z.ltb Z.compare andb Pos.compare Pos.compare_cont].
  unfold shifted. change (0 mod 2 =? 0) with true. cbv iota. change (0 / 2) with 0. unfold shift_re. rewrite !Z.add_0_l, upd_same, upd_other by lia.
  assert (E : IZR (counter T2 (occupation W (conf u)) 0) = doubly u).
  { rewrite configurations_g in Hu. destruct Hu as [<-|[<-|[<-|[<-|[]]]]]; reflexivity. }
  rewrite E. unfold Cplus. cbn [fst]. ring.
Qed.
Lemma gutz_derivative u : In u (configurations (Vg true)) -> cderive (fun t => wf_t (Vg true) (Pg p_case) 0 t (conf u)) (Cmult (RtoC (doubly u)) (psi W (conf u))).
Proof.
  intros Hu.
  assert (E : forall t, wf_t (Vg true) (Pg p_case) 0 t (conf u) = Cmult (RtoC (exp (t * doubly u))) (psi W (conf u))).
  { intros t. unfold wf_t, psi. change (occupation (with_para (Vg true) ?P) (conf u)) with (occupation W (conf u)). rewrite corr_t by exact Hu.
    replace (boltzmann (with_para (Vg true) (shifted (Pg p_case) 0 t)) (occupation W (conf u))) with (boltzmann W (occupation W (conf u))).
    2:{ unfold boltzmann. cbn [Wg with_para vFlagRBM vM vRBM Vg]. rewrite section_out; [reflexivity|]. vm_compute. intros [A _]. now apply A. }
    replace (pairs (with_para (Vg true) (shifted (Pg p_case) 0 t)) (conf u)) with (pairs W (conf u)).
    2:{ unfold pairs. cbn [Wg with_para vS vQ vstot vbeta vweight vpara vflag vopt vsl]. rewrite section_out; [reflexivity|]. vm_compute. intros [A _]. now apply A. }
    rewrite RtoC_mult. ring. }
  apply (cderive_ext _ _ _ (fun t => eq_sym (E t))).
  assert (L : logd (fun t => Cmult (RtoC (exp (t * doubly u))) (psi W (conf u))) (Cplus (RtoC (doubly u)) (RtoC 0))).
  { apply logd_mult; [|apply logd_const]. apply (logd_rexp (fun t => t * doubly u)%R). auto_derive; [trivial|ring]. }
  unfold logd in L. rewrite Rmult_0_l, exp_0, Cplus_0_r, Cmult_1_l in L. exact L.
Qed.
Lemma sample_gutz l s u : unbiased W l (configurations (Vg true)) -> (forall s u, In (s, u) (combine (counted l) (configurations (Vg true))) -> evaluated W H_g s (conf u)) ->
  In (s, u) (combine (counted l) (configurations (Vg true))) -> dO 0 s = RtoC (doubly u).
Proof.
  intros U E I. destruct (sample_values (Vg true) (Pg p_case) (Wg_wf true p_case) (fun _ => ma_complete) H_g (H_g_sites (Vg true) eq_refl) H_g_spins l _ E 0 ltac:(vm_compute; split; congruence) s u I) as (N & _ & Dv).
  pose proof (cderive_unique _ _ _ Dv (gutz_derivative u (in_combine_r _ _ _ _ I))) as Q.
  apply (f_equal (fun z => Cmult z (Cinv (psi W (conf u))))) in Q. change (with_para (Vg true) (Pg p_case)) with W in Q, N. rewrite <- !Cmult_assoc, Cinv_r, !Cmult_1_r in Q by exact N. exact Q.
Qed.
Lemma gutz_varies l : unbiased W l (configurations (Vg true)) -> (forall s u, In (s, u) (combine (counted l) (configurations (Vg true))) -> evaluated W H_g s (conf u)) -> (0 < covO l 0 0)%R.
Proof.
  intros U E. unfold covO.
  rewrite (rmean_exact W l _ _ (fun u => doubly u) U).
  2:{ intros s u I. rewrite (sample_gutz l s u U E I). apply in_combine_r in I. rewrite configurations_g in I. destruct I as [<-|[<-|[<-|[<-|[]]]]]; cbn; ring. }
  rewrite (rmean_exact W l _ (fun s => fst (dO 0 s)) (fun u => doubly u) U) by (intros s u I; rewrite (sample_gutz l s u U E I); reflexivity).
  unfold mean, norm. change (configurations W) with [[0; 0]; [0; 1]; [1; 0]; [1; 1]]. cbn [rsum doubly Z.eqb Pos.eqb].
  assert (Q : forall a b, 0 <= a < 2 -> 0 <= b < 2 -> (0 < Rsqr (Cmod (psi W (conf [a; b]))))%R).
  { intros a b Ha Hb. apply Rsqr_pos_lt. intros Z. apply Cmod_eq_0 in Z. exact (psi_g_nz true p_case (conf [a; b]) (conf_on a b Ha Hb) (p_case_nz a b Ha Hb) Z). }
  pose proof (Q 0 0 ltac:(lia) ltac:(lia)) as Q0. pose proof (Q 0 1 ltac:(lia) ltac:(lia)) as Q1. pose proof (Q 1 0 ltac:(lia) ltac:(lia)) as Q2. pose proof (Q 1 1 ltac:(lia) ltac:(lia)) as Q3.
  set (a := Rsqr (Cmod (psi W (conf [0; 0])))) in *. set (b := Rsqr (Cmod (psi W (conf [0; 1])))) in *. set (c := Rsqr (Cmod (psi W (conf [1; 0])))) in *. set (d := Rsqr (Cmod (psi W (conf [1; 1])))) in *.
  clearbody a b c d.
  match goal with |- (0 < ?r)%R => replace r with ((a + d) / (a + b + c + d) * ((b + c) / (a + b + c + d)))%R by (field; lra) end.
  apply Rmult_lt_0_compat; apply Rdiv_lt_0_compat; lra.
Qed.
(** the whole step: one group of two processes, four samples, the Gutzwiller parameter optimised *)
Lemma list_function {A} (l : list A) (d : A) : map (fun i => nth (Z.to_nat i) l d) (zrange 0 (Z.of_nat (length l))) = l.
Proof.
  induction l as [|a l IH]; [reflexivity|]. rewrite zrange_cons by (cbn [length]; lia). cbn [map]. f_equal.
  replace (Z.of_nat (length (a :: l))) with (Z.of_nat (length l) + 1) by (cbn [length]; lia). rewrite <- IH at 2. rewrite (zrange_shift 0 (Z.of_nat (length l)) 1), map_map.
  apply map_ext_in. intros i Hi. apply zrange_in in Hi. replace (Z.to_nat (i + 1)) with (S (Z.to_nat i)) by lia. reflexivity.
Qed.
Lemma case_step : exists smp, let l := all_samples 1 4 smp in let ps := procs 1 (fun _ => 2) in
  unbiased W l (configurations (Vg true)) /\ (forall s u, In (s, u) (combine (counted l) (configurations (Vg true))) -> evaluated W H_g s (conf u)) /\ (forall s, In s (counted l) -> 0 <= wgt s)%R /\
  In (0, 1) ps /\ (forall c, flat_nodes (Vg true) (Pg p_case) c) /\
  forall st S0 g0, let A := fun p => main_cal (n_para (Vg true) + 1) false false 4 2 (snd p) (smp (fst p)) (st p) in
  let M := stcOptInit (n_para (Vg true) + 1) (/ 100) (/ 10) 1 (fun _ => 0) (average_vec ps (total_weight l) (fun p => OO (A p)) (0, 1)) (average_vec ps (total_weight l) (fun p => HO (A p)) (0, 1)) S0 g0 in
  (0 < fst M 0%Z)%R /\ exists y, forall i, 0 <= i < 1 -> rsum (zrange 0 1) (fun j => fst M (i + 1 * j)%Z * y j)%R = snd M i.
Proof.
  destruct case_samples as (L & Len & U & E & Wt).
  set (dflt := Smp true 0 (RtoC 0) (fun _ => RtoC 0) (fun _ => RtoC 0) (fun _ => RtoC 0)).
  exists (fun _ i => nth (Z.to_nat i) L dflt). cbv zeta.
  assert (El : all_samples 1 4 (fun _ i => nth (Z.to_nat i) L dflt) = L).
  { unfold all_samples. change (zrange 0 1) with [0]. cbn [flat_map]. rewrite app_nil_r. change 4 with (Z.of_nat 4). rewrite <- Len. apply list_function. }
  rewrite El. split; [exact U|]. split; [exact E|]. split; [exact Wt|]. split; [vm_compute; auto|]. split; [exact case_flat|].
  intros st S0 g0. 
  destruct (SR.ProofsEnd.assembled (n_para (Vg true) + 1) 1 (fun _ => 2) 4 (fun _ i => nth (Z.to_nat i) L dflt) st (0, 1) 1 (fun _ => 0) (/ 100) (/ 10) S0 g0) as [HM _].
  { vm_compute. reflexivity. } { lia. } { intros; lia. } { vm_compute; auto. } { rewrite El. exact (proj1 (proj2 U)). } { intros k _. change (2 * (n_para (Vg true) + 1) - 2) with (2 * n_para (Vg true)). split; [lia|]. vm_compute. reflexivity. }
  rewrite El in HM. 
  match goal with |- (0 < fst ?m 0%Z)%R /\ _ => set (M := m) in * end.
  assert (P0 : (0 < fst M 0%Z)%R).
  { specialize (HM 0 0 ltac:(lia) ltac:(lia)). change (0 + 1 * 0) with 0 in HM. rewrite HM. pose proof (gutz_varies L U E). cbn [Z.eqb]. lra. }
  split; [exact P0|]. exists (fun _ => snd M 0%Z / fst M 0%Z)%R. intros i Hi. assert (i = 0) as -> by lia. change (zrange 0 1) with [0]. cbn [rsum]. change (0 + 1 * 0) with 0. field. lra.
Qed.
