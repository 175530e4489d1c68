(** A pair parameter at zero: the force vanishes, the gradient does not.  And the vector of the program for general orbitals beside a machine. *)
From Coq Require Import ZArith List Bool Lia Reals Lra Permutation FunctionalExtensionality.
From Coquelicot Require Import Coquelicot.
From Verif Require Import Base.ZLoop Base.Checked Base.RSum Proj.Model Proj.Spec Proj.Proofs Pf.Spec
  Slater.Model Slater.Spec Slater.Derive Slater.ProofsProp Slater.Cases Rbm.Model Rbm.Spec Rbm.Cases Samp.Model Samp.Spec Green.Model Green.Spec Green.Cases
  Ham.Model Ham.Spec SR.Model SR.Spec Grd.Model Grd.Spec Grd.ProofsDer Grd.ProofsSum Grd.ProofsGrad Grd.ProofsEnd Grd.Cases.
From Verif Require Slater.ProofsDer Uhf.Spec Green.Proofs SR.Proofs.
Import ListNotations.
Local Open Scope Z_scope.

(** no pair with both electrons on site 0 *)
Definition p_node (k : Z) : R := if k =? 2 then 0%R else 1%R.
Notation W := (Wg false p_node).
Lemma base_f : base false = 2. Proof. reflexivity. Qed.
Lemma pv_node a b : 0 <= a < 2 -> 0 <= b < 2 -> pv false p_node a b = if (a =? 0) && (b =? 0) then 0%R else 1%R.
Proof. intros Ha Hb. unfold pv. rewrite base_f. destruct (two a Ha) as [->| ->], (two b Hb) as [->| ->]; reflexivity. Qed.
Definition X_node : list (list Z) := [[0; 1]; [1; 0]; [1; 1]].
Lemma psi_node : psi W (conf [0; 0]) = RtoC 0.
Proof. rewrite psi_g by (apply conf_on; lia). change (conf [0; 0] 0) with 0. change (conf [0; 0] 1) with 0. rewrite pv_node by lia. cbn [Z.eqb andb]. ring. Qed.
Lemma node_samples : exists l, unbiased W l X_node /\ (forall s u, In (s, u) (combine (counted l) X_node) -> evaluated W H_g s (conf u)) /\ (forall s, In s (counted l) -> 0 <= wgt s)%R.
Proof.
  assert (N1 : (1 <> 0)%R) by lra.
  destruct (exact_samples W H_g X_node) as (l & L & Cl & U & E & Wt).
  - apply (norm_g false p_node 0 1); try lia. rewrite pv_node by lia. exact N1.
  - intros F. change (configurations W) with ([0; 0] :: X_node). cbn [rsum]. rewrite psi_node. replace (Rsqr (Cmod (RtoC 0))) with 0%R; [ring|]. rewrite Cmod_0. unfold Rsqr. ring.
  - intros u Hu. destruct Hu as [<-|[<-|[<-|[]]]]; apply weighs_g; try lia; rewrite pv_node by lia; exact N1.
  - exists l. split; [exact U|]. split; [exact E|]. rewrite Cl. exact Wt.
Qed.
(** moving the real part of the parameter *)
Lemma shift_g p t : shifted (Pg p) 4 t = Pg (upd p 2 (p 2%Z + t)%R).
Proof.
  apply functional_extensionality. intros k. unfold shifted. change (4 mod 2 =? 0) with true. cbv iota. change (4 / 2) with 2. unfold shift_re, Pg. rewrite !upd_get.
  destruct (k =? 2); [|reflexivity]. apply SR.Proofs.Ceq; cbn; lra.
Qed.
Definition cw (x : Z -> Z) : R := correlation W (occupation W x).
Lemma cw_pos x : (0 < cw x)%R. Proof. apply exp_pos. Qed.
Lemma cw_t t x : correlation (Wg false (upd p_node 2 (p_node 2%Z + t)%R)) (occupation W x) = cw x.
Proof.
  reflexivity.
Qed.
Lemma psi_t_node a b t : 0 <= a < 2 -> 0 <= b < 2 -> psi (with_para (Vg false) (shifted (Pg p_node) 4 t)) (conf [a; b]) =
  RtoC (cw (conf [a; b]) * (if (a =? 0) && (b =? 0) then t else 1))%R.
Proof.
  intros Ha Hb. rewrite shift_g. change (with_para (Vg false) (Pg ?p)) with (Wg false p). rewrite psi_g by (now apply conf_on).
  change (occupation (Wg false _) ?x) with (occupation W x) at 1. rewrite cw_t. change (conf [a; b] 0) with a. change (conf [a; b] 1) with b.
  replace (pv false (upd p_node 2 (p_node 2%Z + t)%R) a b) with (if (a =? 0) && (b =? 0) then t else 1%R).
  - unfold boltzmann. cbn [vFlagRBM Wg with_para Vg]. apply SR.Proofs.Ceq; cbn; ring.
  - unfold pv. rewrite base_f, upd_get. destruct (two a Ha) as [->| ->], (two b Hb) as [->| ->]; cbn; try reflexivity. unfold p_node; cbn. ring.
Qed.
Definition d_node (u : list Z) : C := RtoC (cw (conf u)).
Lemma nodes : node_derivatives (Vg false) (Pg p_node) 4 d_node.
Proof.
  intros u Hu _ E. rewrite configurations_g in Hu. change (with_para (Vg false) (Pg p_node)) with W in E.
  assert (N1 : (1 <> 0)%R) by lra.
  destruct Hu as [<-|[<-|[<-|[<-|[]]]]].
  2-4: exfalso; revert E; apply psi_g_nz; [apply conf_on; lia|]; change (conf [?a; ?b] 0) with a; change (conf [?a; ?b] 1) with b; rewrite pv_node by lia; exact N1.
  apply cderive_spec. apply (cderive_ext (fun t => Cplus (RtoC 0) (Cmult (RtoC t) (d_node [0; 0])))); [|apply cderive_affine].
  intros t. rewrite psi_t_node by lia. unfold d_node. cbn [Z.eqb andb]. apply SR.Proofs.Ceq; cbn -[cw conf]; ring.
Qed.
Lemma psi_W a b : 0 <= a < 2 -> 0 <= b < 2 -> psi W (conf [a; b]) = RtoC (cw (conf [a; b]) * (if (a =? 0) && (b =? 0) then 0 else 1))%R.
Proof. intros Ha Hb. change W with (with_para (Vg false) (Pg p_node)). rewrite <- (shifted_0 (Pg p_node) 4) at 1. now apply psi_t_node. Qed.
Lemma upd_conf a b m r : 0 <= m < 2 -> upd (conf [a; b]) m r = if m =? 0 then conf [r; b] else conf [a; r].
Proof.
  intros Hm. apply functional_extensionality. intros k. rewrite upd_get. assert (Hk : k = 0 \/ k = 1 \/ (k <> 0 /\ k <> 1)) by lia.
  destruct (two m Hm) as [->| ->], Hk as [->|[->|(N0 & N1)]]; try reflexivity.
  1: rewrite (proj2 (Z.eqb_neq _ _) N0). 2: rewrite (proj2 (Z.eqb_neq _ _) N1).
  all: cbn [Z.eqb]; unfold conf; destruct (Z.leb_spec 0 k); [|reflexivity]; assert (E : exists n, Z.to_nat k = S (S n)) by (exists (Z.to_nat (k - 2)); lia); destruct E as (n & ->); reflexivity.
Qed.
Lemma act_W ab (f : (Z -> Z) -> C) a b : act W ab f (conf [a; b]) = Cplus (if a =? snd ab then f (conf [fst ab mod 2; b]) else RtoC 0) (if b + 2 =? snd ab then f (conf [a; fst ab mod 2]) else RtoC 0).
Proof.
  unfold act. change (labels W) with [0; 1]. cbn [csum]. change (sites W) with 2. rewrite !upd_conf by lia. cbn [Z.eqb].
  change (orb W (conf [a; b]) 0) with (a + 0). change (orb W (conf [a; b]) 1) with (b + 2). rewrite Z.add_0_r. ring.
Qed.
Definition pc (a b : Z) : C := psi W (conf [a; b]).
Lemma missed_node : (missed (Vg false) (hamiltonian (Vg false) H_g) (psi W) d_node < 0)%R.
Proof.
  unfold missed. rewrite configurations_g. change (string (Vg false)) with (string W). change (norm (Vg false)) with (norm W). cbn [csum].
  assert (Hn : (0 < norm W (psi W))%R).
  { assert (N0 : norm W (psi W) <> 0%R) by (apply (norm_g false p_node 0 1); try lia; rewrite pv_node by lia; cbn; lra).
    assert (0 <= norm W (psi W))%R by (apply rsum_nonneg; intros; apply Rle_0_sqr). lra. }
  set (c01 := cw (conf [0; 1])). set (c10 := cw (conf [1; 0])). set (c11 := cw (conf [1; 1])).
  pose proof (cw_pos (conf [0; 1]) : (0 < c01)%R). pose proof (cw_pos (conf [1; 0]) : (0 < c10)%R). pose proof (cw_pos (conf [1; 1]) : (0 < c11)%R). pose proof (cw_pos (conf [0; 0])).
  assert (Nz : forall a b, 0 <= a < 2 -> 0 <= b < 2 -> (a =? 0) && (b =? 0) = false -> psi W (conf [a; b]) <> RtoC 0).
  { intros a b Ha Hb E. rewrite psi_W, E by assumption. intros Z. apply RtoC_inj in Z. pose proof (cw_pos (conf [a; b])). lra. }
  destruct (Ceq_dec (psi W (conf [0; 0])) (RtoC 0)) as [_|E]; [|exfalso; apply E, psi_node].
  destruct (Ceq_dec (psi W (conf [0; 1])) (RtoC 0)) as [E|_]; [exfalso; revert E; apply Nz; (lia || reflexivity)|].
  destruct (Ceq_dec (psi W (conf [1; 0])) (RtoC 0)) as [E|_]; [exfalso; revert E; apply Nz; (lia || reflexivity)|].
  destruct (Ceq_dec (psi W (conf [1; 1])) (RtoC 0)) as [E|_]; [exfalso; revert E; apply Nz; (lia || reflexivity)|].
  unfold Rdiv. rewrite !Cplus_0_r.
  match goal with |- (fst (Cmult ?h _) * _ < 0)%R => replace h with ((- (c10 + c01 + 3 * c11)), (c10 + c01))%R end.
  - unfold d_node, Cmult, RtoC. cbn [fst snd]. assert (Hi : (0 < / norm W (psi W))%R) by now apply Rinv_0_lt_compat.
    pose proof (cw_pos (conf [0; 0])) as H00. set (c00 := cw (conf [0; 0])) in *. set (i := (/ norm W (psi W))%R) in *. clearbody c00 c01 c10 c11 i.
    assert (K : (0 < (c10 + c01 + 3 * c11) * c00 * i)%R) by (repeat apply Rmult_lt_0_compat; lra).
    replace ((- (c10 + c01 + 3 * c11) * c00 - (c10 + c01) * 0) * i)%R with (- ((c10 + c01 + 3 * c11) * c00 * i))%R by ring. lra.
  - symmetry. unfold hamiltonian, diagonal, hopping. cbn [H_g NIntra NInter NHund NTransfer NPair NExchange NInterAll]. 
    change (zrange 0 4) with [0; 1; 2; 3]. change (zrange 0 2) with [0; 1]. change (zrange 0 1) with [0]. change (zrange 0 0) with (@nil Z).
    unfold h_intra, h_inter, h_hund, h_transfer, h_pair, h_exchange, number. cbn [flat_map map app]. cbv zeta. change (sites (Vg false)) with 2.
    cbn [H_g Intra ParaIntra Inter ParaInter Hund ParaHund Transfer ParaTransfer Pair ParaPair Exchange ParaExchange csum fst snd string].
    rewrite !act_W. cbn [fst snd].
    repeat match goal with |- context [psi W (conf [?a; ?b])] => change (psi W (conf [a; b])) with (pc a b) end.
    set (f := pc). assert (F00 : f 0 0 = RtoC 0) by exact psi_node.
    assert (F01 : f 0 1 = RtoC c01) by (unfold f, pc; rewrite psi_W by lia; cbn [Z.eqb andb]; now rewrite Rmult_1_r).
    assert (F10 : f 1 0 = RtoC c10) by (unfold f, pc; rewrite psi_W by lia; cbn [Z.eqb andb]; now rewrite Rmult_1_r).
    assert (F11 : f 1 1 = RtoC c11) by (unfold f, pc; rewrite psi_W by lia; cbn [Z.eqb andb]; now rewrite Rmult_1_r).
    clearbody f c01 c10 c11. cbn -[Cmult Cplus Cconj Copp RtoC IZR].
    rewrite ?F00, ?F01, ?F10, ?F11. apply SR.Proofs.Ceq; cbn; ring.
Qed.

Lemma node_force l : unbiased W l X_node -> (forall s u, In (s, u) (combine (counted l) X_node) -> evaluated W H_g s (conf u)) -> force l 4 = 0%R.
Proof.
  intros Hu He.
  assert (D : forall s, In s (counted l) -> dO 4 s = RtoC 0).
  { intros s Hs. destruct Hu as (L & _). assert (I : exists u, In (s, u) (combine (counted l) X_node)).
    { clear He. revert L Hs. generalize X_node. generalize (counted l). induction l0 as [|s0 l0 IH]; intros [|u X] L I; try discriminate; [destruct I|].
      destruct I as [->|I]; [exists u; now left|]. destruct (IH X ltac:(now injection L) I) as (u' & I'). exists u'. now right. }
    destruct I as (u & I). destruct (sample_values (Vg false) (Pg p_node) (Wg_wf false p_node) (fun _ => ma_complete) H_g (H_g_sites (Vg false) eq_refl) H_g_spins l X_node He 4 ltac:(vm_compute; split; congruence) s u I) as (N & _ & Dv).
    assert (Dc : cderive (fun t => wf_t (Vg false) (Pg p_node) 4 t (conf u)) (RtoC 0)).
    { apply in_combine_r in I. unfold wf_t. destruct I as [<-|[<-|[<-|[]]]].
      all: match goal with |- cderive (fun t => psi _ ?x) _ => apply (cderive_ext (fun _ => RtoC (cw x))); [intros t; rewrite psi_t_node by lia; cbn [Z.eqb andb]; now rewrite Rmult_1_r|apply cderive_const] end. }
    pose proof (cderive_unique _ _ _ Dv Dc) as E. revert E. apply cmult_zero_l. exact N. }
  unfold force. cbv zeta.
  assert (R0' : rmean l (fun x => fst (dO 4 x)) = 0%R). { unfold rmean. rewrite rsum_zero; [unfold Rdiv; ring|]. intros s Hs. rewrite D by exact Hs. cbn. ring. }
  rewrite R0'. unfold rmean at 1. rewrite rsum_zero; [unfold Rdiv; ring|]. intros s Hs. rewrite D by exact Hs. cbn. ring.
Qed.
Lemma nodes_refuted : exists V0 P H l xs c g, wf_wave (with_para V0 P) /\ vFlagRBM V0 = false /\ sites_ok V0 H /\ spins_kept H /\ Uhf.Spec.files_hermitian (sites V0) H /\
  unbiased (with_para V0 P) l xs /\ (forall s u, In (s, u) (combine (counted l) xs) -> evaluated (with_para V0 P) H s (conf u)) /\ 0 <= c < 2 * n_para V0 /\
  derivable_pt_lim (fun t => energy V0 (hamiltonian V0 H) (psi (with_para V0 (shifted P c t)))) 0 g /\ (g < 0)%R /\ force l c = 0%R.
Proof.
  destruct node_samples as (l & U & E & _). exists (Vg false), (Pg p_node), H_g, l, X_node, 4, (2 * force l 4 + 2 * missed (Vg false) (hamiltonian (Vg false) H_g) (psi W) d_node)%R.
  assert (Hc : 0 <= 4 < 2 * n_para (Vg false)) by (vm_compute; split; congruence).
  split; [exact (Wg_wf false p_node)|]. split; [reflexivity|]. split; [exact (H_g_sites (Vg false) eq_refl)|]. split; [exact H_g_spins|]. split; [exact H_g_herm|].
  split; [exact U|]. split; [exact E|]. split; [exact Hc|]. split.
  - exact (force_gradient (Vg false) (Pg p_node) (Wg_wf false p_node) (fun _ => ma_complete) H_g (H_g_sites (Vg false) eq_refl) H_g_spins H_g_herm l X_node U E 4 Hc d_node nodes).
  - split; [|exact (node_force l U E)]. rewrite (node_force l U E). pose proof missed_node. lra.
Qed.
