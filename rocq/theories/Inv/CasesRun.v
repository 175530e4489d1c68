(** Two sites exchanged by a translation, two projections: both configurations of a pair on different sites are sampled states. *)
From Coq Require Import ZArith List Bool Lia Reals Lra Permutation FunctionalExtensionality.
From Coquelicot Require Import Complex.
From Verif Require Import Base.ZLoop Base.Checked Base.RSum Proj.Model Proj.Spec Proj.Proofs Pf.Pfaffian Pf.Spec Pf.Proofs Pf.ProofsSeq
  Slater.Model Slater.Spec Slater.Cases Rbm.Model Rbm.Spec Rbm.Proofs Rbm.Cases Samp.Model Samp.Spec Green.Model Green.Spec Green.Core Green.Cases
  Ham.Model Ham.Spec Grd.Model Grd.Spec Grd.ProofsDer Grd.Cases Sym.Model Sym.Spec Sym.ProofsPf Inv.Spec Inv.Proofs Inv.ProofsHam Inv.Cases.
From Verif Require Slater.ProofsDer Green.Proofs SR.Proofs Pf.Spec.
Notation Ceq := SR.Proofs.Ceq (only parsing).
Import ListNotations.
Local Open Scope Z_scope.

Definition flip (m r : Z) : Z := (r + m) mod 2.
Definition St : sizes := {| Slater.Model.Nsite := 2; Slater.Model.Ne := 1; NSPGaussLeg := 1; NMPTrans := 2; NQPOptTrans := 1; NSlater := 4 |}.
Definition Qt : qptables := {| QPOptTrans := fun _ r => r; QPOptTransSgn := fun _ _ => 1; QPTrans := flip; QPTransSgn := fun _ _ => 1; OrbitalIdx := fun a b => 2 * a + b; OrbitalSgn := fun _ _ => 1 |}.
Definition Vt0 : wave := {| vS := St; vQ := Qt; vstot := 0; vbeta := fun _ => 0%R; vweight := fun _ => 0%R; vpara := one_ex; vflag := false; vopt := one_ex; vsl := fun _ => czero;
  vT := T2; vProj := fun _ => czero; vFlagRBM := false; vM := ma; vRBM := fun _ => czero |}.
(** all parameters different *)
Definition Pt (k : Z) : C := RtoC (IZR (k + 1)).
Definition Wt : wave := with_para Vt0 Pt.
Lemma Wt_wf : wf_wave Wt.
Proof.
  constructor; cbn [vS vQ vflag vT vM vRBM vFlagRBM Wt with_para Vt0].
  - unfold valid, St, Qt. cbn [Slater.Model.Nsite Slater.Model.Ne NSPGaussLeg NMPTrans NQPOptTrans NSlater QPOptTrans QPTrans OrbitalIdx]. do 6 (split; [lia|]). split; [reflexivity|]. split; [intros; lia|]. split; [intros; unfold flip; apply Z.mod_pos_bound; lia|]. intros; lia.
  - constructor; cbn; intros; lia.
  - exact ma_wf.
  - split; reflexivity.
  - discriminate.
Qed.
Lemma flip_permutes g : permutes 2 (flip g).
Proof. split; [intros k _; apply Z.mod_pos_bound; lia|]. intros k l Hk Hl E. unfold flip in E. unfold Sym.Spec.site in *. pose proof (Z.div_mod (k + g) 2). pose proof (Z.div_mod (l + g) 2). lia. Qed.
Lemma Vt_symmetry : symmetry Vt0 1.
Proof.
  split; [|split; [|discriminate]].
  - exists (flip 1). constructor.
    + change (0 <= 1 < 2). lia.
    + exact (flip_permutes 1).
    + exact (flip_permutes 1).
    + intros m r Hm Hr. change (0 <= m < 2) in Hm. change (0 <= r < 2) in Hr. destruct (two m Hm) as [-> | ->], (two r Hr) as [-> | ->]; reflexivity.
    + intros m _. exists 1. split; [now left|]. reflexivity.
    + intros r _. now left.
    + intros m _. cbn. unfold one_ex. apply Ceq; cbn; ring.
    + reflexivity.
    + reflexivity.
  - constructor.
    + reflexivity.
    + intros _ r r' _ _ _. split; reflexivity.
    + intros n r Hn. change (0 <= n < 0) in Hn. lia.
    + intros n r Hn. change (0 <= n < 0) in Hn. lia.
Qed.
Lemma Wt_symmetry : symmetry Wt 1.
Proof. destruct Vt_symmetry as ((after & [G1 G2 G3 G4 G5 G6 G7 G8 G9]) & HF & HM). split; [exists after; constructor; assumption|split; [exact HF|exact HM]]. Qed.
(** the pair function seen through translation q *)
Definition vt (q a b : Z) : R := IZR (2 * flip q a + flip q b + 3).
Lemma vt_pos q a b : (vt q a b <> 0)%R.
Proof. unfold vt, flip. pose proof (Z.mod_pos_bound (a + q) 2). pose proof (Z.mod_pos_bound (b + q) 2). apply not_0_IZR. lia. Qed.
Lemma elem_t q x i j : Pf.Spec.on_lattice 2 (2 * 1) x -> 0 <= q < 2 -> 0 <= i < 2 -> 0 <= j < 2 ->
  Slater.Spec.element 2 Qt (vsl Wt) 0 q 0 (orbital 2 1 x i) (orbital 2 1 x j) = RtoC (if i =? j then 0 else if i =? 0 then vt q (x 0%Z) (x 1%Z) else - vt q (x 0%Z) (x 1%Z))%R.
Proof.
  intros Hx Hq Hi Hj.
  assert (D : forall k, 0 <= k < 2 -> (x k + k / 1 * 2) / 2 = k / 1 /\ (x k + k / 1 * 2) mod 2 = x k).
  { intros k Hk. specialize (Hx k ltac:(lia)). split; [rewrite Z.div_add by lia; rewrite Z.div_small by lia; lia|rewrite Z.mod_add by lia; apply Z.mod_small; lia]. }
  unfold Slater.Spec.element, orbital. destruct (D i Hi) as (-> & ->), (D j Hj) as (-> & ->).
  assert (S : Slater.Spec.pair Qt (vsl Wt) 0 q (x 0) (x 1) = RtoC (vt q (x 0) (x 1))).
  { unfold Slater.Spec.pair, image, sign, vt. cbn [QPOptTrans QPOptTransSgn QPTrans QPTransSgn OrbitalSgn OrbitalIdx Qt]. pose proof (Hx 0 ltac:(lia)) as H0. pose proof (Hx 1 ltac:(lia)) as H1.
    destruct (two _ Hq) as [-> | ->], (two _ H0) as [-> | ->], (two _ H1) as [-> | ->]; apply Ceq; cbn; lra. }
  destruct (two i Hi) as [->| ->], (two j Hj) as [->| ->]; unfold up, down; cbn -[cos sin Slater.Spec.pair Wt vsl vt]; rewrite ?cos_0, ?sin_0, ?S; apply Ceq; cbn -[vt]; try lra.
Qed.
Definition table_t := elements_of Wt one_ex (fun _ => czero).
Lemma pm_t q x i j : Pf.Spec.on_lattice 2 (2 * 1) x -> 0 <= q < 2 -> 0 <= i < 2 -> 0 <= j < 2 ->
  pair_matrix 2 1 table_t q x i j = RtoC (if i =? j then 0 else if i =? 0 then vt q (x 0%Z) (x 1%Z) else - vt q (x 0%Z) (x 1%Z))%R.
Proof.
  intros Hx Hq Hi Hj. rewrite <- (elem_t q x i j Hx Hq Hi Hj).
  assert (H := Slater.ProofsDer.PM St Qt 0 (fun _ => 0%R) (fun _ => 0%R) one_ex one_ex one_ex false (wv_valid _ Wt_wf) (vsl Wt) (fun _ => czero) x Hx 0 q 0 i j).
  cbv zeta in H. unfold projection in H. change (NMPTrans St) with 2 in H. change (NSPGaussLeg St) with 1 in H. replace ((0 * 2 + q) * 1 + 0) with q in H by lia. rewrite ?Z.add_0_r in H. apply H; [repeat split; cbn; lia|exact Hi|exact Hj].
Qed.
Definition Inv_t (a b k : Z) : C := Inv_g (vt (k / 4) a b) (k mod 4).
Definition K_t a b : setting := {| sopt0 := one_ex; sE0 := fun _ => czero; sclog := principal; sNB := 8; sThreads := 3; sjunk := fun _ _ => czero; sInvM := Inv_t a b; sPfM := fun q => RtoC (vt q a b) |}.
Lemma sampled_t a b : 0 <= a < 2 -> 0 <= b < 2 -> exists cnt rcnt, sampled Wt (K_t a b) (w_g a b cnt) rcnt (calculate_ip (angles_of Wt one_ex) 0 2 (fun q => RtoC (vt q a b))).
Proof.
  intros Ha Hb.
  assert (Ho : occ01 2 (e_g a b)) by (intros rs _; unfold e_g; destruct (_ || _); auto).
  destruct (make_correct T2 (wv_T _ Wt_wf) (e_g a b) Ho (fun _ => 0)) as (cnt & _ & Hcnt & _).
  pose proof (conf_on a b Ha Hb) as Hx.
  assert (Hst : forall q i j, 0 <= q < 2 -> 0 <= i < 2 -> 0 <= j < 2 -> stored (2 * 1) (Inv_t a b) q i j = RtoC (if i =? j then 0 else if i =? 0 then - / vt q a b else / vt q a b)%R).
  { intros q i j Hq Hi Hj. destruct (two q Hq) as [-> | ->], (two i Hi) as [->| ->], (two j Hj) as [->| ->]; reflexivity. }
  exists cnt, (fun _ => RtoC 0). constructor.
  - exact principal_log.
  - cbn; lia.
  - constructor.
    + intros mi s Hmi Hs. cbn in Hmi. assert (mi = 0) as -> by lia. change (sites Wt) with 2. change (Slater.Model.Ne (vS Wt)) with 1.
      destruct (two a Ha) as [-> | ->], (two b Hb) as [-> | ->]; (assert (s = 0 \/ s = 1) as [-> | ->] by lia); eexists; (split; [reflexivity|]); (split; [split; [vm_compute; discriminate|reflexivity]|reflexivity]).
    + intros r s Hr Hs. change (sites Wt) with 2 in *. change (Slater.Model.Ne (vS Wt)) with 1.
      destruct (two a Ha) as [-> | ->], (two b Hb) as [-> | ->], (two r Hr) as [-> | ->]; (assert (s = 0 \/ s = 1) as [-> | ->] by lia);
        cbn; try (left; split; reflexivity); right; exists 0; repeat split; try reflexivity; lia.
  - exact Hcnt.
  - discriminate.
  - intros q Hq. change (Slater.Model.NQPFull (vS Wt) - 0) with 2 in Hq. rewrite Z.add_0_r.
    change (sites Wt) with 2. change (Slater.Model.Ne (vS Wt)) with 1. change (elements_of Wt (sopt0 (K_t a b)) (sE0 (K_t a b))) with table_t.
    change (Samp.Model.eleIdx (w_g a b cnt)) with (conf [a; b]). cbn [sInvM sPfM K_t]. split.
    + change (zrange 0 (2 * 1)) with [0; 1]. rewrite pf_two_by_two, pm_t by (assumption || lia). reflexivity.
    + pose proof (vt_pos q a b) as Hp. apply is_inverse_intro.
      * apply skew_spec. intros i j Hi Hj. change (2 * 1) with 2 in Hi, Hj. rewrite !Hst by lia. destruct (two i Hi) as [->| ->], (two j Hj) as [->| ->]; cbn -[vt]; apply Ceq; cbn -[vt]; ring.
      * apply skew_spec. intros i j Hi Hj. change (2 * 1) with 2 in Hi, Hj. rewrite !pm_t by (assumption || lia). destruct (two i Hi) as [->| ->], (two j Hj) as [->| ->]; cbn -[vt]; apply Ceq; cbn -[vt]; ring.
      * apply left_inverse_spec. intros i j Hi Hj. change (zrange 0 (2 * 1)) with [0; 1]. change (2 * 1) with 2 in Hi, Hj. cbn [csum]. rewrite !Hst, !pm_t by (assumption || lia).
        change (conf [a; b] 0) with a. change (conf [a; b] 1) with b.
        unfold kron. destruct (two i Hi) as [->| ->], (two j Hj) as [->| ->]; cbn [Z.eqb Pos.eqb]; apply Ceq; cbn -[vt]; try (field; exact Hp); ring.
  - reflexivity.
  - intros E. change (Cplus (Cplus czero (Cmult (RtoC 1) (RtoC (vt 0 a b)))) (Cmult (RtoC 1) (RtoC (vt 1 a b))) = RtoC 0) in E. apply (f_equal fst) in E. cbn -[vt] in E.
    assert (0 < vt 0 a b)%R by (unfold vt, flip; apply IZR_lt; pose proof (Z.mod_pos_bound (a + 0) 2); pose proof (Z.mod_pos_bound (b + 0) 2); lia).
    assert (0 < vt 1 a b)%R by (unfold vt, flip; apply IZR_lt; pose proof (Z.mod_pos_bound (a + 1) 2); pose proof (Z.mod_pos_bound (b + 1) 2); lia).
    lra.
Qed.
(** repulsion on both sites and between them, Hund coupling, hopping, pair hopping, exchange *)
Definition H_t : terms := Terms 2 (fun k => k) (fun _ => 5%R) 1 (fun _ c => c) (fun _ => 1%R) 1 (fun _ c => c) (fun _ => 2%R)
  4 (fun k c => if c =? 0 then k / 2 else if c =? 2 then 1 - k / 2 else k mod 2) (fun _ => RtoC 1) 2 (fun k c => (k + c) mod 2) (fun _ => (-3)%R)
  1 (fun _ c => c) (fun _ => 4%R) 0 (fun _ _ => 0) (fun _ => RtoC 0).
Lemma H_t_sites : sites_ok Wt H_t.
Proof.
  constructor; cbn [H_t NIntra Intra NInter Inter NHund Hund NTransfer Transfer NPair Pair NExchange Exchange NInterAll InterAll]; intros k Hk; unfold Ham.Spec.site, spin; change (sites Wt) with 2; try lia.
  - assert (k = 0 \/ k = 1 \/ k = 2 \/ k = 3) as [->|[->|[->| ->]]] by lia; cbv; intuition discriminate.
Qed.
Lemma H_t_spins : spins_kept H_t. Proof. split; cbn; intros k Hk; [reflexivity|lia]. Qed.
Lemma id_permutes n : permutes n (fun k => k). Proof. split; auto. Qed.
Lemma H_t_symmetric : symmetric_files Wt 1 H_t.
Proof.
  constructor; unfold H_t; cbn [NIntra Intra ParaIntra NInter Inter ParaInter NHund Hund ParaHund NTransfer Transfer ParaTransfer NPair Pair ParaPair NExchange Exchange ParaExchange NInterAll InterAll ParaInterAll]; cbv zeta.
  - apply (kept_by _ _ _ (flip 1) (flip_permutes 1)). intros k Hk. reflexivity.
  - apply (kept_by _ _ _ (fun k => k) (id_permutes 1)). intros k Hk. reflexivity.
  - apply (kept_by _ _ _ (fun k => k) (id_permutes 1)). intros k Hk. reflexivity.
  - apply (kept_by _ _ _ (fun k => (k + 2) mod 4)).
    + split; [intros k _; apply Z.mod_pos_bound; lia|]. intros k l Hk Hl E. unfold Sym.Spec.site in *. pose proof (Z.div_mod (k + 2) 4). pose proof (Z.div_mod (l + 2) 4). lia.
    + intros k Hk. f_equal; [apply Ceq; cbn; ring|]. assert (k = 0 \/ k = 1 \/ k = 2 \/ k = 3) as [->|[->|[->| ->]]] by lia; reflexivity.
  - apply (kept_by _ _ _ (flip 1) (flip_permutes 1)). intros k Hk. destruct (two k Hk) as [-> | ->]; reflexivity.
  - apply (kept_by _ _ _ (fun k => k) (id_permutes 1)). intros k Hk. reflexivity.
  - apply (kept_by _ _ _ (fun k => k) (id_permutes 0)). intros k Hk. lia.
Qed.

(** two sampled states that differ by the translation, with the derivatives the program assembles for both *)
Theorem run_example a b : 0 <= a < 2 -> 0 <= b < 2 -> exists K w rcnt ip junk O K' w' rcnt' ip' junk' O',
  sampled Wt K w rcnt ip /\ sampled Wt K' w' rcnt' ip' /\ Samp.Model.eleIdx w = conf [a; b] /\ Samp.Model.eleIdx w' = conf [flip 1 a; flip 1 b] /\
  (forall i, In i (labels Wt) -> Samp.Model.eleIdx w' i = QPTrans (vQ Wt) 1 (Samp.Model.eleIdx w i)) /\
  sr_opt_o (vS Vt0) (vQ Vt0) (NProj (vT Vt0)) (vFlagRBM Vt0) (vM Vt0) (angles_of Wt (sopt0 K)) (sInvM K) (sPfM K) ip (Samp.Model.eleIdx w) (Samp.Model.eleNum w) (eleProjCnt w) rcnt junk = Some O /\
  sr_opt_o (vS Vt0) (vQ Vt0) (NProj (vT Vt0)) (vFlagRBM Vt0) (vM Vt0) (angles_of Wt (sopt0 K')) (sInvM K') (sPfM K') ip' (Samp.Model.eleIdx w') (Samp.Model.eleNum w') (eleProjCnt w') rcnt' junk' = Some O'.
Proof.
  intros Ha Hb. destruct (sampled_t a b Ha Hb) as (cnt & rcnt & HA).
  destruct (sampled_t (flip 1 a) (flip 1 b)) as (cnt' & rcnt' & HB); [apply Z.mod_pos_bound; lia|apply Z.mod_pos_bound; lia|].
  assert (Hc : vFlagRBM Vt0 = true -> complete (vM Vt0)) by discriminate.
  destruct (assembled Vt0 Pt Wt_wf _ _ _ _ HA (fun _ => RtoC 0) Hc) as (O1 & E1 & _). destruct (assembled Vt0 Pt Wt_wf _ _ _ _ HB (fun _ => RtoC 0) Hc) as (O2 & E2 & _).
  exists (K_t a b), (w_g a b cnt), rcnt, (calculate_ip (angles_of Wt one_ex) 0 2 (fun q => RtoC (vt q a b))), (fun _ => RtoC 0), O1.
  exists (K_t (flip 1 a) (flip 1 b)), (w_g (flip 1 a) (flip 1 b) cnt'), rcnt', (calculate_ip (angles_of Wt one_ex) 0 2 (fun q => RtoC (vt q (flip 1 a) (flip 1 b)))), (fun _ => RtoC 0), O2.
  split; [exact HA|]. split; [exact HB|]. split; [reflexivity|]. split; [reflexivity|]. split; [|split; [exact E1|exact E2]].
  intros i Hi. apply zrange_in in Hi. change (0 <= i < 2) in Hi. destruct (two i Hi) as [-> | ->]; reflexivity.
Qed.
