(** A concrete case with general spins: two electrons on two sites, sixteen pair parameters, a Gutzwiller factor; all
    twelve configurations have non-zero amplitude. *)
From Coq Require Import ZArith List Bool Lia Reals Lra.
From Coquelicot Require Import Complex.
From Verif Require Import Base.ZLoop Base.Checked Base.RSum Proj.Model Proj.Spec Pf.Pfaffian Pf.Spec Pf.Proofs Pf.ProofsSeq Slater.Model Slater.Spec Slater.ProofsElm Rbm.Model Rbm.Spec Rbm.Cases Green.Model Green.Spec Green.Cases Fsz.Model Fsz.Spec Fsz.ProofsPf Fsz.ProofsElm Fsz.ProofsDer Gfz.Spec Samp.Prog Samp.Model Samp.Spec Samp.Config Mark.Model Mark.Spec Mark.Words Mark.Reverse Mark.ReverseStd Mark.ReverseFsz Mark.ReturnFsz Mark.WeightFsz Mark.BalanceFsz.
From Verif Require Mark.Cases.
Import ListNotations.
Local Open Scope Z_scope.

Definition Sn : sizes := {| Slater.Model.Nsite := 2; Slater.Model.Ne := 1; NSPGaussLeg := 1; NMPTrans := 1; NQPOptTrans := 1; NSlater := 16 |}.
Definition Qn : qptables := {| QPOptTrans := fun _ r => r; QPOptTransSgn := fun _ _ => 1; QPTrans := fun _ r => r; QPTransSgn := fun _ _ => 1;
  OrbitalIdx := fun a b => 4 * a + b; OrbitalSgn := fun _ _ => 1 |}.
Definition sln (k : Z) : C := RtoC (IZR (k * k)).
Definition onen (_ : Z) : C := RtoC 1.
Definition Tn := Mark.Cases.Tm 2.
Definition Vn : fwave := {| fS := Sn; fQ := Qn; fpara := onen; fflag := false; fopt := onen; fsl := sln; fT := Tn; fProj := fun _ => RtoC (-1) |}.
Definition In' (ex twosz : Z) : input := Input Tn 1 (fun _ => 0) twosz 1 ex 1 1 1 1.
Definition An := update_weights Sn false onen (init_qp_weight Sn 0 (fun _ => 0%R) (fun _ => 0%R) onen false onen).
Definition table_n := update_slater_elm_fsz Sn Qn sln (fun _ => RtoC 0).
(** electron 0 on spin-orbital a, electron 1 on b *)
Definition amp (a b : Z) : R := IZR (15 * (a * a - b * b)).
Definition idxn (a b m : Z) : Z := (if m =? 0 then a else b) mod 2.
Definition spnn (a b m : Z) : Z := (if m =? 0 then a else b) / 2.
Definition wn (a b : Z) : walker :=
  Walker (idxn a b) (fun rs => if rs =? a then 0 else if rs =? b then 1 else -1) (fun rs => if (rs =? a) || (rs =? b) then 1 else 0) (fun _ => if a mod 2 =? b mod 2 then 1 else 0) (spnn a b).
Definition Gn (a b : Z) : env := {| gNsite := 2; gNe := 1; gNQPFull := 1; gT := Tn; gProj := fun _ => RtoC (-1); gFlagRBM := false; gM := Green.Cases.M3; gRBM := fun _ => RtoC 0;
  gclog := principal; gNB := 1; gThreads := 1; gjunk := fun _ _ => RtoC 0; gA := An; gSl := table_n;
  gInvM := fun k => RtoC (if k =? 1 then - / amp a b else if k =? 2 then / amp a b else 0)%R; gPfM := fun _ => RtoC (amp a b) |}.
Definition stn (a b : Z) : fstate := FState (wn a b) (Gn a b) (RtoC (amp a b)) (Scratch (fun _ => 5) (fun _ => RtoC 7) (fun _ => RtoC 9)).
Lemma Vn_valid : valid_fsz Sn Qn false.
Proof.
  unfold valid_fsz, Sn, Qn. cbn [Slater.Model.Nsite Slater.Model.Ne NSPGaussLeg NMPTrans NQPOptTrans NSlater QPOptTrans QPTrans OrbitalIdx]. do 6 (split; [lia|]). split; [reflexivity|]. split; [|split]; intros; lia.
Qed.
Lemma Vn_wf : wf_fwave Vn.
Proof. constructor; cbn [fS fQ fflag fT Vn]; [exact Vn_valid|constructor; cbn; intros; lia|reflexivity]. Qed.
Lemma In_wf ex t : wf_input (In' ex t). Proof. constructor; [constructor; cbn; intros; lia|reflexivity|reflexivity|intros; now left]. Qed.
Lemma In_fits ex t : fits_fsz (In' ex t) Vn. Proof. split; reflexivity. Qed.
Lemma so_eq c : 0 <= c < 4 -> c mod 2 + c / 2 * 2 = c. Proof. intros H. rewrite (Z.div_mod c 2) at 3 by lia. lia. Qed.
Lemma table_is c d : 0 <= c < 4 -> 0 <= d < 4 -> table_n (0 * (2 * 2) * (2 * 2) + c * (2 * 2) + d) = RtoC (amp c d).
Proof.
  intros Hc Hd. pose proof (elements_fsz Sn Qn ltac:(cbn; lia) sln (fun _ => RtoC 0) 0 0 0 c d) as H. unfold projection in H. change ((0 * NMPTrans Sn + 0) * NSPGaussLeg Sn + 0) with 0 in H.
  transitivity (element_fsz 2 Qn sln 0 0 c d); [apply H; [repeat split; cbn; lia|cbn; lia|cbn; lia]|].
  assert (c = 0 \/ c = 1 \/ c = 2 \/ c = 3) as [->|[->|[->| ->]]] by lia; assert (d = 0 \/ d = 1 \/ d = 2 \/ d = 3) as [->|[->|[->| ->]]] by lia;
    unfold element_fsz, pair_fsz, image_fsz, image, sign, sln, Qn, amp; cbn [QPOptTrans QPTrans QPOptTransSgn QPTransSgn OrbitalIdx OrbitalSgn]; apply Ceq; cbn; lra.
Qed.
Section St.
Variables a b : Z.
Hypothesis Ha : 0 <= a < 4.
Hypothesis Hb : 0 <= b < 4.
Hypothesis Hab : a <> b.
Lemma amp_nz : amp a b <> 0%R.
Proof. unfold amp. apply not_0_IZR. nia. Qed.
Lemma so_n m : spin_orbital 2 (idxn a b) (spnn a b) m = if m =? 0 then a else b.
Proof. unfold spin_orbital, idxn, spnn. destruct (m =? 0); rewrite ?so_eq by assumption; reflexivity. Qed.
Lemma pm_n i j : 0 <= i < 2 -> 0 <= j < 2 -> pair_matrix_fsz 2 table_n 0 (idxn a b) (spnn a b) i j = RtoC (if i =? j then 0 else if i =? 0 then amp a b else - amp a b)%R.
Proof.
  intros Hi Hj. unfold pair_matrix_fsz. rewrite !so_n. rewrite table_is by (destruct (_ =? 0); assumption).
  assert (i = 0 \/ i = 1) as [-> | ->] by lia; assert (j = 0 \/ j = 1) as [-> | ->] by lia; cbn [Z.eqb Pos.eqb]; f_equal; unfold amp; rewrite <- ?opp_IZR; try f_equal; try lia.
Qed.
Lemma placed_n : placed 2 (2 * 1) (idxn a b) (spnn a b).
Proof. intros k _. unfold idxn, spnn. split; [apply Z.mod_pos_bound; lia|]. destruct (k =? 0); [assert (a = 0 \/ a = 1 \/ a = 2 \/ a = 3) as [->|[->|[->| ->]]] by lia|assert (b = 0 \/ b = 1 \/ b = 2 \/ b = 3) as [->|[->|[->| ->]]] by lia]; cbn; auto. Qed.
Lemma current_n : current_fsz 2 (2 * 1) table_n 0 1 (idxn a b) (spnn a b) (gInvM (Gn a b)) (gPfM (Gn a b)).
Proof.
  intros q Hq. assert (q = 0) as -> by lia. change (0 + 0) with 0. change (2 * 1) with 2. assert (P := amp_nz). split.
  - change (zrange 0 2) with [0; 1]. rewrite pf_two_by_two, pm_n by lia. reflexivity.
  - apply is_inverse_intro.
    + apply skew_spec. intros i j Hi Hj. unfold stored. cbn [gInvM Gn]. destruct (Mark.Cases.two_m i Hi) as [-> | ->], (Mark.Cases.two_m j Hj) as [-> | ->]; cbn; apply Ceq; cbn; ring.
    + apply skew_spec. intros i j Hi Hj. rewrite !pm_n by lia. destruct (Mark.Cases.two_m i Hi) as [-> | ->], (Mark.Cases.two_m j Hj) as [-> | ->]; cbn; apply Ceq; cbn; ring.
    + apply left_inverse_spec. intros i j Hi Hj. change (zrange 0 2) with [0; 1]. cbn [csum]. rewrite !pm_n by lia. unfold stored, kron. cbn [gInvM Gn].
      destruct (Mark.Cases.two_m i Hi) as [-> | ->], (Mark.Cases.two_m j Hj) as [-> | ->]; cbn; apply Ceq; cbn; try (field; exact P); ring.
Qed.
Lemma ip_n : RtoC (amp a b) = calculate_ip An 0 1 (gPfM (Gn a b)).
Proof.
  symmetry. change (calculate_ip An 0 1 (gPfM (Gn a b))) with (calculate_ip An 0 (Slater.Model.NQPFull Sn) (gPfM (Gn a b))). unfold An. rewrite (ip_fsz Sn Qn 0 (fun _ => 0%R) (fun _ => 0%R) onen onen onen false Vn_valid sln (fun _ => RtoC 0) (gInvM (Gn a b)) (gPfM (Gn a b)) (idxn a b) (spnn a b) placed_n current_n).
  unfold amplitude_fsz. change (zrange 0 (NQPOptTrans Sn)) with [0]. change (zrange 0 (NMPTrans Sn)) with [0]. cbn [csum]. unfold pfaffian_fsz. change (zrange 0 (2 * Slater.Model.Ne Sn)) with [0; 1]. rewrite pf_two_by_two.
  change (Slater.Model.Nsite Sn) with 2. rewrite !so_n. cbn [Z.eqb].
  assert (E : element_fsz 2 Qn sln 0 0 a b = RtoC (amp a b)).
  { assert (a = 0 \/ a = 1 \/ a = 2 \/ a = 3) as [->|[->|[->| ->]]] by lia; assert (b = 0 \/ b = 1 \/ b = 2 \/ b = 3) as [->|[->|[->| ->]]] by lia;
    unfold element_fsz, pair_fsz, image_fsz, image, sign, sln, Qn, amp; cbn [QPOptTrans QPTrans QPOptTransSgn QPTransSgn OrbitalIdx OrbitalSgn]; apply Ceq; cbn; lra. }
  rewrite E. unfold opt_weight, onen. apply Ceq; cbn; ring.
Qed.
Lemma legal_n ex t : legal_fsz (In' ex t) Vn (stn a b).
Proof.
  split; [constructor|split].
  - constructor; try reflexivity; [exists 0, (fun _ => 0%R), (fun _ => 0%R), onen; reflexivity|exists (fun _ => RtoC 0); reflexivity].
  - constructor.
    + intros x Hx. cbn in Hx. exists (idxn a b x), (spnn a b x). split; [reflexivity|]. split; [reflexivity|]. destruct (placed_n x Hx) as (P1 & P2). split; [exact P1|]. split; [destruct P2 as [-> | ->]; lia|].
      change (eleCfg (wn a b) (spin_orbital 2 (idxn a b) (spnn a b) x) = x). rewrite so_n. cbn [wn eleCfg]. destruct (Mark.Cases.two_m x Hx) as [-> | ->]; cbn [Z.eqb]; rewrite Z.eqb_refl; [reflexivity|]. now replace (b =? a) with false by lia.
    + intros r s Hr Hs. change (fsites Vn) with 2 in *. cbn [ftW stn wn eleCfg eleNum eleIdx eleSpn]. change (Slater.Model.Ne (fS Vn)) with 1.
      assert (X : forall c, 0 <= c < 4 -> r + s * 2 = c -> c mod 2 = r /\ c / 2 = s).
      { intros c Hc <-. split; [rewrite Z.mod_add by lia; now apply Z.mod_small|rewrite Z.div_add by lia; rewrite Z.div_small by lia; lia]. }
      destruct (Z.eqb_spec (r + s * 2) a) as [E|E]; [right; exists 0|destruct (Z.eqb_spec (r + s * 2) b) as [E'|E']; [right; exists 1|left; now split]]; cbn [orb]; unfold idxn, spnn; cbn [Z.eqb].
      * destruct (X a Ha E). repeat split; (lia || assumption).
      * destruct (X b Hb E'). repeat split; (lia || assumption).
  - constructor; cbn [fT Vn Tn Mark.Cases.Tm NGutzwillerIdx NJastrowIdx NDoublonHolon2siteIdx NDoublonHolon4siteIdx]; intros; try lia. assert (k = 0) as -> by lia. cbn [ftW stn wn eleProjCnt].
    assert (A : a = 0 \/ a = 1 \/ a = 2 \/ a = 3) by lia; assert (B : b = 0 \/ b = 1 \/ b = 2 \/ b = 3) by lia; destruct A as [->|[->|[->| ->]]], B as [->|[->|[->| ->]]]; (lia || reflexivity).
  - exact current_n.
  - exact ip_n.
  - intros H. apply RtoC_inj in H. now apply amp_nz.
  - exact principal_log.
  - intros r _ H. discriminate H.
Qed.
End St.
(** the twelve configurations *)
Definition L12 : list fstate := flat_map (fun a => map (stn a) (filter (fun b => negb (b =? a)) (zrange 0 4))) (zrange 0 4).
Lemma in_L12 x : In x L12 <-> exists a b, 0 <= a < 4 /\ 0 <= b < 4 /\ a <> b /\ x = stn a b.
Proof.
  unfold L12. rewrite in_flat_map. split.
  - intros (a & Ha & Hx). apply in_map_iff in Hx. destruct Hx as (b & <- & Hb). apply filter_In in Hb. destruct Hb as (Hb & E). apply zrange_in in Ha, Hb. exists a, b. repeat split; lia.
  - intros (a & b & Ha & Hb & E & ->). exists a. split; [now apply zrange_in|]. apply in_map_iff. exists b. split; [reflexivity|]. apply filter_In. split; [now apply zrange_in|lia].
Qed.
Lemma L12_legal ex t x : In x L12 -> legal_fsz (In' ex t) Vn x.
Proof. intros H. apply in_L12 in H. destruct H as (a & b & Ha & Hb & Hab & ->). now apply legal_n. Qed.
Lemma cell_inj a b a' b' : 0 <= a < 4 -> 0 <= b < 4 -> 0 <= a' < 4 -> 0 <= b' < 4 -> (forall m, 0 <= m < 2 -> idxn a b m = idxn a' b' m /\ spnn a b m = spnn a' b' m) -> a = a' /\ b = b'.
Proof.
  intros Ha Hb Ha' Hb' E. split.
  - rewrite <- (so_eq a), <- (so_eq a') by assumption. destruct (E 0 ltac:(lia)) as (X & Y). unfold idxn, spnn in X, Y. cbn [Z.eqb] in X, Y. now rewrite X, Y.
  - rewrite <- (so_eq b), <- (so_eq b') by assumption. destruct (E 1 ltac:(lia)) as (X & Y). unfold idxn, spnn in X, Y. cbn [Z.eqb] in X, Y. now rewrite X, Y.
Qed.
Lemma stn_inj a b a' b' : 0 <= a < 4 -> 0 <= b < 4 -> 0 <= a' < 4 -> 0 <= b' < 4 -> stn a b = stn a' b' -> a = a' /\ b = b'.
Proof.
  intros Ha Hb Ha' Hb' H. apply cell_inj; try assumption. intros m _. split; [change (eleIdx (ftW (stn a b)) m = eleIdx (ftW (stn a' b')) m)|change (eleSpn (ftW (stn a b)) m = eleSpn (ftW (stn a' b')) m)]; now rewrite H.
Qed.
Lemma L12_nodup : NoDup L12.
Proof.
  assert (E : L12 = map (fun ab => stn (fst ab) (snd ab)) [(0,1);(0,2);(0,3);(1,0);(1,2);(1,3);(2,0);(2,1);(2,3);(3,0);(3,1);(3,2)]) by reflexivity. rewrite E.
  assert (R : forall ab, In ab [(0,1);(0,2);(0,3);(1,0);(1,2);(1,3);(2,0);(2,1);(2,3);(3,0);(3,1);(3,2)] -> 0 <= fst ab < 4 /\ 0 <= snd ab < 4).
  { intros ab H. cbn [In] in H. repeat (destruct H as [<-|H]; [cbn; lia|]). contradiction. }
  assert (N : NoDup [(0,1);(0,2);(0,3);(1,0);(1,2);(1,3);(2,0);(2,1);(2,3);(3,0);(3,1);(3,2)]).
  { repeat (constructor; [cbn [In]; intros H; repeat (destruct H as [H|H]); try contradiction; discriminate|]). constructor. }
  revert R. clear E. induction N as [|ab l Hab Hl IH]; intros R; cbn [map]; constructor.
  - intros H. apply in_map_iff in H. destruct H as (cd & Ecd & Hcd). destruct (R ab (or_introl eq_refl)) as (A1 & A2). destruct (R cd (or_intror Hcd)) as (A3 & A4).
    destruct (stn_inj _ _ _ _ A3 A4 A1 A2 Ecd) as (B1 & B2). apply Hab. destruct ab, cd. cbn in B1, B2. now subst.
  - apply IH. intros cd Hcd. apply R. now right.
Qed.
Section Closed.
Variables (ex t : Z) (Orc : oracles) (n : nat).
Let I := In' ex t.
Lemma put_back w1 : (forall m, 0 <= m < 2 -> 0 <= eleIdx w1 m < 2 /\ 0 <= eleSpn w1 m <= 1) -> (eleIdx w1 0 <> eleIdx w1 1 \/ eleSpn w1 0 <> eleSpn w1 1) ->
  exists y, In y L12 /\ same_idx_spn 1 w1 (ftW y) = true.
Proof.
  intros R D. set (a := eleIdx w1 0 + eleSpn w1 0 * 2). set (b := eleIdx w1 1 + eleSpn w1 1 * 2). destruct (R 0 ltac:(lia)) as (R1 & R2). destruct (R 1 ltac:(lia)) as (R3 & R4).
  exists (stn a b). split; [apply in_L12; exists a, b; repeat split; unfold a, b; lia|].
  apply same_idx_spn_spec. intros m Hm. cbn [ftW stn wn eleIdx eleSpn]. unfold idxn, spnn.
  destruct (Mark.Cases.two_m m Hm) as [-> | ->]; cbn [Z.eqb]; unfold a, b; (split; [rewrite Z.mod_add by lia; symmetry; now apply Z.mod_small|rewrite Z.div_add by lia; rewrite Z.div_small by lia; lia]).
Qed.
Lemma propose_fsz_cases r w q p c w1 : consistent_fsz 2 1 w -> locals_single I w -> propose_fsz I (with_stream Orc r n) w q = Some (p, c) -> proposed c = Some w1 ->
  (exists mi ri rj s t, one_facts I w mi ri rj s t /\ w1 = put_elec I mi ri rj s t w) \/
  (exists mi mj ri rj s, two_facts I w mi mj ri rj s /\ w1 = put_elec I mj rj ri (1 - s) (1 - s) (put_elec I mi ri rj s s w)).
Proof.
  intros Hc Hl E Ec. assert (wf := In_wf ex t). fold I in wf. unfold propose_fsz in E.
  destruct (get_update_type I (with_stream Orc r n) q) as (q1, ut).
  assert (ONE : forall gen q2 mi ri rj s t p1 flag, one_fsz I (with_stream Orc r n) w (p1, (mi, ri, rj, s, t), flag) = Some (p, c) ->
    (gen = make_candidate_hopping_fsz I (with_stream Orc r n) w q2 \/ gen = make_candidate_hopping_csz I (with_stream Orc r n) w q2 \/
     gen = make_candidate_flip_localspin I (with_stream Orc r n) w q2 \/ gen = make_candidate_flip_conduction I (with_stream Orc r n) w q2) ->
    gen = Ret (p1, (mi, ri, rj, s, t), flag) -> exists mi ri rj s t, one_facts I w mi ri rj s t /\ w1 = put_elec I mi ri rj s t w).
  { intros gen q2 mi ri rj s t0 p1 flag E1 Hg Eg. unfold one_fsz in E1. destruct (Z.eqb_spec flag 1) as [Ef|Ef]; [injection E1 as _ <-; discriminate|].
    assert (F := one_info I Orc wf n w Hc Hl r q2 p1 mi ri rj s t0 flag gen Hg Eg Ef). assert (F' := F). destruct F' as [F1 F2 F3 F4 F5 F6 F7 F8 _].
    rewrite (update_fsz_eval I Orc wf n r mi ri rj s t0 w F1 F2 F3 F4 F5) in E1. cbn [eval bind] in E1. exists mi, ri, rj, s, t0. split; [exact F|].
    remember (put_elec I mi ri rj s t0 w) as w2. injection E1 as -> <-. cbn [proposed] in Ec. congruence. }
  destruct ut; [| | |injection E as _ <-; discriminate].
  - left. unfold propose_hop_fsz in E. destruct (TwoSz I =? -1); [destruct (_ =? 0)|].
    + destruct (eval (make_candidate_hopping_fsz I (with_stream Orc r n) w (q1 + 1))) as [((p1, ((((mi, ri), rj), s), t0)), flag)|] eqn:Em; [|discriminate]. cbn [bind] in E. apply eval_some in Em.
      exact (ONE _ _ mi ri rj s t0 p1 flag E (or_introl eq_refl) Em).
    + destruct (eval (make_candidate_flip_conduction I (with_stream Orc r n) w (q1 + 1))) as [((p1, ((((mi, ri), rj), s), t0)), flag)|] eqn:Em; [|discriminate]. cbn [bind] in E. apply eval_some in Em.
      exact (ONE _ _ mi ri rj s t0 p1 flag E (or_intror (or_intror (or_intror eq_refl))) Em).
    + destruct (eval (make_candidate_hopping_csz I (with_stream Orc r n) w q1)) as [((p1, ((((mi, ri), rj), s), t0)), flag)|] eqn:Em; [|discriminate]. cbn [bind] in E. apply eval_some in Em.
      exact (ONE _ _ mi ri rj s t0 p1 flag E (or_intror (or_introl eq_refl)) Em).
  - right. unfold propose_exchange_fsz in E. destruct (eval (make_candidate_exchange_fsz I (with_stream Orc r n) w q1)) as [(p1, [(((mi, ri), rj), s)|])|] eqn:Em; [| |discriminate]; cbn [bind] in E; [|injection E as _ <-; discriminate].
    apply eval_some in Em. destruct (exchange_fsz_info I Orc wf n w Hc _ _ _ _ _ _ _ Em) as (mj & F). assert (F' := F). destruct F' as [A1 A2 A3 A4 A5 A6 A7 A8 A9 A10 A11 A12].
    rewrite rd_ok in E by (change (Proj.Model.Nsite (T I)) with 2 in *; nia). cbn [bind] in E. rewrite A12 in E. rewrite (update_fsz_eval I Orc wf n r mi ri rj s s w) in E by assumption. cbn [eval bind] in E.
    rewrite (update_fsz_eval I Orc wf n r mj rj ri (1 - s) (1 - s)) in E by (assumption || lia). cbn [eval bind] in E. exists mi, mj, ri, rj, s. split; [exact F|].
    remember (put_elec I mi ri rj s s w) as w2. remember (put_elec I mj rj ri (1 - s) (1 - s) w2) as w3. injection E as -> <-. cbn [proposed] in Ec. congruence.
  - left. unfold propose_flip_fsz in E. destruct (eval (make_candidate_flip_localspin I (with_stream Orc r n) w q1)) as [((p1, ((((mi, ri), rj), s), t0)), flag)|] eqn:Em; [|discriminate]. cbn [bind] in E. apply eval_some in Em.
    exact (ONE _ _ mi ri rj s t0 p1 flag E (or_intror (or_intror (or_introl eq_refl))) Em).
Qed.
Lemma L12_closed : closed_fsz I Orc n L12.
Proof.
  split; [exact L12_nodup|split].
  - intros x y Hx Hy E. apply in_L12 in Hx, Hy. destruct Hx as (a & b & Ha & Hb & _ & ->), Hy as (a' & b' & Ha' & Hb' & _ & ->).
    destruct (cell_inj a b a' b' Ha Hb Ha' Hb') as (-> & ->); [|reflexivity]. exact (proj1 (same_idx_spn_spec _ _ _) E).
  - intros x l p w1 v Hx Hl E Hp Hv. assert (Lx := L12_legal ex t x Hx). destruct (step_fsz_facts I Vn (In_wf ex t) Vn_wf (In_fits ex t) Orc n x l p w1 v Lx E) as ((c & Ep & Ec) & _).
    assert (Hc : consistent_fsz 2 1 (ftW x)) by exact (fstate_consistent I Vn Vn_wf (In_fits ex t) _ _ _ (proj1 Lx)).
    assert (RG : forall m, 0 <= m < 2 -> 0 <= eleIdx (ftW x) m < 2 /\ 0 <= eleSpn (ftW x) m <= 1 /\ eleCfg (ftW x) (eleIdx (ftW x) m + eleSpn (ftW x) m * 2) = m) by (intros m Hm; exact (elec_range I _ m Hc Hm)).
    destruct (RG 0 ltac:(lia)) as (U1 & U2 & U3). destruct (RG 1 ltac:(lia)) as (U4 & U5 & U6).
    apply put_back; destruct (propose_fsz_cases _ _ _ _ _ _ Hc (proj2 (proj2 Lx)) Ep Ec) as [(mi & ri & rj & s & t0 & [F1 F2 F3 F4 F5 F6 F7 F8 _] & ->)|(mi & mj & ri & rj & s & [A1 A2 A3 A4 A5 A6 A7 A8 A9 A10 A11 A12] & ->)]; unfold put_elec; cbn [eleIdx eleSpn].
    + intros m Hm. rewrite !upd_get. destruct (RG m Hm) as (V1 & V2 & _). destruct (m =? mi); auto.
    + intros m Hm. rewrite !upd_get. destruct (RG m Hm) as (V1 & V2 & _). destruct (m =? mj); [split; [exact A4|lia]|]. destruct (m =? mi); auto.
    + rewrite !upd_get. change (0 <= mi < 2) in F1. destruct (Mark.Cases.two_m mi F1) as [-> | ->]; cbn [Z.eqb Pos.eqb].
      * destruct (Z.eq_dec rj (eleIdx (ftW x) 1)) as [Q|Q]; [|now left]. right. intros Q'. rewrite Q, Q' in F8. change (Proj.Model.Nsite (T I)) with 2 in F8. lia.
      * destruct (Z.eq_dec (eleIdx (ftW x) 0) rj) as [Q|Q]; [|now left]. right. intros Q'. rewrite <- Q, <- Q' in F8. change (Proj.Model.Nsite (T I)) with 2 in F8. lia.
    + right. rewrite !upd_get. change (0 <= mi < 2) in A1. change (0 <= mj < 2) in A2. destruct (Mark.Cases.two_m mi A1) as [-> | ->], (Mark.Cases.two_m mj A2) as [-> | ->]; cbn [Z.eqb Pos.eqb]; lia.
Qed.
End Closed.
