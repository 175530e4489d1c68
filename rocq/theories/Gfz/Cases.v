(** The case of Fsz/Cases.v with a Gutzwiller factor: a hop that flips the spin and makes a doublon. *)
From Coq Require Import ZArith List Bool Lia Reals Lra.
From Coquelicot Require Import Complex.
From Verif Require Import Base.ZLoop Base.RSum Proj.Model Proj.Spec Proj.Proofs Pf.Pfaffian Pf.Spec Pf.Proofs Pf.ProofsSeq Slater.Model Slater.Spec Slater.Proofs Slater.ProofsElm Samp.Model Samp.Spec Green.Model Green.Spec Fsz.Model Fsz.Spec Fsz.ProofsPf Fsz.ProofsElm Fsz.ProofsDiff Fsz.ProofsDer Fsz.Cases Gfz.Model Gfz.Spec Gfz.Proofs.
From Verif Require Green.Cases.
Import ListNotations.
Local Open Scope Z_scope.

Definition Tg : Proj.Model.tables := {| Proj.Model.Nsite := 2; NGutzwillerIdx := 1; NJastrowIdx := 0; NDoublonHolon2siteIdx := 0; NDoublonHolon4siteIdx := 0;
  GutzwillerIdx := fun _ => 0; JastrowIdx := fun _ _ => 0; DoublonHolon2siteIdx := fun _ _ => 0; DoublonHolon4siteIdx := fun _ _ => 0 |}.
Definition Vg : fwave := {| fS := S_f; fQ := T_f; fpara := one_f; fflag := false; fopt := one_f; fsl := sl_f; fT := Tg; fProj := fun _ => RtoC (-1) |}.
Definition Gg : env := {| gNsite := 2; gNe := 1; gNQPFull := 2; gT := Tg; gProj := fun _ => RtoC (-1); gFlagRBM := false; gM := Green.Cases.M3; gRBM := fun _ => RtoC 0;
  gclog := fun z => z; gNB := 1; gThreads := 1; gjunk := fun _ _ => RtoC 0; gA := A_f; gSl := table_f; gInvM := Inv_f; gPfM := Pf_f |}.
Definition eg (rs : Z) : Z := if rs <? 2 then 1 else 0.
Definition wg (cnt : Z -> Z) : walker := Walker idx_f (fun rs => if rs <? 2 then rs else -1) eg cnt spn_f.
Lemma Vg_wf : wf_fwave Vg.
Proof. constructor; cbn [fS fQ fflag fT Vg]; [exact valid_f|constructor; cbn; intros; lia|reflexivity]. Qed.
Lemma eg_occ : occ01 2 eg. Proof. intros rs _. unfold eg. destruct (rs <? 2); auto. Qed.
Lemma Vg_loaded : loaded Vg Gg.
Proof.
  constructor; try reflexivity.
  - exists 0, (fun _ => 0%R), (fun _ => 0%R), one_f. reflexivity.
  - exists (fun _ => RtoC 0). reflexivity.
Qed.
Lemma Vg_sampled : exists cnt, sampled_fsz Vg Gg (wg cnt) (RtoC (-30)).
Proof.
  destruct (make_correct Tg (wf_T Vg Vg_wf) eg eg_occ (fun _ => 0)) as (cnt & _ & Hcnt & _). exists cnt. constructor.
  - exact Vg_loaded.
  - constructor.
    + intros x Hx. cbn in Hx. exists x, 0. destruct (two_f x Hx) as [-> | ->]; cbn; repeat split; try reflexivity; lia.
    + intros r s Hr Hs. cbn in Hr. destruct (two_f r Hr) as [-> | ->]; assert (s = 0 \/ s = 1) as [-> | ->] by lia; cbn;
        (left; split; reflexivity) || (right; exists 0; repeat split; (reflexivity || lia)) || (right; exists 1; repeat split; (reflexivity || lia)).
  - exact Hcnt.
  - exact current_f.
  - symmetry. change (calculate_ip A_f 0 (Slater.Model.NQPFull S_f) Pf_f = RtoC (-30)). unfold A_f.
    rewrite (ip_fsz S_f T_f 0 (fun _ => 0%R) (fun _ => 0%R) one_f one_f one_f false valid_f sl_f (fun _ => RtoC 0) Inv_f Pf_f idx_f spn_f placed_f current_f). exact amp_f.
  - intros H. apply RtoC_inj in H. lra.
Qed.
Definition kg : fwork := FWork idx_f spn_f eg (fun _ => 7) (fun _ => RtoC 5).
Lemma kg_starts cnt : starts_fsz (wg cnt) kg. Proof. repeat split. Qed.
(** the electron on site 1 hops to site 0 and flips: amplitude -30 becomes -180 times e^{-1} *)
Definition xg (m : Z) : Z := if m =? 1 then 2 else 0.
Lemma pfg m : 0 <= m < 2 -> pfaffian_fsz S_f T_f sl_f xg 0 m = RtoC (if m =? 0 then -60 else -120).
Proof.
  intros Hm. unfold pfaffian_fsz. change (zrange 0 (2 * Slater.Model.Ne S_f)) with [0; 1]. rewrite pf_two_by_two. change (Slater.Model.Nsite S_f) with 2. unfold xg.
  destruct (two_f m Hm) as [-> | ->]; elem; apply Ceq; cbn; lra.
Qed.
Lemma ampg : amplitude_fsz S_f T_f one_f (opt_weight false one_f) sl_f xg = RtoC (-180).
Proof.
  unfold amplitude_fsz. change (zrange 0 (NQPOptTrans S_f)) with [0]. change (zrange 0 (NMPTrans S_f)) with [0; 1]. cbn [csum].
  rewrite !pfg by lia. unfold opt_weight, one_f. apply Ceq; cbn; lra.
Qed.
Lemma amplitude_fsz_ext' x y : (forall m, 0 <= m < 2 -> x m = y m) -> amplitude_fsz S_f T_f one_f (opt_weight false one_f) sl_f x = amplitude_fsz S_f T_f one_f (opt_weight false one_f) sl_f y.
Proof.
  intros H. unfold amplitude_fsz. apply csum_ext. intros o _. apply csum_ext. intros m _. f_equal. unfold pfaffian_fsz. change (zrange 0 (2 * Slater.Model.Ne S_f)) with [0; 1].
  rewrite !pf_two_by_two. now rewrite !H by lia.
Qed.
Lemma fpsi_g x d : (forall m, 0 <= m < 2 -> x m = d m) -> spec_gutz Tg (foccupation [0; 1] x) 0 = spec_gutz Tg (foccupation [0; 1] d) 0 ->
  fpsi Vg x = Cmult (RtoC (exp (- IZR (spec_gutz Tg (foccupation [0; 1] d) 0)))) (amplitude_fsz S_f T_f one_f (opt_weight false one_f) sl_f d).
Proof.
  intros H E. unfold fpsi, fpairs. cbn [fS fQ fpara fflag fopt fsl Vg]. rewrite (amplitude_fsz_ext' x d H). f_equal. f_equal. unfold fcorrelation. f_equal. cbn [fT fProj Vg].
  change (zrange 0 (NProj Tg)) with [0]. change (flabels Vg) with [0; 1]. cbn [rsum]. change (counter Tg (foccupation [0; 1] x) 0) with (spec_gutz Tg (foccupation [0; 1] x) 0).
  rewrite E. cbn. ring.
Qed.
Lemma value_g cnt : flocal Vg [(2, 1)] (config Vg (wg cnt)) = RtoC (6 * exp (-1)).
Proof.
  unfold flocal. change (flabels Vg) with [0; 1]. cbn [fstring]. unfold fact. cbn [csum fst snd].
  change (config Vg (wg cnt) 0 =? 1) with false. change (config Vg (wg cnt) 1 =? 1) with true. cbn iota.
  rewrite (fpsi_g (config Vg (wg cnt)) (spin_orbital 2 idx_f spn_f)) by reflexivity.
  rewrite (fpsi_g (upd (config Vg (wg cnt)) 1 2) xg); [|intros m Hm; destruct (two_f m Hm) as [-> | ->]; reflexivity|reflexivity].
  rewrite ampg. change 2 with (Slater.Model.Nsite S_f) at 1 2. rewrite amp_f.
  change (spec_gutz Tg (foccupation [0; 1] xg) 0) with 1. change (spec_gutz Tg (foccupation [0; 1] (spin_orbital (Slater.Model.Nsite S_f) idx_f spn_f)) 0) with 0.
  rewrite Ropp_0, exp_0. replace (exp (- (1))) with (exp (-1)) by (f_equal; lra). unfold Cconj, Cdiv, RtoC, Cinv, Cmult, Cplus. cbn. f_equal; field.
Qed.
