(** Two sites with antiperiodic boundary, two electrons of the same spin (Gfz/Cases.v), the walker after the translation, and a
    symmetric Hamiltonian that flips spins. *)
From Coq Require Import ZArith List Bool Lia Reals Lra Permutation.
From Coquelicot Require Import Complex.
From Verif Require Import Base.ZLoop Base.RSum Proj.Model Proj.Spec Proj.Proofs Pf.Pfaffian Pf.Spec Pf.Proofs Pf.ProofsSeq Slater.Model Slater.Spec Slater.Proofs Slater.ProofsElm Samp.Model Samp.Spec Green.Model Green.Spec Ham.Model
  Fsz.Model Fsz.Spec Fsz.ProofsPf Fsz.ProofsElm Fsz.ProofsDiff Fsz.ProofsDer Fsz.Cases Gfz.Model Gfz.Spec Gfz.Proofs Gfz.Cases Hfz.Model Hfz.Spec Sym.Spec Inv.Spec Ifz.Spec Ifz.ProofsRun.
From Verif Require Green.Cases Inv.Cases SR.Proofs.
Notation Ceq := SR.Proofs.Ceq (only parsing).
Import ListNotations.
Local Open Scope Z_scope.

(** ** the translation is a symmetry *)
Definition swap (k : Z) : Z := (k + 1) mod 2.
Lemma swap_permutes : permutes 2 swap.
Proof. split; [intros k _; apply Z.mod_pos_bound; lia|]. intros k l Hk Hl E. unfold swap in E. unfold Sym.Spec.site in *. pose proof (Z.div_mod (k + 1) 2). pose proof (Z.div_mod (l + 1) 2). lia. Qed.
Lemma other_permutes : permutes 2 (fun r => 1 - r). Proof. split; unfold Sym.Spec.site; intros; lia. Qed.
Lemma Vg_symmetry : fsymmetry Vg 1.
Proof.
  split; [|split; [|discriminate]].
  - exists swap. constructor.
    + change (0 <= 1 < 2). lia.
    + exact other_permutes.
    + exact swap_permutes.
    + intros m r Hm Hr. change (0 <= m < 2) in Hm. change (0 <= r < 2) in Hr. destruct (two_f m Hm) as [-> | ->], (two_f r Hr) as [-> | ->]; reflexivity.
    + intros m Hm. change (0 <= m < 2) in Hm. exists (if m =? 0 then 1 else -1). split; [destruct (m =? 0); auto|]. intros r Hr. change (0 <= r < 2) in Hr. destruct (two_f m Hm) as [-> | ->], (two_f r Hr) as [-> | ->]; reflexivity.
    + intros r Hr. change (0 <= r < 2) in Hr. destruct (two_f r Hr) as [-> | ->]; [now left|now right].
    + intros m _. cbn. unfold one_f. apply Ceq; cbn; ring.
    + reflexivity.
    + intros o r _ Hr. change (0 <= r < 2) in Hr. destruct (two_f r Hr) as [-> | ->]; reflexivity.
  - constructor; cbn [vT lattice fT Vg Tg NGutzwillerIdx NJastrowIdx NDoublonHolon2siteIdx NDoublonHolon4siteIdx GutzwillerIdx]; unfold Sym.Spec.site; intros; (reflexivity || lia).
Qed.
Lemma Vg_unit : Cmod (fpara Vg 1) = 1%R. Proof. change (Cmod (RtoC 1) = 1%R). rewrite Cmod_R. apply Rabs_R1. Qed.

(** ** the walker after the translation *)
Definition idx_t (k : Z) : Z := 1 - k.
Definition Pf_t (_ : Z) : C := RtoC 15.
Definition Inv_t (k : Z) : C := RtoC (if k mod 4 =? 1 then - / 15 else if k mod 4 =? 2 then / 15 else 0)%R.
Definition Gt : env := {| gNsite := 2; gNe := 1; gNQPFull := 2; gT := Tg; gProj := fun _ => RtoC (-1); gFlagRBM := false; gM := Green.Cases.M3; gRBM := fun _ => RtoC 0;
  gclog := fun z => z; gNB := 1; gThreads := 1; gjunk := fun _ _ => RtoC 0; gA := A_f; gSl := table_f; gInvM := Inv_t; gPfM := Pf_t |}.
Definition wt (cnt : Z -> Z) : walker := Walker idx_t (fun rs => if rs <? 2 then 1 - rs else -1) eg cnt spn_f.
Lemma placed_t : placed (Slater.Model.Nsite S_f) (2 * Slater.Model.Ne S_f) idx_t spn_f.
Proof. intros k Hk. change (0 <= k < 2) in Hk. unfold idx_t, spn_f. change (Slater.Model.Nsite S_f) with 2. split; [lia|now left]. Qed.
Lemma pm_t q i j : 0 <= q < 2 -> 0 <= i < 2 -> 0 <= j < 2 -> pair_matrix_fsz 2 table_f (q + 0) idx_t spn_f i j = RtoC (if i =? j then 0 else if i =? 0 then 15 else -15).
Proof.
  intros Hq Hi Hj. unfold pair_matrix_fsz. rewrite Z.add_0_r. apply table_value; try assumption; try (unfold spin_orbital, idx_t, spn_f; lia).
  destruct (two_f q Hq) as [-> | ->], (two_f i Hi) as [-> | ->], (two_f j Hj) as [-> | ->]; elem; apply Ceq; cbn; lra.
Qed.
Lemma stored_t q i j : 0 <= q < 2 -> 0 <= i < 2 -> 0 <= j < 2 -> stored 2 Inv_t q i j = RtoC (if i =? j then 0 else if i =? 0 then - / 15 else / 15)%R.
Proof. intros Hq Hi Hj. destruct (two_f q Hq) as [-> | ->], (two_f i Hi) as [-> | ->], (two_f j Hj) as [-> | ->]; reflexivity. Qed.
Lemma current_t : current_fsz (Slater.Model.Nsite S_f) (2 * Slater.Model.Ne S_f) table_f 0 (Slater.Model.NQPFull S_f) idx_t spn_f Inv_t Pf_t.
Proof.
  intros q Hq. change (Slater.Model.NQPFull S_f - 0) with 2 in Hq. change (Slater.Model.Nsite S_f) with 2. change (2 * Slater.Model.Ne S_f) with 2. split.
  - change (zrange 0 2) with [0; 1]. rewrite pf_two_by_two, pm_t by lia. reflexivity.
  - apply is_inverse_intro.
    + apply skew_spec. intros i j Hi Hj. rewrite !stored_t by lia. destruct (two_f i Hi) as [-> | ->], (two_f j Hj) as [-> | ->]; cbn; apply Ceq; cbn; ring.
    + apply skew_spec. intros i j Hi Hj. rewrite !pm_t by lia. destruct (two_f i Hi) as [-> | ->], (two_f j Hj) as [-> | ->]; cbn; apply Ceq; cbn; ring.
    + apply left_inverse_spec. intros i j Hi Hj. change (zrange 0 2) with [0; 1]. cbn [csum]. rewrite !stored_t, !pm_t by lia.
      unfold kron. destruct (two_f i Hi) as [-> | ->], (two_f j Hj) as [-> | ->]; cbn [Z.eqb Pos.eqb]; apply Ceq; cbn; lra.
Qed.
Lemma pfaffian_t m : 0 <= m < 2 -> pfaffian_fsz S_f T_f sl_f (spin_orbital 2 idx_t spn_f) 0 m = RtoC 15.
Proof.
  intros Hm. unfold pfaffian_fsz. change (zrange 0 (2 * Slater.Model.Ne S_f)) with [0; 1]. rewrite pf_two_by_two. change (Slater.Model.Nsite S_f) with 2.
  destruct (two_f m Hm) as [-> | ->]; elem; apply Ceq; cbn; lra.
Qed.
Lemma amp_t : amplitude_fsz S_f T_f one_f (opt_weight false one_f) sl_f (spin_orbital (Slater.Model.Nsite S_f) idx_t spn_f) = RtoC 30.
Proof.
  unfold amplitude_fsz. change (zrange 0 (NQPOptTrans S_f)) with [0]. change (zrange 0 (NMPTrans S_f)) with [0; 1]. change (Slater.Model.Nsite S_f) with 2. cbn [csum].
  rewrite !pfaffian_t by lia. unfold opt_weight, one_f. apply Ceq; cbn; lra.
Qed.
Lemma Vg_loaded_t : loaded Vg Gt.
Proof.
  constructor; try reflexivity.
  - exists 0, (fun _ => 0%R), (fun _ => 0%R), one_f. reflexivity.
  - exists (fun _ => RtoC 0). reflexivity.
Qed.
Lemma Vg_sampled_t : exists cnt, sampled_fsz Vg Gt (wt cnt) (RtoC 30).
Proof.
  destruct (make_correct Tg (wf_T Vg Vg_wf) eg eg_occ (fun _ => 0)) as (cnt & _ & Hcnt & _). exists cnt. constructor.
  - exact Vg_loaded_t.
  - constructor.
    + intros x Hx. cbn in Hx. exists (1 - x), 0. destruct (two_f x Hx) as [-> | ->]; cbn; repeat split; try reflexivity; lia.
    + intros r s Hr Hs. cbn in Hr. destruct (two_f r Hr) as [-> | ->]; assert (s = 0 \/ s = 1) as [-> | ->] by lia; cbn;
        (left; split; reflexivity) || (right; exists 0; repeat split; (reflexivity || lia)) || (right; exists 1; repeat split; (reflexivity || lia)).
  - exact Hcnt.
  - exact current_t.
  - symmetry. change (calculate_ip A_f 0 (Slater.Model.NQPFull S_f) Pf_t = RtoC 30). unfold A_f.
    rewrite (ip_fsz S_f T_f 0 (fun _ => 0%R) (fun _ => 0%R) one_f one_f one_f false valid_f sl_f (fun _ => RtoC 0) Inv_t Pf_t idx_t spn_f placed_t current_t). exact amp_t.
  - intros H. apply RtoC_inj in H. lra.
Qed.
Lemma displaced_t cnt cnt' : displaced Vg 1 (wg cnt) (wt cnt').
Proof. intros i Hi. change (In i [0; 1]) in Hi. destruct Hi as [<-|[<-|[]]]; reflexivity. Qed.

(** ** a Hamiltonian with every kind of term: spins flip with the hopping and on the site, both ways *)
Definition hop_s (k c : Z) : Z := nth (Z.to_nat c) (nth (Z.to_nat k) [[0; 0; 1; 1]; [1; 0; 0; 1]; [0; 0; 0; 1]; [1; 0; 1; 1]; [1; 1; 0; 0]; [0; 1; 1; 0]; [0; 1; 0; 0]; [1; 1; 1; 0]] []) 0.
Definition amp_s (k : Z) : Z := if (k =? 1) || (k =? 5) then -1 else 1.
Definition four_s (k c : Z) : Z := nth (Z.to_nat c) (if k =? 0 then [0; 0; 0; 1; 1; 1; 1; 0] else [1; 0; 1; 1; 0; 1; 0; 0]) 0.
Definition H_s : terms := Terms 2 (fun k => k) (fun _ => 5%R) 1 (fun _ c => c) (fun _ => 1%R) 1 (fun _ c => c) (fun _ => 2%R) 8 hop_s (fun k => RtoC (IZR (amp_s k)))
  2 (fun k c => (k + c) mod 2) (fun _ => 3%R) 1 (fun _ c => c) (fun _ => 4%R) 2 four_s (fun _ => RtoC 6).
(** rows exchanged by the translation *)
Definition twin (k : Z) : Z := nth (Z.to_nat k) [1; 0; 3; 2; 5; 4; 7; 6] 0.
Lemma eight k : 0 <= k < 8 -> k = 0 \/ k = 1 \/ k = 2 \/ k = 3 \/ k = 4 \/ k = 5 \/ k = 6 \/ k = 7. Proof. lia. Qed.
Ltac each8 H := destruct (eight _ H) as [-> |[-> |[-> |[-> |[-> |[-> |[-> | ->]]]]]]].
Lemma twin_permutes : permutes 8 twin.
Proof. split; [intros k Hk; change (0 <= k < 8) in Hk; each8 Hk; cbv; intuition discriminate|]. intros k l Hk Hl. change (0 <= k < 8) in Hk. change (0 <= l < 8) in Hl. each8 Hk; each8 Hl; cbv; (reflexivity || discriminate). Qed.
Lemma id_permutes : permutes 1 (fun k => k). Proof. split; auto. Qed.
Lemma H_s_sites : fsites_ok (fsites Vg) H_s.
Proof.
  constructor; cbn [H_s NIntra Intra NInter Inter NHund Hund NTransfer Transfer NPair Pair NExchange Exchange NInterAll InterAll]; intros k Hk; unfold fsite, site_spin; change (fsites Vg) with 2.
  - lia.
  - lia.
  - lia.
  - each8 Hk; cbv; intuition discriminate.
  - destruct (two_f k Hk) as [-> | ->]; cbv; intuition discriminate.
  - lia.
  - destruct (two_f k Hk) as [-> | ->]; cbv; intuition discriminate.
Qed.
Lemma H_s_symmetric : symmetric_files (lattice Vg) 1 H_s.
Proof.
  constructor; unfold H_s; cbn [NIntra Intra ParaIntra NInter Inter ParaInter NHund Hund ParaHund NTransfer Transfer ParaTransfer NPair Pair ParaPair NExchange Exchange ParaExchange NInterAll InterAll ParaInterAll]; cbv zeta.
  - apply (Inv.Cases.kept_by _ _ _ swap swap_permutes). intros k Hk. f_equal. destruct (two_f k Hk) as [-> | ->]; reflexivity.
  - apply (Inv.Cases.kept_by _ _ _ _ id_permutes). reflexivity.
  - apply (Inv.Cases.kept_by _ _ _ _ id_permutes). reflexivity.
  - apply (Inv.Cases.kept_by _ _ _ twin twin_permutes). intros k Hk. rewrite <- Inv.Cases.scale1. f_equal; [do 2 f_equal|]; each8 Hk; reflexivity.
  - apply (Inv.Cases.kept_by _ _ _ swap swap_permutes). intros k Hk. f_equal. destruct (two_f k Hk) as [-> | ->]; reflexivity.
  - apply (Inv.Cases.kept_by _ _ _ _ id_permutes). reflexivity.
  - apply (Inv.Cases.kept_by _ _ _ swap swap_permutes). intros k Hk. rewrite <- !mult_IZR. f_equal; [|destruct (two_f k Hk) as [-> | ->]; reflexivity].
    destruct (two_f k Hk) as [-> | ->]; match goal with |- Cmult _ (RtoC (IZR ?z)) = _ => change z with 1 end; apply Ceq; cbn; ring.
Qed.
(** one thread, first iteration first; or two threads, the second of which does everything backwards *)
Definition P_s (w0 : fwork) : fsched := FSched 1 (fun l _ => zrange 0 (fcount H_s l)) (fun _ => w0).
Lemma P_s_ok w0 : fexecution (fcount H_s) (P_s w0).
Proof. intros l Hl. change (zrange 0 (fthreads (P_s w0))) with [0]. cbn. rewrite app_nil_r. apply Permutation_refl. Qed.
Definition P_b (w0 : fwork) : fsched := FSched 2 (fun l t => if t =? 0 then [] else rev (zrange 0 (fcount H_s l))) (fun _ => w0).
Lemma P_b_ok w0 : fexecution (fcount H_s) (P_b w0).
Proof. intros l Hl. change (zrange 0 (fthreads (P_b w0))) with [0; 1]. cbn. rewrite app_nil_r. apply Permutation_sym, Permutation_rev. Qed.
