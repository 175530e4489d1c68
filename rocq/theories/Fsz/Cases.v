(** A concrete case: two sites with antiperiodic translation, two electrons of the same spin, sixteen pair parameters;
    one electron then hops to the other site and flips its spin. *)
From Coq Require Import ZArith List Bool Lia Reals Lra.
From Coquelicot Require Import Complex.
From Verif Require Import Base.ZLoop Base.RSum Pf.Pfaffian Pf.Spec Pf.Proofs Pf.ProofsSeq Fsz.Model Slater.Model Slater.Spec Slater.Proofs Slater.ProofsElm Slater.ProofsDiff Slater.ProofsDer Fsz.Spec Fsz.ProofsPf Fsz.ProofsElm Fsz.ProofsDiff Fsz.ProofsDer.
Import ListNotations.
Local Open Scope Z_scope.

Definition S_f : sizes := {| Nsite := 2; Ne := 1; NSPGaussLeg := 1; NMPTrans := 2; NQPOptTrans := 1; NSlater := 16 |}.
Definition T_f : qptables := {| QPOptTrans := fun _ r => r; QPOptTransSgn := fun _ _ => 1; QPTrans := fun m r => if m =? 0 then r else 1 - r;
  QPTransSgn := fun m r => if (m =? 1) && (r =? 1) then -1 else 1; OrbitalIdx := fun a b => 4 * a + b; OrbitalSgn := fun _ _ => 1 |}.
Definition sl_f (k : Z) : C := RtoC (IZR (k * k)).
Definition one_f (_ : Z) : C := RtoC 1.
Definition idx_f (k : Z) : Z := k.
Definition spn_f (_ : Z) : Z := 0.
Definition Pf_f (q : Z) : C := RtoC (-15).
Definition Inv_f (k : Z) : C := RtoC (if k mod 4 =? 1 then / 15 else if k mod 4 =? 2 then - / 15 else 0)%R.
Definition A_f := update_weights S_f false one_f (init_qp_weight S_f 0 (fun _ => 0%R) (fun _ => 0%R) one_f false one_f).
Definition table_f := update_slater_elm_fsz S_f T_f sl_f (fun _ => RtoC 0).

Lemma valid_f : valid_fsz S_f T_f false.
Proof.
  unfold valid_fsz, S_f, T_f. cbn [Nsite Ne NSPGaussLeg NMPTrans NQPOptTrans NSlater QPOptTrans QPTrans OrbitalIdx]. do 6 (split; [lia|]). split; [reflexivity|]. split; [|split].
  - intros o r _ Hr. lia.
  - intros m r _ Hr. destruct (m =? 0); lia.
  - intros a b Ha Hb. lia.
Qed.
Lemma placed_f : placed (Nsite S_f) (2 * Ne S_f) idx_f spn_f.
Proof. intros k Hk. unfold idx_f, spn_f. cbn in *. split; [lia|now left]. Qed.
Lemma two_f q : 0 <= q < 2 -> q = 0 \/ q = 1. Proof. lia. Qed.
Lemma table_value q x y v : 0 <= q < 2 -> 0 <= x < 4 -> 0 <= y < 4 -> element_fsz 2 T_f sl_f 0 q x y = v -> table_f (q * (2 * 2) * (2 * 2) + x * (2 * 2) + y) = v.
Proof.
  intros Hq Hx Hy <-. pose proof (elements_fsz S_f T_f ltac:(cbn; lia) sl_f (fun _ => RtoC 0) 0 q 0 x y) as H. unfold projection in H. change (NMPTrans S_f) with 2 in H. change (NSPGaussLeg S_f) with 1 in H.
  replace ((0 * 2 + q) * 1 + 0) with q in H by ring. apply H; cbn; try lia. repeat split; cbn; lia.
Qed.
Ltac elem := unfold element_fsz, pair_fsz, image_fsz, image, sign, sl_f, T_f; cbn [QPOptTrans QPTrans QPOptTransSgn QPTransSgn OrbitalIdx OrbitalSgn].
Lemma pm_f q i j : 0 <= q < 2 -> 0 <= i < 2 -> 0 <= j < 2 -> pair_matrix_fsz 2 table_f (q + 0) idx_f spn_f i j = RtoC (if i =? j then 0 else if i =? 0 then -15 else 15).
Proof.
  intros Hq Hi Hj. unfold pair_matrix_fsz. rewrite Z.add_0_r. apply table_value; try assumption; try (unfold spin_orbital, idx_f, spn_f; lia).
  destruct (two_f q Hq) as [-> | ->], (two_f i Hi) as [-> | ->], (two_f j Hj) as [-> | ->]; elem; apply Ceq; cbn; lra.
Qed.
Lemma stored_f q i j : 0 <= q < 2 -> 0 <= i < 2 -> 0 <= j < 2 -> stored 2 Inv_f q i j = RtoC (if i =? j then 0 else if i =? 0 then / 15 else - / 15)%R.
Proof. intros Hq Hi Hj. destruct (two_f q Hq) as [-> | ->], (two_f i Hi) as [-> | ->], (two_f j Hj) as [-> | ->]; reflexivity. Qed.
Lemma current_f : current_fsz (Nsite S_f) (2 * Ne S_f) table_f 0 (NQPFull S_f) idx_f spn_f Inv_f Pf_f.
Proof.
  intros q Hq. change (NQPFull S_f - 0) with 2 in Hq. change (Nsite S_f) with 2. change (2 * Ne S_f) with 2. split.
  - change (zrange 0 2) with [0; 1]. rewrite pf_two_by_two, pm_f by lia. reflexivity.
  - apply is_inverse_intro.
    + apply skew_spec. intros i j Hi Hj. rewrite !stored_f by lia. destruct (two_f i Hi) as [-> | ->], (two_f j Hj) as [-> | ->]; cbn; apply Ceq; cbn; ring.
    + apply skew_spec. intros i j Hi Hj. rewrite !pm_f by lia. destruct (two_f i Hi) as [-> | ->], (two_f j Hj) as [-> | ->]; cbn; apply Ceq; cbn; ring.
    + apply left_inverse_spec. intros i j Hi Hj. change (zrange 0 2) with [0; 1]. cbn [csum]. rewrite !stored_f, !pm_f by lia.
      unfold kron. destruct (two_f i Hi) as [-> | ->], (two_f j Hj) as [-> | ->]; cbn [Z.eqb Pos.eqb]; apply Ceq; cbn; lra.
Qed.
Lemma skew_f q : 0 <= q < NQPFull S_f - 0 -> skew_table 2 table_f (q + 0).
Proof. intros Hq. apply (table_fsz_skew S_f T_f); cbn; try lia. change (NQPFull S_f - 0) with 2 in Hq. change (NQPFull S_f) with 2. lia. Qed.

(** the electron hops and flips its spin *)
Definition move_f : fmove := FOne 1 0 1.
Lemma moved_pf q : 0 <= q < 2 -> pf (pair_matrix_fsz 2 table_f (q + 0) (moved_idx idx_f move_f) (moved_spn spn_f move_f)) (zrange 0 2) = RtoC (if q =? 0 then -60 else -120).
Proof.
  intros Hq. change (zrange 0 2) with [0; 1]. rewrite pf_two_by_two. replace (q + 0) with q by ring. apply (table_value q 0 2); try assumption; try lia.
  destruct (two_f q Hq) as [-> | ->]; elem; apply Ceq; cbn; lra.
Qed.
Lemma regular_f : regular_fsz 2 2 table_f 0 (NQPFull S_f) (moved_idx idx_f move_f) (moved_spn spn_f move_f).
Proof. intros q Hq. change (NQPFull S_f - 0) with 2 in Hq. rewrite moved_pf by assumption. intros E. apply RtoC_inj in E. destruct (q =? 0); lra. Qed.
Lemma case_moves : Forall (legal_fsz 2 2) [move_f] /\ all_regular_fsz 2 2 table_f 0 (NQPFull S_f) idx_f spn_f [move_f] /\
  snd (snd (fold_left (accept_fsz 2 2 table_f 0 (NQPFull S_f)) [move_f] ((idx_f, spn_f), (Inv_f, Pf_f)))) 1 = RtoC (-120).
Proof.
  assert (Hl : Forall (legal_fsz 2 2) [move_f]) by (repeat constructor; cbn; lia).
  assert (Hr : all_regular_fsz 2 2 table_f 0 (NQPFull S_f) idx_f spn_f [move_f]) by (split; [exact regular_f|exact I]).
  split; [exact Hl|]. split; [exact Hr|].
  pose proof (any_moves 2 1 table_f 0 (NQPFull S_f) [move_f] ltac:(lia) skew_f idx_f spn_f Inv_f Pf_f placed_f current_f Hl Hr) as H.
  change (2 * 1) with 2 in H. destruct (fold_left (accept_fsz 2 2 table_f 0 (NQPFull S_f)) [move_f] ((idx_f, spn_f), (Inv_f, Pf_f))) as ((i, s), st).
  destruct H as (-> & -> & H). destruct (H 1 ltac:(change (NQPFull S_f - 0) with 2; lia)) as (E & _). cbn [snd]. rewrite E. exact (moved_pf 1 ltac:(lia)).
Qed.

Lemma pfaffian_f m : 0 <= m < 2 -> pfaffian_fsz S_f T_f sl_f (spin_orbital 2 idx_f spn_f) 0 m = RtoC (-15).
Proof.
  intros Hm. unfold pfaffian_fsz. change (zrange 0 (2 * Ne S_f)) with [0; 1]. rewrite pf_two_by_two. change (Nsite S_f) with 2.
  destruct (two_f m Hm) as [-> | ->]; elem; apply Ceq; cbn; lra.
Qed.
Lemma amp_f : amplitude_fsz S_f T_f one_f (opt_weight false one_f) sl_f (spin_orbital (Nsite S_f) idx_f spn_f) = RtoC (-30).
Proof.
  unfold amplitude_fsz. change (zrange 0 (NQPOptTrans S_f)) with [0]. change (zrange 0 (NMPTrans S_f)) with [0; 1]. change (Nsite S_f) with 2. cbn [csum].
  rewrite !pfaffian_f by lia. unfold opt_weight, one_f. apply Ceq; cbn; lra.
Qed.
Lemma amp_f_ne : amplitude_fsz S_f T_f one_f (opt_weight false one_f) sl_f (spin_orbital (Nsite S_f) idx_f spn_f) <> RtoC 0.
Proof. rewrite amp_f. intros E. apply RtoC_inj in E. lra. Qed.
Lemma derivative_f : slater_elm_diff_fsz S_f T_f A_f Inv_f Pf_f (calculate_ip A_f 0 (NQPFull S_f) Pf_f) idx_f spn_f (fun _ => RtoC 0) 2 = RtoC (- / 15).
Proof.
  unfold A_f. rewrite (ip_fsz S_f T_f 0 (fun _ => 0%R) (fun _ => 0%R) one_f one_f one_f false valid_f sl_f (fun _ => RtoC 0) Inv_f Pf_f idx_f spn_f placed_f current_f), amp_f.
  change 2 with (2 * 1). rewrite (proj1 (diff_fsz S_f T_f 0 (fun _ => 0%R) (fun _ => 0%R) one_f one_f one_f false valid_f Inv_f Pf_f (RtoC (-30)) idx_f spn_f (fun _ => RtoC 0) placed_f 1 ltac:(cbn; lia))).
  change (zrange 0 (NQPOptTrans S_f)) with [0]. change (zrange 0 (NMPTrans S_f)) with [0; 1]. cbn [csum].
  unfold contribution_fsz. change (zrange 0 (2 * Ne S_f)) with [0; 1]. cbn [csum]. change (projection S_f 0 0 0) with 0. change (projection S_f 0 1 0) with 1.
  change (2 * Ne S_f) with 2. change (Nsite S_f) with 2. rewrite !stored_f by lia.
  unfold opt_weight, one_f, Pf_f, iz, pair_fsz, image_fsz, image, sign, T_f. cbn -[Rinv]. apply Ceq; cbn -[Rinv]; field.
Qed.
