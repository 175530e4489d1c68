From Coq Require Import ZArith List Bool Lia Reals Lra.
From Coquelicot Require Import Complex.
From Verif Require Import Base.ZLoop Base.RSum Pf.Pfaffian Pf.Spec Pf.Proofs Slater.Model Slater.Spec Slater.Proofs Slater.ProofsElm Fsz.Model Fsz.Spec.
Import ListNotations.
Local Open Scope Z_scope.

Lemma site_spin n x : 0 < n -> 0 <= x < 2 * n -> exists r s, 0 <= r < n /\ (s = 0 \/ s = 1) /\ x = r + s * n /\ x mod n = r /\ x / n = s.
Proof.
  intros Hn Hx. exists (x mod n), (x / n). assert (H1 := Z.mod_pos_bound x n Hn). assert (H2 := Z.div_mod x n ltac:(lia)).
  split; [assumption|]. split; [|split; [lia|tauto]].
  assert (0 <= x / n) by (apply Z.div_pos; lia). assert (x / n < 2) by (apply Z.div_lt_upper_bound; lia). lia.
Qed.
Section Elements.
Variables (S : sizes) (T : qptables).
Hypothesis HN : 0 < Nsite S.
Variables (sl E0 : Z -> C).
Let N := 2 * Nsite S.
Lemma elements_fsz o m s x y : in_range S o m s -> 0 <= x < N -> 0 <= y < N ->
  update_slater_elm_fsz S T sl E0 (pos N (projection S o m s) x y) = element_fsz (Nsite S) T sl o m x y.
Proof.
  intros HR Hx Hy.
  destruct (site_spin (Nsite S) x HN Hx) as (rx & sx & Hrx & Hsx & Ex & Emx & Edx).
  destruct (site_spin (Nsite S) y HN Hy) as (ry & sy & Hry & Hsy & Ey & Emy & Edy).
  unfold update_slater_elm_fsz.
  apply (loop_hit 0 (NQPFull S) _ (fun E : Z -> C => E (pos N (projection S o m s) x y)) (projection S o m s)); [now apply projection_range| |].
  - intros E. destruct (projection_parts S o m s HR) as (-> & -> & _ & _). cbv zeta.
    apply (loop_hit 0 (Nsite S) _ (fun E : Z -> C => E (pos N (projection S o m s) x y)) rx); [assumption| |].
    + intros E1. cbv beta. apply (loop_hit 0 (Nsite S) _ (fun E : Z -> C => E (pos N (projection S o m s) x y)) ry); [assumption| |].
      * intros E2. cbv beta. rewrite Ex, Ey. unfold Nsite2, N. rewrite four_at by assumption. rewrite !Z.eqb_refl. cbn [andb].
        unfold element_fsz, pair_fsz, image_fsz. rewrite <- Ex, <- Ey, Emx, Edx, Emy, Edy. unfold image, sign.
        rewrite !mult_IZR, !RtoC_mult.
        destruct Hsx as [-> | ->], Hsy as [-> | ->]; cbn [Z.eqb]; rewrite ?Z.mul_0_l, ?Z.add_0_r, ?Z.mul_1_l; ring.
      * intros rj E2 Hrj Hne. cbv beta. rewrite Ex, Ey. unfold Nsite2, N. rewrite four_at by assumption.
        destruct (Z.eqb_spec ry rj); [lia|]. now rewrite andb_false_r.
    + intros ri E1 Hri Hne. cbv beta. apply (loop_miss 0 (Nsite S) _ (fun E : Z -> C => E (pos N (projection S o m s) x y))).
      intros rj E2 Hrj. cbv beta. rewrite Ex, Ey. unfold Nsite2, N. rewrite four_at by assumption.
      destruct (Z.eqb_spec rx ri); [lia|]. reflexivity.
  - intros q E Hq Hne. cbv zeta. apply (loop_miss 0 (Nsite S) _ (fun E : Z -> C => E (pos N (projection S o m s) x y))). intros ri E1 Hri.
    apply (loop_miss 0 (Nsite S) _ (fun E : Z -> C => E (pos N (projection S o m s) x y))). intros rj E2 Hrj.
    unfold Nsite2, N in *. rewrite four_other by assumption. reflexivity.
Qed.
Lemma element_fsz_skew o m x y : element_fsz (Nsite S) T sl o m y x = Copp (element_fsz (Nsite S) T sl o m x y).
Proof. unfold element_fsz. ring. Qed.
Lemma table_fsz_skew q : 0 < NSPGaussLeg S -> 0 < NMPTrans S -> 0 <= q < NQPFull S -> skew_table (Nsite S) (update_slater_elm_fsz S T sl E0) q.
Proof.
  intros HG HM Hq x y Hx Hy. destruct (projection_surj S q) as (o & m & s & HR & ->); [assumption..|].
  fold N in Hx, Hy |- *. change (update_slater_elm_fsz S T sl E0 (pos N (projection S o m s) y x) = Copp (update_slater_elm_fsz S T sl E0 (pos N (projection S o m s) x y))).
  rewrite !elements_fsz by assumption. apply element_fsz_skew.
Qed.
End Elements.
