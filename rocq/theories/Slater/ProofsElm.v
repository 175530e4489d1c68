From Coq Require Import ZArith List Bool Lia Reals Lra.
From Coquelicot Require Import Complex.
From Verif Require Import Base.ZLoop Base.RSum Pf.Pfaffian Pf.Spec Pf.Proofs Slater.Model Slater.Spec Slater.Proofs.
Import ListNotations.
Local Open Scope Z_scope.

Lemma Ceq (x y : C) : fst x = fst y -> snd x = snd y -> x = y.
Proof. destruct x, y. cbn. congruence. Qed.
(** four writes *)
Lemma four_at (n q rx ry : Z) (E : Z -> C) v00 v01 v10 v11 ri rj sx sy : let N := 2 * n in
  0 <= rx < n -> 0 <= ry < n -> 0 <= ri < n -> 0 <= rj < n -> (sx = 0 \/ sx = 1) -> (sy = 0 \/ sy = 1) ->
  upd (upd (upd (upd E (q * N * N + ri * N + rj) v00) (q * N * N + ri * N + (rj + n)) v01) (q * N * N + (ri + n) * N + rj) v10) (q * N * N + (ri + n) * N + (rj + n)) v11
    (pos N q (rx + sx * n) (ry + sy * n)) =
  if (rx =? ri) && (ry =? rj) then (if sx =? 0 then (if sy =? 0 then v00 else v01) else (if sy =? 0 then v10 else v11)) else E (pos N q (rx + sx * n) (ry + sy * n)).
Proof.
  intros N Hrx Hry Hri Hrj Hsx Hsy. unfold upd.
  change (q * N * N + ri * N + rj) with (pos N q ri rj). change (q * N * N + ri * N + (rj + n)) with (pos N q ri (rj + n)).
  change (q * N * N + (ri + n) * N + rj) with (pos N q (ri + n) rj). change (q * N * N + (ri + n) * N + (rj + n)) with (pos N q (ri + n) (rj + n)).
  assert (B : forall r s, 0 <= r < n -> s = 0 \/ s = 1 -> 0 <= r + s * n < N) by (intros r s Hr [->| ->]; subst N; lia).
  rewrite !pos_eqb by (try apply B; auto; subst N; lia). rewrite Z.eqb_refl. cbn [andb].
  destruct Hsx as [-> | ->], Hsy as [-> | ->]; cbn [Z.eqb];
  destruct (Z.eqb_spec rx ri), (Z.eqb_spec ry rj); cbn [andb];
  repeat match goal with |- context [?a =? ?b] => destruct (Z.eqb_spec a b); cbn [andb] end; try reflexivity; lia.
Qed.
Lemma four_other (n q q' x y : Z) (E : Z -> C) v00 v01 v10 v11 ri rj : let N := 2 * n in
  0 <= x < N -> 0 <= y < N -> 0 <= ri < n -> 0 <= rj < n -> q' <> q ->
  upd (upd (upd (upd E (q' * N * N + ri * N + rj) v00) (q' * N * N + ri * N + (rj + n)) v01) (q' * N * N + (ri + n) * N + rj) v10) (q' * N * N + (ri + n) * N + (rj + n)) v11 (pos N q x y)
  = E (pos N q x y).
Proof.
  intros N Hx Hy Hri Hrj Hne. rewrite !upd_other; [reflexivity| | | |]; intros C0; apply pos_inj in C0; try lia; subst N; lia.
Qed.

Section Elements.
Variables (S : sizes) (T : qptables) (stot : Z) (beta weight : Z -> R) (para opt0 opt : Z -> C) (flag : bool).
Hypothesis HV : valid S T flag.
Let A := update_weights S flag opt (init_qp_weight S stot beta weight para flag opt0).
Variables (sl E0 : Z -> C).
Let N := 2 * Nsite S.

Lemma spin_site n x : 0 < n -> 0 <= x < 2 * n -> exists r s, 0 <= r < n /\ (s = 0 \/ s = 1) /\ x = r + s * n /\ x mod n = r /\ x / n = s.
Proof.
  intros Hn Hx. exists (x mod n), (x / n). assert (H1 := Z.mod_pos_bound x n Hn). assert (H2 := Z.div_mod x n ltac:(lia)).
  split; [assumption|]. split; [|split; [lia|tauto]].
  assert (0 <= x / n) by (apply Z.div_pos; lia). assert (x / n < 2) by (apply Z.div_lt_upper_bound; lia). lia.
Qed.
Lemma elements o m s x y : in_range S o m s -> 0 <= x < N -> 0 <= y < N ->
  update_slater_elm S T A sl E0 (pos N (projection S o m s) x y) = element (Nsite S) T sl o m (half S beta s) x y.
Proof.
  intros HR Hx Hy. destruct HV as (HN & HNe & HG & HM & HO & HSl & Hflag & HT1 & HT2 & HOr).
  destruct (spin_site (Nsite S) x HN Hx) as (rx & sx & Hrx & Hsx & Ex & Emx & Edx).
  destruct (spin_site (Nsite S) y HN Hy) as (ry & sy & Hry & Hsy & Ey & Emy & Edy).
  unfold update_slater_elm.
  apply (loop_hit 0 (NQPFull S) _ (fun E : Z -> C => E (pos N (projection S o m s) x y)) (projection S o m s)); [now apply projection_range| |].
  - intros E. destruct (projection_parts S o m s HR) as (-> & -> & -> & _). cbv zeta.
    apply (loop_hit 0 (Nsite S) _ (fun E : Z -> C => E (pos N (projection S o m s) x y)) rx); [assumption| |].
    + intros E1. cbv beta. apply (loop_hit 0 (Nsite S) _ (fun E : Z -> C => E (pos N (projection S o m s) x y)) ry); [assumption| |].
      * intros E2. cbv beta. rewrite Ex, Ey. unfold Nsite2, N. rewrite four_at by assumption. rewrite !Z.eqb_refl. cbn [andb].
        destruct (init_angles S stot beta weight para opt0 flag HG s) as (Acs & Acc & Ass); [apply HR|].
        unfold A, A0 in *. cbn [update_weights SPGLCosSin SPGLCosCos SPGLSinSin]. rewrite Acs, Acc, Ass.
        unfold element. rewrite <- Ex, <- Ey, Emx, Edx, Emy, Edy. unfold pair, image, sign, up, down.
        rewrite !mult_IZR, !RtoC_mult.
        destruct Hsx as [-> | ->], Hsy as [-> | ->]; cbn [Z.eqb]; rewrite ?RtoC_opp; try ring.
      * intros rj E2 Hrj Hne. cbv beta. rewrite Ex, Ey. unfold Nsite2, N. rewrite four_at by assumption.
        destruct (Z.eqb_spec ry rj); [lia|]. now rewrite andb_false_r.
    + intros ri E1 Hri Hne. cbv beta. apply (loop_miss 0 (Nsite S) _ (fun E : Z -> C => E (pos N (projection S o m s) x y))).
      intros rj E2 Hrj. cbv beta. rewrite Ex, Ey. unfold Nsite2, N. rewrite four_at by assumption.
      destruct (Z.eqb_spec rx ri); [lia|]. reflexivity.
  - intros q E Hq Hne. cbv zeta. apply (loop_miss 0 (Nsite S) _ (fun E : Z -> C => E (pos N (projection S o m s) x y))). intros ri E1 Hri.
    apply (loop_miss 0 (Nsite S) _ (fun E : Z -> C => E (pos N (projection S o m s) x y))). intros rj E2 Hrj.
    unfold Nsite2, N in *. rewrite four_other by assumption. reflexivity.
Qed.
Lemma element_skew o m h x y : element (Nsite S) T sl o m h y x = Copp (element (Nsite S) T sl o m h x y).
Proof. unfold element. cbv zeta. rewrite !RtoC_mult. ring. Qed.
Lemma table_skew q : 0 <= q < NQPFull S -> skew_table (Nsite S) (update_slater_elm S T A sl E0) q.
Proof.
  intros Hq x y Hx Hy. destruct (projection_surj S q) as (o & m & s & HR & ->); [apply HV|apply HV|assumption|].
  fold N in Hx, Hy |- *. change (update_slater_elm S T A sl E0 (pos N (projection S o m s) y x) = Copp (update_slater_elm S T A sl E0 (pos N (projection S o m s) x y))).
  rewrite !elements by assumption. apply element_skew.
Qed.
End Elements.
