(** Concrete samples for the Lanczos step. *)
From Coq Require Import ZArith List Bool Reals Lia Lra Psatz.
From Coquelicot Require Import Coquelicot.
From Verif Require Import Base.ZLoop Base.RSum Lan.Model Lan.Spec Lan.Proofs Lan.ProofsSum.
Import ListNotations.
Local Open Scope R_scope.

Lemma m_value l h1 i : (0 <= i < 16)%Z -> total l <> 0 ->
  rsum l (fun s => sw s * fst (Cmult (Cconj (lq s ((i / 8) mod 2 * 2 + (i / 2) mod 2)%Z)) (lq s ((i / 4) mod 2 * 2 + i mod 2)%Z))) = total l * h1 -> fst (moments l i) = h1.
Proof.
  intros Hi HW H. rewrite qqqq_entry by exact Hi. cbn [Cmult RtoC fst snd]. rewrite csum_re, Rmult_0_r, Rminus_0_r.
  replace (rsum l _) with (total l * h1); [field; exact HW|]. rewrite <- H. apply rsum_ext. intros s _. cbn [Cmult RtoC fst snd Cconj]. ring.
Qed.
Lemma fdiv_some x y : y <> 0 -> fdiv x y = Some (x / y).
Proof. intros H. unfold fdiv. destruct (Req_EM_T y 0); [contradiction|reflexivity]. Qed.
Lemma ene_done h a b h3 h4 x : 1 + 2 * x * h + x * x * a <> 0 -> (h = 0 \/ / 10 ^ 12 <= Rabs ((1 + 2 * x * h + x * x * a) / h)) ->
  ene_by_alpha h a b h3 h4 x = Done ((h + x * (a + b) + x * x * h3) / (1 + 2 * x * h + x * x * a),
    fdiv ((a + 2 * x * h3 + x * x * h4) / (1 + 2 * x * h + x * x * a) - ((h + x * (a + b) + x * x * h3) / (1 + 2 * x * h + x * x * a)) ^ 2) (((h + x * (a + b) + x * x * h3) / (1 + 2 * x * h + x * x * a)) ^ 2)).
Proof.
  intros H1 H2. unfold ene_by_alpha. cbv zeta. rewrite (fdiv_some _ (1 + 2 * x * h + x * x * a)) by exact H1. destruct (Req_EM_T h 0) as [E|E]; [reflexivity|].
  destruct H2 as [H2|H2]; [contradiction|]. destruct (Rlt_dec _ _) as [L|L]; [lra|reflexivity].
Qed.
Lemma sqrt_of x y : 0 <= y -> y * y = x -> sqrt x = y.
Proof. intros H <-. now apply sqrt_square. Qed.

(** two samples with local energies 1 and 2 *)
Definition r2 : list rsample := [RSample 1 1 (3/2) (fun _ => 3) (fun _ => 2); RSample 1 2 (9/2) (fun i => IZR i) (fun _ => 7)].
Definition l2 : list sample := map embed r2.
Lemma tot2 : total l2 = 2. Proof. cbn. lra. Qed.
Lemma norm2 a : norm l2 a = 2 + 6 * a + 5 * a * a.
Proof. unfold norm. cbn [l2 r2 map rsum]. rewrite !Cmod2. unfold amp. cbn. lra. Qed.
Lemma l2_positive : positive l2.
Proof.
  split; [|split].
  - intros s [<-|[<-|[]]]; cbn; lra.
  - discriminate.
  - intros a. rewrite norm2. assert (X := pow2_ge_0 (a + 3 / 5)). nra.
Qed.
Lemma q2 : fst (moments l2 2) = 3 / 2 /\ fst (moments l2 3) = 5 / 2 /\ fst (moments l2 10) = 3 /\ fst (moments l2 11) = 21 / 4 /\ fst (moments l2 15) = 45 / 4.
Proof. repeat split; apply m_value; try lia; rewrite ?tot2; try lra; cbn; lra. Qed.
Lemma calc2 is_real : choose is_real (calculate_ene (3 / 2) (5 / 2) 3 (21 / 4) (45 / 4)) = Chosen (- 1 / 2) (1 / 2) (Some 1).
Proof.
  unfold calculate_ene. cbv zeta. destruct (Rlt_dec _ _) as [L|_]; [exfalso; lra|]. rewrite (sqrt_of _ (1 / 2)) by lra. rewrite !fdiv_some by lra.
  replace ((- (3 / 2) * (5 / 2) + 21 / 4 + 1 / 2) / (5 / 2 * (5 / 2 + 3) - 2 * (3 / 2) * (21 / 4))) with (-1) by field.
  replace ((- (3 / 2) * (5 / 2) + 21 / 4 - 1 / 2) / (5 / 2 * (5 / 2 + 3) - 2 * (3 / 2) * (21 / 4))) with (- 1 / 2) by field.
  rewrite !ene_done by (try lra; right; rewrite Rabs_pos_eq by lra; lra). cbn [choose]. destruct (Rlt_dec _ _) as [L|L]; [|exfalso; lra].
  rewrite fdiv_some by lra. f_equal; [|f_equal]; field.
Qed.
Lemma l2_chosen : lanczos l2 = Chosen (- 1 / 2) (1 / 2) (Some 1).
Proof. unfold lanczos. cbv zeta. destruct q2 as (-> & -> & -> & -> & ->). apply calc2. Qed.
Lemma r2_chosen : rlanczos r2 = Chosen (- 1 / 2) (1 / 2) (Some 1).
Proof. rewrite rlanczos_eq. fold l2. destruct q2 as (-> & -> & -> & -> & ->). apply calc2. Qed.
Lemma energy2 a : energy l2 a = (3 + 11 * a + 21 / 2 * a * a) / (2 + 6 * a + 5 * a * a).
Proof. unfold energy. rewrite norm2. f_equal. cbn. lra. Qed.
Lemma energy2_derive x : is_derive (energy l2) x ((-4 - 12 * x - 8 * x * x) * - 1 / (2 + 6 * x + 5 * x * x) ^ 2).
Proof.
  apply (is_derive_ext (fun a => (3 + 11 * a + 21 / 2 * a * a) / (2 + 6 * a + 5 * a * a))); [intros; symmetry; apply energy2|].
  assert (2 + 6 * x + 5 * x * x <> 0) by (assert (X := pow2_ge_0 (x + 3 / 5)); nra). auto_derive; [exact H|]. field. exact H.
Qed.
Lemma value2 : value l2 0 (- 1 / 2) = RtoC 4.
Proof. unfold l2. rewrite rvalue by exact l2_positive. fold l2. rewrite norm2. f_equal. cbn. field. Qed.

(** two samples for which the quadratic equation for the mixing is linear *)
Definition deg : list sample := [Sample 1 (RtoC 1) (RtoC 0) (fun _ => RtoC 0) (fun _ => RtoC 0); Sample 1 (RtoC (-1)) (RtoC (-2)) (fun _ => RtoC 0) (fun _ => RtoC 0)].
Lemma totd : total deg = 2. Proof. cbn. lra. Qed.
Lemma normd a : norm deg a = 2 + 2 * a * a.
Proof. unfold norm. cbn [deg rsum]. rewrite !Cmod2. unfold amp. cbn. lra. Qed.
Lemma energyd a : energy deg a = a * a / (1 + a * a).
Proof. unfold energy. rewrite normd. assert (X : 1 + a * a <> 0) by nra. assert (Y : 2 + 2 * a * a <> 0) by nra. cbn. field. split; [exact X|nra]. Qed.
Lemma degenerate : exists l, positive l /\ (exists a, minimum (energy l) a) /\ lanczos l = Infinite.
Proof.
  exists deg. split; [|split].
  - split; [intros s [<-|[<-|[]]]; cbn; lra|]. split; [discriminate|]. intros a. rewrite normd. nra.
  - exists 0. split.
    + apply (is_derive_ext (fun a => a * a / (1 + a * a))); [intros; symmetry; apply energyd|]. auto_derive; [lra|]. field.
    + intros b. rewrite !energyd. replace (0 * 0 / (1 + 0 * 0)) with 0 by field. apply Rmult_le_pos; [nra|]. left. apply Rinv_0_lt_compat. nra.
  - unfold lanczos. cbv zeta.
    assert (Q : fst (moments deg 2) = 0 /\ fst (moments deg 3) = 1 /\ fst (moments deg 10) = -1 /\ fst (moments deg 11) = 1 /\ fst (moments deg 15) = 2).
    { repeat split; apply m_value; try lia; rewrite ?totd; try lra; cbn; lra. }
    destruct Q as (-> & -> & -> & -> & ->). unfold calculate_ene. cbv zeta. destruct (Rlt_dec _ _) as [L|_]; [exfalso; lra|].
    unfold fdiv at 1. destruct (Req_EM_T _ 0) as [E|E]; [reflexivity|]. exfalso. apply E. ring.
Qed.

(** the same two samples in units in which energies are large *)
Definition M := 10 ^ 13.
Lemma Mv : M = 10000000000000. Proof. unfold M. lra. Qed.
Lemma Mp : 0 < M. Proof. rewrite Mv. lra. Qed.
Definition rbig : list rsample := [RSample 1 M (3 / 2 * (M * M)) (fun _ => 0) (fun _ => 0); RSample 1 (2 * M) (9 / 2 * (M * M)) (fun _ => 0) (fun _ => 0)].
Definition lbig := map embed rbig.
Lemma totb : total lbig = 2. Proof. cbn. lra. Qed.
Lemma normb a : norm lbig a = 2 + 6 * (a * M) + 5 * (a * M) * (a * M).
Proof. unfold norm. cbn [lbig rbig map rsum]. rewrite !Cmod2. unfold amp. cbn [embed sh1 rh1 RtoC Cplus Cmult fst snd sw rw]. ring. Qed.
Lemma energyb a : energy lbig a = M * (3 + 11 * (a * M) + 21 / 2 * (a * M) * (a * M)) / (2 + 6 * (a * M) + 5 * (a * M) * (a * M)).
Proof. unfold energy. rewrite normb. f_equal. cbn [lbig rbig map rsum]. unfold amp, h_amp. cbn [embed sh1 sh2 rh1 rh2 RtoC Cplus Cmult Cconj fst snd sw rw]. field. Qed.
Lemma garbage : exists l, positive (map embed l) /\ (exists a, minimum (energy (map embed l)) a) /\ rlanczos l = Garbage.
Proof.
  exists rbig. fold lbig. assert (HM := Mp). assert (HPb : positive lbig).
  { split; [intros s [<-|[<-|[]]]; cbn; lra|]. split; [discriminate|]. intros a. rewrite normb. assert (X := pow2_ge_0 (a * M + 3 / 5)). nra. }
  split; [exact HPb|]. split.
  - exists (- 1 / (2 * M)). split.
    + apply (is_derive_ext (fun a => M * (3 + 11 * (a * M) + 21 / 2 * (a * M) * (a * M)) / (2 + 6 * (a * M) + 5 * (a * M) * (a * M)))); [intros; symmetry; apply energyb|].
      assert (E : - 1 / (2 * M) * M = - 1 / 2) by (field; lra). auto_derive; [rewrite E; lra|]. rewrite E. field.
    + intros b. rewrite !energyb. replace (- 1 / (2 * M) * M) with (- 1 / 2) by (field; lra). set (t := b * M). replace (M * (3 + 11 * (-1 / 2) + 21 / 2 * (-1 / 2) * (-1 / 2)) / (2 + 6 * (-1 / 2) + 5 * (-1 / 2) * (-1 / 2))) with (M * (1 / 2)) by field.
      assert (X : 0 < 2 + 6 * t + 5 * t * t) by (assert (X := pow2_ge_0 (t + 3 / 5)); nra). apply (Rmult_le_reg_r (2 + 6 * t + 5 * t * t)); [exact X|].
      replace (M * (3 + 11 * t + 21 / 2 * t * t) / (2 + 6 * t + 5 * t * t) * (2 + 6 * t + 5 * t * t)) with (M * (3 + 11 * t + 21 / 2 * t * t)) by (field; lra).
      rewrite Rmult_assoc. apply Rmult_le_compat_l; [lra|]. assert (Y := pow2_ge_0 (1 + 2 * t)). nra.
  - rewrite rlanczos_eq. fold lbig.
    assert (Q : fst (moments lbig 2) = 3 / 2 * M /\ fst (moments lbig 3) = 5 / 2 * M ^ 2 /\ fst (moments lbig 10) = 3 * M ^ 2 /\ fst (moments lbig 11) = 21 / 4 * M ^ 3 /\ fst (moments lbig 15) = 45 / 4 * M ^ 4).
    { repeat split; (apply m_value; [lia|rewrite totb; lra|]); rewrite totb; cbn -[M]; field. }
    destruct Q as (-> & -> & -> & -> & ->). unfold calculate_ene. cbv zeta.
    set (CC := 5 / 2 * M ^ 2 * (5 / 2 * M ^ 2 + 3 * M ^ 2) ^ 2 - _ + _ - _ + _). assert (HC : CC = (M ^ 3 / 2) * (M ^ 3 / 2)) by (unfold CC; field). rewrite HC.
    assert (HM3 : 0 < M ^ 3) by (apply pow_lt; exact HM). assert (HM4 : 0 < M ^ 4) by (apply pow_lt; exact HM).
    destruct (Rlt_dec _ 0) as [L|_]; [exfalso; nra|]. rewrite sqrt_square by lra.
    assert (HA : 5 / 2 * M ^ 2 * (5 / 2 * M ^ 2 + 3 * M ^ 2) - 2 * (3 / 2 * M) * (21 / 4 * M ^ 3) = - 2 * M ^ 4) by field. rewrite HA.
    rewrite !fdiv_some by lra. unfold ene_by_alpha at 1. cbv zeta. destruct (Req_EM_T (3 / 2 * M) 0) as [E|_]; [exfalso; lra|].
    replace ((- (3 / 2 * M) * (5 / 2 * M ^ 2) + 21 / 4 * M ^ 3 + M ^ 3 / 2) / (-2 * M ^ 4)) with (- / M) by (field; lra).
    replace ((1 + 2 * - / M * (3 / 2 * M) + - / M * - / M * (5 / 2 * M ^ 2)) / (3 / 2 * M)) with (/ (3 * M)) by (field; lra).
    destruct (Rlt_dec _ _) as [_|L]; [reflexivity|]. exfalso. apply L. rewrite Mv. rewrite Rabs_pos_eq by lra. lra.
Qed.

(** one sample with an imaginary local energy *)
Definition im1 : list sample := [Sample 1 Ci (RtoC 0) (fun _ => Ci) (fun _ => RtoC 0)].
Lemma normi a : norm im1 a = 1 + a * a.
Proof. unfold norm. cbn [im1 rsum]. rewrite Cmod2. unfold amp. cbn. ring. Qed.
Lemma im1_positive : positive im1.
Proof. split; [intros s [<-|[]]; cbn; lra|]. split; [discriminate|]. intros a. rewrite normi. nra. Qed.
Lemma im1_chosen : lanczos im1 = Chosen (-1) (- 1 / 2) (Some 1).
Proof.
  assert (T : total im1 = 1) by (cbn; lra).
  unfold lanczos. cbv zeta. assert (Q : fst (moments im1 2) = 0 /\ fst (moments im1 3) = 1 /\ fst (moments im1 10) = 0 /\ fst (moments im1 11) = 0 /\ fst (moments im1 15) = 0).
  { repeat split; apply m_value; try lia; rewrite ?T; try lra; cbn; lra. }
  destruct Q as (-> & -> & -> & -> & ->). unfold calculate_ene. cbv zeta. destruct (Rlt_dec _ _) as [L|_]; [exfalso; lra|]. rewrite (sqrt_of _ 1) by lra. rewrite !fdiv_some by lra.
  replace ((- 0 * 1 + 0 + 1) / (1 * (1 + 0) - 2 * 0 * 0)) with 1 by field. replace ((- 0 * 1 + 0 - 1) / (1 * (1 + 0) - 2 * 0 * 0)) with (-1) by field.
  rewrite !ene_done by (try lra; now left). cbn [choose]. destruct (Rlt_dec _ _) as [L|L]; [|exfalso; lra]. rewrite fdiv_some by lra. f_equal; [|f_equal]; field.
Qed.
Lemma im1_value : value im1 0 (-1) = (- 1 / 2, 1 / 2).
Proof. unfold value. rewrite normi. cbn [im1 csum sw sA sHA]. unfold amp, Cdiv, Ci. rewrite <- RtoC_inv by lra. apply injective_projections; cbn; field. Qed.
Definition out0 : Z -> C := fun _ => RtoC 0.
Lemma im1_two : phys_val_fcmp (moments im1 2) (moments im1 3) (-1) (dc_moments 1 im1) 1 NLSHam out0 0 = (1 / 2, 1 / 2).
Proof.
  unfold phys_val_fcmp. cbv zeta. rewrite (loop_upd_out 1 (fun i => Cdiv _ _)) by lia. rewrite (dnorm_eq im1 im1_positive), normi.
  replace 0%Z with ((0 * 2 + 0) * 1 + 0)%Z at 1 by lia. rewrite (dc_entry 1 ltac:(lia)) by lia.
  replace (1 + 0)%Z with ((0 * 2 + 1) * 1 + 0)%Z by lia. rewrite (dc_entry 1 ltac:(lia)) by lia.
  replace (NLSHam * 1 + 0)%Z with ((1 * 2 + 0) * 1 + 0)%Z by (unfold NLSHam; lia). rewrite (dc_entry 1 ltac:(lia)) by lia.
  replace (NLSHam * 1 + 1 + 0)%Z with ((1 * 2 + 1) * 1 + 0)%Z by (unfold NLSHam; lia). rewrite (dc_entry 1 ltac:(lia)) by lia.
  replace (total im1) with 1 by (cbn; lra). unfold Cdiv. rewrite <- RtoC_inv by lra. cbn [im1 csum sw sA sHA sh1]. unfold pick, Ci. cbn [Z.eqb]. apply injective_projections; cbn; field.
Qed.
Lemma one_refuted : exists l a e v n i, positive l /\ lanczos l = Chosen a e v /\ (0 <= i < n)%Z /\
  phys_val_fcmp (moments l 2) (moments l 3) a (op_moments n l) n NLSHam out0 i <> value l i a.
Proof.
  exists im1, (-1), (- 1 / 2), (Some 1), 1%Z, 0%Z. split; [exact im1_positive|]. split; [exact im1_chosen|]. split; [lia|]. rewrite (one_body im1 im1_positive) by lia. rewrite im1_value.
  intros E. apply (f_equal snd) in E. cbn in E. lra.
Qed.
Lemma two_refuted : exists l a e v n i, positive l /\ lanczos l = Chosen a e v /\ (0 <= i < n)%Z /\
  let y := phys_val_fcmp (moments l 2) (moments l 3) a (dc_moments n l) n NLSHam out0 i in y <> value l i a /\ y <> Cconj (value l i a).
Proof.
  exists im1, (-1), (- 1 / 2), (Some 1), 1%Z, 0%Z. split; [exact im1_positive|]. split; [exact im1_chosen|]. split; [lia|]. cbv zeta. rewrite im1_two, im1_value.
  split; intros E; apply (f_equal fst) in E; cbn in E; lra.
Qed.
Lemma reported_case : is_derive (energy l2) (-1) 0 /\ is_derive (energy l2) (- 1 / 2) 0 /\ energy l2 (-1) <> energy l2 (- 1 / 2) /\
  (energy l2 0 = 0 \/ forall z, is_derive (energy l2) z 0 -> / 10 ^ 12 <= Rabs (norm l2 z / norm l2 0 / energy l2 0)).
Proof.
  split; [|split; [|split]].
  - replace 0 with ((-4 - 12 * -1 - 8 * -1 * -1) * - 1 / (2 + 6 * -1 + 5 * -1 * -1) ^ 2) by field. apply energy2_derive.
  - replace 0 with ((-4 - 12 * (-1/2) - 8 * (-1/2) * (-1/2)) * - 1 / (2 + 6 * (-1/2) + 5 * (-1/2) * (-1/2)) ^ 2) by field. apply energy2_derive.
  - rewrite !energy2. lra.
  - right. intros z _. rewrite energy2, !norm2.
    assert (X := pow2_ge_0 (z + 3 / 5)). assert (Y : 1 / 5 <= 2 + 6 * z + 5 * z * z) by nra.
    replace ((2 + 6 * z + 5 * z * z) / (2 + 6 * 0 + 5 * 0 * 0) / ((3 + 11 * 0 + 21 / 2 * 0 * 0) / (2 + 6 * 0 + 5 * 0 * 0))) with ((2 + 6 * z + 5 * z * z) / 3) by field.
    rewrite Rabs_pos_eq by lra. lra.
Qed.
