(** Proofs about the Lanczos step. *)
From Coq Require Import ZArith List Bool Reals Lia Lra Psatz.
From Coquelicot Require Import Coquelicot.
From Verif Require Import Base.ZLoop Base.RSum Lan.Model Lan.Spec.
Import ListNotations.
Local Open Scope R_scope.

(** ** ratio of two quadratics *)
Section Ratio.
Variables (h a b h3 h4 : R).
Let N x := h + x * (a + b) + x * x * h3.
Let D x := 1 + 2 * x * h + x * x * a.
Hypothesis HD : forall x, 0 < D x.
Let E x := N x / D x.
Let AA := a * (a + b) - 2 * h * h3.
Let BB := - h * a + h3.
Let CC := a * (a + b) ^ 2 - h ^ 2 * a * (a + 2 * b) + 4 * h ^ 3 * h3 - 2 * h * (2 * a + b) * h3 + h3 * h3.

Lemma a_pos : AA <> 0 -> 0 < a.
Proof.
  intros HA. destruct (Rlt_dec 0 a) as [H|H]; [exact H|exfalso].
  destruct (Req_EM_T a 0) as [E0|E0].
  - apply HA. unfold AA. rewrite E0. destruct (Req_EM_T h 0) as [E1|E1]; [rewrite E1; ring|exfalso].
    specialize (HD (- / h)). unfold D in HD. rewrite E0 in HD. replace (1 + 2 * - / h * h + - / h * - / h * 0) with (-1) in HD by (field; exact E1). lra.
  - assert (Ha : a < 0) by lra.
    (* D (x) with x large negative or positive *)
    assert (X := HD ((Rabs h + 1) * 2 / (- a) + 1)). assert (Y := HD (- ((Rabs h + 1) * 2 / (- a) + 1))). unfold D in X, Y.
    set (t := (Rabs h + 1) * 2 / (- a) + 1) in *.
    assert (Ht : t * (- a) = (Rabs h + 1) * 2 - a) by (unfold t; field; lra).
    assert (Hp := Rabs_pos h).
    assert (Ht1 : 1 <= t). { unfold t. assert (0 <= (Rabs h + 1) * 2 / - a); [|lra]. apply Rmult_le_pos; [lra|]. left. apply Rinv_0_lt_compat. lra. }
    assert (t * t * a = - t * ((Rabs h + 1) * 2 - a)) by (rewrite <- Ht; ring).
    nra.
Qed.
Lemma h_small : AA <> 0 -> h * h < a.
Proof.
  intros HA. assert (Ha := a_pos HA). specialize (HD (- h / a)). unfold D in HD.
  replace (1 + 2 * (- h / a) * h + - h / a * (- h / a) * a) with ((a - h * h) / a) in HD by (field; lra).
  assert (X := Rmult_lt_0_compat _ _ HD Ha). unfold Rdiv in X. rewrite Rmult_assoc, Rinv_l in X by lra. lra.
Qed.
Lemma CC_pos : AA <> 0 -> 0 < CC.
Proof.
  intros HA. assert (Ha := a_pos HA). assert (Hh := h_small HA).
  set (d := (a - h * h) / (a * a)). set (n0 := h - (a + b) * h / a + h3 * h * h / (a * a)). set (n1 := AA / a).
  assert (Ed : 0 < d). { unfold d. apply Rdiv_lt_0_compat; [lra|now apply Rmult_lt_0_compat]. }
  assert (En : n1 <> 0). { unfold n1. intros X. apply HA. replace AA with (AA / a * a) by (field; lra). rewrite X. ring. }
  replace CC with (a * a * ((h3 * d - n0) ^ 2 + n1 * n1 * d)).
  - apply Rmult_lt_0_compat; [now apply Rmult_lt_0_compat|]. assert (Y1 : 0 < n1 * n1) by (apply Rsqr_pos_lt; exact En). assert (Y2 : 0 < n1 * n1 * d) by (apply Rmult_lt_0_compat; assumption). assert (Y3 := pow2_ge_0 (h3 * d - n0)). lra.
  - unfold CC, d, n0, n1, AA. field. lra.
Qed.
(* the stationarity condition *)
Definition Q x := - AA * x * x + 2 * BB * x + (a + b - 2 * h * h).
Lemma wronskian x : (a + b + 2 * h3 * x) * D x - N x * (2 * h + 2 * a * x) = Q x.
Proof. unfold D, N, Q, AA, BB. ring. Qed.
Lemma root_stationary x : AA <> 0 -> (AA * x - BB) ^ 2 = CC -> Q x = 0.
Proof.
  intros HA HX. assert (AA * Q x = CC - (AA * x - BB) ^ 2) by (unfold Q, CC, AA, BB; ring). rewrite HX in H. apply (Rmult_eq_reg_l AA); [|exact HA]. lra.
Qed.
Lemma derive_E x : is_derive E x (((a + b + 2 * h3 * x) * D x - N x * (2 * h + 2 * a * x)) / (D x) ^ 2).
Proof.
  unfold E, N, D. auto_derive; [specialize (HD x); unfold D in HD; lra|]. specialize (HD x). unfold D in HD. field. lra.
Qed.
Lemma stationary x : Q x = 0 -> is_derive E x 0.
Proof. intros H. assert (X := derive_E x). rewrite wronskian, H in X. replace (0 / D x ^ 2) with 0 in X; [exact X|]. unfold Rdiv. ring. Qed.
Lemma double_root x y : Q x = 0 -> N y - E x * D y = (h3 - E x * a) * (y - x) ^ 2.
Proof.
  intros H. rewrite <- wronskian in H. assert (Hx := HD x). unfold E.
  assert (E1 : N x - N x / D x * D x = 0) by (field; lra).
  assert (E2 : (a + b + 2 * h3 * x) - N x / D x * (2 * h + 2 * a * x) = 0).
  { apply (Rmult_eq_reg_l (D x)); [|lra]. rewrite Rmult_0_r, <- H. field. lra. }
  set (e := N x / D x) in *. unfold N, D in *. nra.
Qed.
Lemma smaller_is_minimum x x' : Q x = 0 -> Q x' = 0 -> x <> x' -> E x <= E x' -> forall y, E x <= E y.
Proof.
  intros H H' Hne Hle y. assert (X := double_root x x' H). assert (Y := double_root x y H).
  assert (W := HD x'). assert (Z : N x' - E x * D x' = (E x' - E x) * D x').
  { rewrite Rmult_minus_distr_r. f_equal. unfold E, Rdiv. rewrite Rmult_assoc, Rinv_l by lra. ring. }
  rewrite Z in X.
  assert (S : 0 <= h3 - E x * a).
  { assert (0 < (x' - x) ^ 2) by (rewrite <- Rsqr_pow2; apply Rsqr_pos_lt; lra). assert (0 <= (E x' - E x) * D x') by (apply Rmult_le_pos; [lra|left; apply HD]). rewrite X in H1. nra. }
  assert (0 <= N y - E x * D y) by (rewrite Y; apply Rmult_le_pos; [exact S|apply pow2_ge_0]).
  assert (W' := HD y). apply (Rmult_le_reg_r (D y)); [exact W'|]. replace (E y * D y) with (N y) by (unfold E, Rdiv; rewrite Rmult_assoc, Rinv_l by lra; ring). lra.
Qed.
(** outcome of CalculateEne and the choice *)
Lemma by_alpha x r : ene_by_alpha h a b h3 h4 x = Done r -> fst r = E x /\ (forall v, snd r = Some v -> v = ((a + 2 * x * h3 + x * x * h4) / D x - E x ^ 2) / E x ^ 2).
Proof.
  unfold ene_by_alpha. cbv zeta. match goal with |- context [if ?c then Failed else _] => destruct c end; [discriminate|].
  unfold fdiv at 1. destruct (Req_EM_T _ 0); [discriminate|]. intros Q'. injection Q' as <-. cbn [fst snd]. split; [reflexivity|].
  intros v. unfold fdiv. destruct (Req_EM_T _ 0); [discriminate|]. intros Q'. injection Q' as <-. reflexivity.
Qed.
Lemma chosen is_real x e v : choose is_real (calculate_ene h a b h3 h4) = Chosen x e v ->
  e = E x /\ is_derive E x 0 /\ (forall y, E x <= E y) /\ (forall v', v = Some v' -> v' = ((a + 2 * x * h3 + x * x * h4) / D x - E x ^ 2) / E x ^ 2).
Proof.
  unfold calculate_ene. cbv zeta. fold AA BB CC. destruct (Rlt_dec CC 0) as [|HC]; [destruct is_real; discriminate|].
  unfold fdiv. destruct (Req_EM_T AA 0) as [|HA]; [discriminate|].
  set (xp := (BB + sqrt CC) / AA). set (xm := (BB - sqrt CC) / AA).
  destruct (ene_by_alpha h a b h3 h4 xp) as [| |[ep vp]] eqn:Ep; [destruct is_real; discriminate|discriminate|].
  destruct (ene_by_alpha h a b h3 h4 xm) as [| |[em vm]] eqn:Em; [destruct is_real; discriminate|discriminate|].
  apply by_alpha in Ep, Em. cbn [fst snd] in Ep, Em. destruct Ep as (Ep & Vp), Em as (Em & Vm).
  assert (HC' := CC_pos HA). assert (Hs : sqrt CC * sqrt CC = CC) by (apply sqrt_sqrt; lra). assert (Hs0 : 0 < sqrt CC) by now apply sqrt_lt_R0.
  assert (Qp : Q xp = 0). { apply root_stationary; [exact HA|]. unfold xp. replace (AA * ((BB + sqrt CC) / AA) - BB) with (sqrt CC) by (field; exact HA). rewrite <- Hs at 2. ring. }
  assert (Qm : Q xm = 0). { apply root_stationary; [exact HA|]. unfold xm. replace (AA * ((BB - sqrt CC) / AA) - BB) with (- sqrt CC) by (field; exact HA). rewrite <- Hs at 2. ring. }
  assert (Hne : xp <> xm). { unfold xp, xm. intros X. assert (Y : (BB + sqrt CC) / AA * AA = (BB - sqrt CC) / AA * AA) by now rewrite X. unfold Rdiv in Y. rewrite !Rmult_assoc, Rinv_l in Y by exact HA. lra. }
  cbn [choose]. destruct (Rlt_dec em ep) as [Hlt|Hge]; intros X; injection X as <- <- <-.
  - split; [exact Em|]. split; [now apply stationary|]. split; [|exact Vm]. apply (smaller_is_minimum xm xp Qm Qp); [congruence|]. rewrite <- Em, <- Ep. lra.
  - split; [exact Ep|]. split; [now apply stationary|]. split; [|exact Vp]. apply (smaller_is_minimum xp xm Qp Qm); [congruence|]. rewrite <- Em, <- Ep. lra.
Qed.
(* when the code does choose *)
Lemma does_choose is_real : AA <> 0 -> (h = 0 \/ forall x, is_derive E x 0 -> / 10 ^ 12 <= Rabs (D x / h)) -> exists x e v, choose is_real (calculate_ene h a b h3 h4) = Chosen x e v.
Proof.
  intros HA HB. assert (HC := CC_pos HA).
  assert (B : forall x, is_derive E x 0 -> exists e v, ene_by_alpha h a b h3 h4 x = Done (e, v)).
  { intros x Hx. unfold ene_by_alpha. cbv zeta. fold (D x). replace (if Req_EM_T h 0 then false else if Rlt_dec (Rabs (D x / h)) (/ 10 ^ 12) then true else false) with false.
    - unfold fdiv. destruct (Req_EM_T (D x) 0) as [X|_]; [specialize (HD x); lra|]. eauto.
    - destruct (Req_EM_T h 0) as [|Hh]; [reflexivity|]. destruct HB as [|HB]; [contradiction|]. specialize (HB x Hx). destruct (Rlt_dec _ _); [lra|reflexivity]. }
  unfold calculate_ene. cbv zeta. fold AA BB CC. destruct (Rlt_dec CC 0); [lra|]. unfold fdiv. destruct (Req_EM_T AA 0); [contradiction|].
  assert (Hs : sqrt CC * sqrt CC = CC) by (apply sqrt_sqrt; lra).
  destruct (B ((BB + sqrt CC) / AA)) as (e1 & v1 & ->).
  { apply stationary, root_stationary; [exact HA|]. replace (AA * ((BB + sqrt CC) / AA) - BB) with (sqrt CC) by (field; exact HA). rewrite <- Hs at 2. ring. }
  destruct (B ((BB - sqrt CC) / AA)) as (e2 & v2 & ->).
  { apply stationary, root_stationary; [exact HA|]. replace (AA * ((BB - sqrt CC) / AA) - BB) with (- sqrt CC) by (field; exact HA). rewrite <- Hs at 2. ring. }
  cbn [choose]. destruct (Rlt_dec e2 e1); eauto.
Qed.
End Ratio.
