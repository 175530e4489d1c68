(** Property theorems about the Lanczos step. *)
From Coq Require Import ZArith List Reals.
From Coquelicot Require Import Coquelicot.
From Verif Require Import Base.RSum Lan.Model Lan.Spec Lan.Proofs Lan.ProofsSum Lan.Cases.
Local Open Scope R_scope.

(** C39: the mixing reported is the one minimising the sampled energy of (1 + alpha H)|psi>, with that energy and relative variance *)
Theorem C39_minimum l a e v : positive l -> lanczos l = Chosen a e v ->
  e = energy l a /\ minimum (energy l) a /\ forall v', v = Some v' -> v' = (square l a - e ^ 2) / e ^ 2.
Proof. intros H. exact (choice l H false a e v). Qed.
Print Assumptions C39_minimum.
Example C39_case : positive l2 /\ lanczos l2 = Chosen (- 1 / 2) (1 / 2) (Some 1).
Proof. exact (conj l2_positive l2_chosen). Qed.

Theorem C39_minimum_real l a e v : positive (map embed l) -> rlanczos l = Chosen a e v ->
  e = energy (map embed l) a /\ minimum (energy (map embed l)) a /\ forall v', v = Some v' -> v' = (square (map embed l) a - e ^ 2) / e ^ 2.
Proof. intros H. exact (rchoice l H a e v). Qed.
Print Assumptions C39_minimum_real.
Example C39_real_case : positive (map embed r2) /\ rlanczos r2 = Chosen (- 1 / 2) (1 / 2) (Some 1).
Proof. exact (conj l2_positive r2_chosen). Qed.

(** a mixing is reported whenever the energy has two stationary values and the norm there is not negligible *)
Theorem C39_reported_partial l x y : positive l -> is_derive (energy l) x 0 -> is_derive (energy l) y 0 -> energy l x <> energy l y ->
  (energy l 0 = 0 \/ forall z, is_derive (energy l) z 0 -> / 10 ^ 12 <= Rabs (norm l z / norm l 0 / energy l 0)) -> exists a e v, lanczos l = Chosen a e v.
Proof. intros H. exact (chooses l H false x y). Qed.
Print Assumptions C39_reported_partial.
Example C39_reported_case : is_derive (energy l2) (-1) 0 /\ is_derive (energy l2) (- 1 / 2) 0 /\ energy l2 (-1) <> energy l2 (- 1 / 2) /\
  (energy l2 0 = 0 \/ forall z, is_derive (energy l2) z 0 -> / 10 ^ 12 <= Rabs (norm l2 z / norm l2 0 / energy l2 0)).
Proof. exact reported_case. Qed.

(** the energy may have a minimum although no number is reported *)
Theorem C39_degenerate_refuted : exists l, positive l /\ (exists a, minimum (energy l) a) /\ lanczos l = Infinite.
Proof. exact degenerate. Qed.
Print Assumptions C39_degenerate_refuted.
(** the real version goes on with unset variables after a reported failure *)
Theorem C39_real_failure_refuted : exists l, positive (map embed l) /\ (exists a, minimum (energy (map embed l)) a) /\ rlanczos l = Garbage.
Proof. exact garbage. Qed.
Print Assumptions C39_real_failure_refuted.

(** C54: operator number i of n gets its sampled expectation value in (1 + alpha H)|psi>, in real mode *)
Theorem C54_one_body_real l n i a out : positive (map embed l) -> (0 <= i < n)%Z ->
  RtoC (phys_val_real (rmoments l 2) (rmoments l 3) a (rop_moments n l) n NLSHam out i) = value (map embed l) i a.
Proof. intros H. exact (r_one_body l H n i a out). Qed.
Print Assumptions C54_one_body_real.
Theorem C54_two_body_real l n i a out : positive (map embed l) -> (0 <= i < n)%Z ->
  RtoC (phys_val_real (rmoments l 2) (rmoments l 3) a (rdc_moments n l) n NLSHam out i) = value (map embed l) i a.
Proof. intros H. exact (r_two_body l H n i a out). Qed.
Print Assumptions C54_two_body_real.
Example C54_real_case : positive (map embed r2) /\ value (map embed r2) 0 (- 1 / 2) = RtoC 4.
Proof. exact (conj l2_positive value2). Qed.

(** in complex mode the one-body values come out conjugated *)
Theorem C54_one_body_conjugate_partial l n i a out : positive l -> (0 <= i < n)%Z ->
  phys_val_fcmp (moments l 2) (moments l 3) a (op_moments n l) n NLSHam out i = Cconj (value l i a).
Proof. intros H. exact (one_body l H n i a out). Qed.
Print Assumptions C54_one_body_conjugate_partial.
Theorem C54_two_body_partial l n i a out : positive l -> (0 <= i < n)%Z -> (forall s, In s l -> snd (sh1 s) = 0) ->
  phys_val_fcmp (moments l 2) (moments l 3) a (dc_moments n l) n NLSHam out i = value l i a.
Proof. exact (two_body l n i a out). Qed.
Print Assumptions C54_two_body_partial.
Example C54_complex_case : positive im1 /\ value im1 0 (-1) = (- 1 / 2, 1 / 2).
Proof. exact (conj im1_positive im1_value). Qed.

Theorem C54_one_body_refuted : exists l a e v n i, positive l /\ lanczos l = Chosen a e v /\ (0 <= i < n)%Z /\
  phys_val_fcmp (moments l 2) (moments l 3) a (op_moments n l) n NLSHam out0 i <> value l i a.
Proof. exact one_refuted. Qed.
Print Assumptions C54_one_body_refuted.
Theorem C54_two_body_refuted : exists l a e v n i, positive l /\ lanczos l = Chosen a e v /\ (0 <= i < n)%Z /\
  let y := phys_val_fcmp (moments l 2) (moments l 3) a (dc_moments n l) n NLSHam out0 i in y <> value l i a /\ y <> Cconj (value l i a).
Proof. exact two_refuted. Qed.
Print Assumptions C54_two_body_refuted.
