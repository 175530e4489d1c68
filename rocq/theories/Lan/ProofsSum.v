(** The moments are sample averages; the theorems about samples. *)
From Coq Require Import ZArith List Bool Reals Lia Lra Psatz.
From Coquelicot Require Import Coquelicot.
From Verif Require Import Base.ZLoop Base.RSum Lan.Model Lan.Spec Lan.Proofs.
Import ListNotations.
Local Open Scope R_scope.

Lemma loop_upd_self {A} n (g : Z -> A -> A) q j : (0 <= n)%Z -> loop 0 n (fun i q => upd q i (g i (q i))) q j = if ((0 <=? j) && (j <? n))%Z then g j (q j) else q j.
Proof.
  intros Hn. apply (loop_inv (fun m (q' : Z -> A) => q' j = if ((0 <=? j) && (j <? m))%Z then g j (q j) else q j) 0 n); [exact Hn| |].
  - replace ((0 <=? j) && (j <? 0))%Z with false by lia. reflexivity.
  - intros i q' Hi H. unfold upd. destruct (Z.eqb_spec j i) as [->|Hne].
    + replace ((0 <=? i) && (i <? i))%Z with false in H by lia. replace ((0 <=? i) && (i <? i + 1))%Z with true by lia. now rewrite H.
    + rewrite H. replace (j <? i + 1)%Z with (j <? i)%Z by lia. reflexivity.
Qed.
Lemma sums_C {S} (step : S -> (Z -> C) -> Z -> C) (t : S -> C) i l : (forall s q, step s q i = Cplus (q i) (t s)) -> sums (RtoC 0) step l i = csum l t.
Proof.
  intros H. unfold sums. enough (G : forall q, fold_left (fun q s => step s q) l q i = Cplus (q i) (csum l t)) by (rewrite G; ring).
  induction l as [|s l IH]; intros q; cbn [fold_left csum]; [ring|]. rewrite IH, H. ring.
Qed.
Lemma sums_R {S} (step : S -> (Z -> R) -> Z -> R) (t : S -> R) i l : (forall s q, step s q i = q i + t s) -> sums 0 step l i = rsum l t.
Proof.
  intros H. unfold sums. enough (G : forall q, fold_left (fun q s => step s q) l q i = q i + rsum l t) by (rewrite G; ring).
  induction l as [|s l IH]; intros q; cbn [fold_left rsum]; [ring|]. rewrite IH, H. ring.
Qed.
Lemma total_sum l : total l = rsum l sw.
Proof.
  unfold total. enough (G : forall z, fold_left (fun wc s => wc + sw s) l z = z + rsum l sw) by (rewrite G; ring).
  induction l as [|s l IH]; intros z; cbn [fold_left rsum]; [ring|]. rewrite IH. ring.
Qed.
Lemma rtotal_sum l : rtotal l = rsum l rw.
Proof.
  unfold rtotal. enough (G : forall z, fold_left (fun wc s => wc + rw s) l z = z + rsum l rw) by (rewrite G; ring).
  induction l as [|s l IH]; intros z; cbn [fold_left rsum]; [ring|]. rewrite IH. ring.
Qed.

(** ** entries *)
Definition lq (s : sample) (i : Z) : C := lsl_local (RtoC 1) (sh1 s) (sh2 s) i.
Lemma qqqq_entry l i : (0 <= i < 16)%Z -> moments l i =
  Cmult (csum l (fun s => Cmult (Cmult (RtoC (sw s)) (Cconj (lq s ((i / 8) mod 2 * 2 + (i / 2) mod 2)%Z))) (lq s ((i / 4) mod 2 * 2 + i mod 2)%Z))) (RtoC (1 / total l)).
Proof.
  intros Hi. unfold moments, average. f_equal. apply sums_C. intros s q. unfold calculate_qqqq. cbv zeta.
  rewrite (loop_upd_self _ (fun i x => Cplus x _)) by (unfold NLSHam; lia). replace ((0 <=? i) && _)%Z with true by (unfold NLSHam; lia).
  unfold NLSHam. rewrite !Z.div_div by lia. reflexivity.
Qed.
Lemma rqqqq_entry l i : (0 <= i < 16)%Z -> let lq s := lsl_local 1 (rh1 s) (rh2 s) in rmoments l i =
  rsum l (fun s => rw s * lq s ((i / 8) mod 2 * 2 + (i / 2) mod 2)%Z * lq s ((i / 4) mod 2 * 2 + i mod 2)%Z) * (1 / rtotal l).
Proof.
  intros Hi lq'. unfold rmoments, raverage. f_equal. apply sums_R. intros s q. unfold calculate_qqqq_real. cbv zeta.
  rewrite (loop_upd_self _ (fun i x => x + _)) by (unfold NLSHam; lia). replace ((0 <=? i) && _)%Z with true by (unfold NLSHam; lia).
  unfold NLSHam. rewrite !Z.div_div by lia. reflexivity.
Qed.
Section Ops.
Variable n : Z.
Hypothesis Hn : (0 < n)%Z.
Lemma split_index rq rp i : (0 <= rq < 2)%Z -> (0 <= rp < 2)%Z -> (0 <= i < n)%Z ->
  let k := ((rq * 2 + rp) * n + i)%Z in (0 <= k < 2 * 2 * n)%Z /\ (k mod n = i)%Z /\ ((k / n) mod 2 = rp)%Z /\ ((k / n / 2) mod 2 = rq)%Z.
Proof.
  intros H1 H2 H3 k. assert (E1 : (k / n = rq * 2 + rp)%Z) by (unfold k; rewrite Z.div_add_l by lia; rewrite Z.div_small by lia; lia).
  assert (E2 : (k mod n = i)%Z) by (unfold k; rewrite Z.add_comm, Z.mod_add by lia; apply Z.mod_small; lia).
  rewrite E1. split; [unfold k; nia|]. split; [exact E2|]. split.
  - rewrite Z.add_comm, Z.mod_add by lia. apply Z.mod_small. lia.
  - rewrite Z.div_add_l by lia. rewrite Z.div_small, Z.add_0_r by lia. apply Z.mod_small. lia.
Qed.
Definition pick {A} (rq : Z) (u v : A) : A := if (rq =? 0)%Z then u else v.
Lemma qcaq_entry l rq rp i : (0 <= rq < 2)%Z -> (0 <= rp < 2)%Z -> (0 <= i < n)%Z -> op_moments n l ((rq * 2 + rp) * n + i)%Z =
  Cmult (csum l (fun s => Cmult (Cmult (RtoC (sw s)) (Cconj (pick rq (sA s i) (sHA s i)))) (pick rp (RtoC 1) (sh1 s)))) (RtoC (1 / total l)).
Proof.
  intros H1 H2 H3. destruct (split_index rq rp i H1 H2 H3) as (K1 & K2 & K3 & K4). unfold op_moments, average. f_equal. apply sums_C. intros s q. unfold calculate_qcaq. cbv zeta.
  rewrite (loop_upd_self _ (fun i x => Cplus x _)) by (unfold NLSHam; lia). unfold NLSHam in *. match goal with |- context [if ?c then _ else _] => replace c with true by lia end.
  rewrite K2, K3, K4. do 3 f_equal; [f_equal|].
  - unfold lsl_op, pick. assert (rq = 0 \/ rq = 1)%Z as [-> | ->] by lia; cbn [Z.eqb].
    + replace (0 * n + i)%Z with i by lia. replace (i <? n)%Z with true by lia. reflexivity.
    + replace (1 * n + i <? n)%Z with false by lia. replace (1 * n + i - n)%Z with i by lia. reflexivity.
  - unfold lsl_local, pick. assert (rp = 0 \/ rp = 1)%Z as [-> | ->] by lia; reflexivity.
Qed.
Lemma rqcaq_entry l rq rp i : (0 <= rq < 2)%Z -> (0 <= rp < 2)%Z -> (0 <= i < n)%Z -> rop_moments n l ((rq * 2 + rp) * n + i)%Z =
  rsum l (fun s => rw s * pick rq (rA s i) (rHA s i) * pick rp 1 (rh1 s)) * (1 / rtotal l).
Proof.
  intros H1 H2 H3. destruct (split_index rq rp i H1 H2 H3) as (K1 & K2 & K3 & K4). unfold rop_moments, raverage. f_equal. apply sums_R. intros s q. unfold calculate_qcaq_real. cbv zeta.
  rewrite (loop_upd_self _ (fun i x => x + _)) by (unfold NLSHam; lia). unfold NLSHam in *. match goal with |- context [if ?c then _ else _] => replace c with true by lia end.
  rewrite K2, K3, K4. do 2 f_equal; [f_equal|].
  - unfold lsl_op, pick. assert (rq = 0 \/ rq = 1)%Z as [-> | ->] by lia; cbn [Z.eqb].
    + replace (0 * n + i)%Z with i by lia. replace (i <? n)%Z with true by lia. reflexivity.
    + replace (1 * n + i <? n)%Z with false by lia. replace (1 * n + i - n)%Z with i by lia. reflexivity.
  - unfold lsl_local, pick. assert (rp = 0 \/ rp = 1)%Z as [-> | ->] by lia; reflexivity.
Qed.
Lemma dc_entry l rq rp i : (0 <= rq < 2)%Z -> (0 <= rp < 2)%Z -> (0 <= i < n)%Z -> dc_moments n l ((rq * 2 + rp) * n + i)%Z =
  Cmult (csum l (fun s => Cmult (Cmult (RtoC (sw s)) (pick rp (RtoC 1) (sh1 s))) (pick rq (sA s i) (sHA s i)))) (RtoC (1 / total l)).
Proof.
  intros H1 H2 H3. destruct (split_index rq rp i H1 H2 H3) as (K1 & K2 & K3 & K4). unfold dc_moments, average. f_equal. apply sums_C. intros s q. unfold calculate_qcacaqdc. cbv zeta.
  rewrite (loop_upd_self _ (fun i x => Cplus x _)) by (unfold NLSHam; lia). unfold NLSHam in *. match goal with |- context [if ?c then _ else _] => replace c with true by lia end.
  rewrite K2, K3, K4. do 3 f_equal.
  - unfold lsl_local, pick. assert (rp = 0 \/ rp = 1)%Z as [-> | ->] by lia; reflexivity.
  - unfold pick. destruct (rq =? 0)%Z; reflexivity.
Qed.
Lemma rdc_entry l rq rp i : (0 <= rq < 2)%Z -> (0 <= rp < 2)%Z -> (0 <= i < n)%Z -> rdc_moments n l ((rq * 2 + rp) * n + i)%Z =
  rsum l (fun s => rw s * pick rp 1 (rh1 s) * pick rq (rA s i) (rHA s i)) * (1 / rtotal l).
Proof.
  intros H1 H2 H3. destruct (split_index rq rp i H1 H2 H3) as (K1 & K2 & K3 & K4). unfold rdc_moments, raverage. f_equal. apply sums_R. intros s q. unfold calculate_qcacaqdc_real. cbv zeta.
  rewrite (loop_upd_self _ (fun i x => x + _)) by (unfold NLSHam; lia). unfold NLSHam in *. match goal with |- context [if ?c then _ else _] => replace c with true by lia end.
  rewrite K2, K3, K4. do 2 f_equal.
  - unfold lsl_local, pick. assert (rp = 0 \/ rp = 1)%Z as [-> | ->] by lia; reflexivity.
  - unfold pick. destruct (rq =? 0)%Z; reflexivity.
Qed.
End Ops.

(** ** moments as averages *)
Section Moments.
Variable l : list sample.
Hypothesis HP : positive l.
Let W := total l.
Lemma W_pos : 0 < W.
Proof.
  destruct HP as (Hw & Hl & _). unfold W. rewrite total_sum. clear HP. destruct l as [|s l']; [congruence|]. cbn [rsum].
  assert (0 < sw s) by (apply Hw; now left). assert (0 <= rsum l' sw) by (apply rsum_nonneg; intros x Hx; left; apply Hw; now right). lra.
Qed.
Lemma W_ne : W <> 0. Proof. pose proof W_pos. lra. Qed.
Let H1 := fst (moments l 2). Let H21 := fst (moments l 3). Let H22 := fst (moments l 10). Let H3 := fst (moments l 11). Let H4 := fst (moments l 15).
Lemma moment_re i : (0 <= i < 16)%Z -> W * fst (moments l i) = rsum l (fun s => sw s * fst (Cmult (Cconj (lq s ((i / 8) mod 2 * 2 + (i / 2) mod 2)%Z)) (lq s ((i / 4) mod 2 * 2 + i mod 2)%Z))).
Proof.
  intros Hi. rewrite qqqq_entry by exact Hi. fold W. cbn [Cmult RtoC fst snd]. rewrite csum_re. rewrite Rmult_0_r, Rminus_0_r.
  replace (W * (rsum l (fun x => fst (sw x * Cconj (lq x ((i / 8) mod 2 * 2 + (i / 2) mod 2)%Z) * lq x ((i / 4) mod 2 * 2 + i mod 2)%Z)%C) * (1 / W))) with
    (rsum l (fun x => fst (sw x * Cconj (lq x ((i / 8) mod 2 * 2 + (i / 2) mod 2)%Z) * lq x ((i / 4) mod 2 * 2 + i mod 2)%Z)%C)) by (field; apply W_ne).
  apply rsum_ext. intros s _. cbn [Cmult RtoC fst snd Cconj]. ring.
Qed.
Lemma m1 : W * H1 = rsum l (fun s => sw s * fst (sh1 s)).
Proof. unfold H1. rewrite moment_re by lia. apply rsum_ext. intros s _. cbn. ring. Qed.
Lemma m21 : W * H21 = rsum l (fun s => sw s * (fst (sh1 s) * fst (sh1 s) + snd (sh1 s) * snd (sh1 s))).
Proof. unfold H21. rewrite moment_re by lia. apply rsum_ext. intros s _. cbn. ring. Qed.
Lemma m22 : W * H22 = rsum l (fun s => sw s * fst (sh2 s)).
Proof. unfold H22. rewrite moment_re by lia. apply rsum_ext. intros s _. cbn. ring. Qed.
Lemma m3 : W * H3 = rsum l (fun s => sw s * (fst (sh1 s) * fst (sh2 s) + snd (sh1 s) * snd (sh2 s))).
Proof. unfold H3. rewrite moment_re by lia. apply rsum_ext. intros s _. cbn. ring. Qed.
Lemma m4 : W * H4 = rsum l (fun s => sw s * (fst (sh2 s) * fst (sh2 s) + snd (sh2 s) * snd (sh2 s))).
Proof. unfold H4. rewrite moment_re by lia. apply rsum_ext. intros s _. cbn. ring. Qed.
Lemma Cmod2 z : Cmod z ^ 2 = fst z * fst z + snd z * snd z.
Proof. unfold Cmod. rewrite pow2_sqrt; [ring|]. nra. Qed.
Lemma norm_eq a : norm l a = W * (1 + 2 * a * H1 + a * a * H21).
Proof.
  replace (W * (1 + 2 * a * H1 + a * a * H21)) with (W + 2 * a * (W * H1) + a * a * (W * H21)) by ring. rewrite m1, m21. unfold W. rewrite total_sum, <- !rsum_scal, <- !rsum_add.
  unfold norm. apply rsum_ext. intros s _. rewrite Cmod2. unfold amp. cbn. ring.
Qed.
Lemma num_eq a : rsum l (fun s => sw s * fst (Cmult (Cconj (amp a s)) (h_amp a s))) = W * (H1 + a * (H21 + H22) + a * a * H3).
Proof.
  replace (W * (H1 + a * (H21 + H22) + a * a * H3)) with (W * H1 + a * (W * H21) + a * (W * H22) + a * a * (W * H3)) by ring. rewrite m1, m21, m22, m3. rewrite <- !rsum_scal, <- !rsum_add.
  apply rsum_ext. intros s _. unfold amp, h_amp. cbn. ring.
Qed.
Lemma sq_eq a : rsum l (fun s => sw s * Cmod (h_amp a s) ^ 2) = W * (H21 + 2 * a * H3 + a * a * H4).
Proof.
  replace (W * (H21 + 2 * a * H3 + a * a * H4)) with (W * H21 + 2 * a * (W * H3) + a * a * (W * H4)) by ring. rewrite m21, m3, m4. rewrite <- !rsum_scal, <- !rsum_add.
  apply rsum_ext. intros s _. rewrite Cmod2. unfold h_amp. cbn. ring.
Qed.
Lemma D_pos x : 0 < 1 + 2 * x * H1 + x * x * H21.
Proof. destruct HP as (_ & _ & H). specialize (H x). rewrite norm_eq in H. pose proof W_pos. apply (Rmult_lt_reg_l W); [assumption|]. lra. Qed.
Lemma energy_eq a : energy l a = (H1 + a * (H21 + H22) + a * a * H3) / (1 + 2 * a * H1 + a * a * H21).
Proof. unfold energy. rewrite num_eq, norm_eq. assert (X := D_pos a). assert (Y := W_ne). field. split; [lra|exact Y]. Qed.
Lemma square_eq a : square l a = (H21 + 2 * a * H3 + a * a * H4) / (1 + 2 * a * H1 + a * a * H21).
Proof. unfold square. rewrite sq_eq, norm_eq. assert (X := D_pos a). assert (Y := W_ne). field. split; [lra|exact Y]. Qed.
Lemma energy_fun : energy l = fun a => (H1 + a * (H21 + H22) + a * a * H3) / (1 + 2 * a * H1 + a * a * H21).
Proof. apply FunctionalExtensionality.functional_extensionality. apply energy_eq. Qed.
Lemma choice is_real a e v : choose is_real (calculate_ene H1 H21 H22 H3 H4) = Chosen a e v ->
  e = energy l a /\ minimum (energy l) a /\ forall v', v = Some v' -> v' = (square l a - e ^ 2) / e ^ 2.
Proof.
  intros H. destruct (chosen H1 H21 H22 H3 H4 D_pos is_real a e v H) as (E1 & E2 & E3 & E4). unfold minimum. rewrite square_eq, energy_fun.
  split; [exact E1|]. split; [split; [exact E2|exact E3]|]. intros v' Hv. rewrite E1. exact (E4 v' Hv).
Qed.
Lemma AA_ne x y : is_derive (energy l) x 0 -> is_derive (energy l) y 0 -> energy l x <> energy l y -> H21 * (H21 + H22) - 2 * H1 * H3 <> 0.
Proof.
  intros Hx Hy Hne HA. rewrite energy_fun in Hx, Hy. rewrite !energy_eq in Hne.
  assert (G : forall z, is_derive (fun a => (H1 + a * (H21 + H22) + a * a * H3) / (1 + 2 * a * H1 + a * a * H21)) z 0 -> Q H1 H21 H22 H3 z = 0).
  { intros z Hz. assert (X := derive_E H1 H21 H22 H3 D_pos z). assert (Wr := wronskian H1 H21 H22 H3 z). cbv beta in X, Wr. rewrite Wr in X. apply is_derive_unique in X, Hz. assert (X0 := eq_trans (eq_sym Hz) X). clear X. rename X0 into X.
    assert (Y := D_pos z). assert (X' := f_equal (fun t => t * (1 + 2 * z * H1 + z * z * H21) ^ 2) X). cbv beta in X'. rewrite Rmult_0_l in X'.
    unfold Rdiv in X'. rewrite Rmult_assoc, Rinv_l, Rmult_1_r in X'; [now symmetry|]. apply pow_nonzero. lra. }
  assert (Qx := G x Hx). assert (Qy := G y Hy). unfold Q in Qx, Qy. rewrite HA in Qx, Qy.
  assert (Hxy : x <> y) by (intros ->; now apply Hne).
  assert (B0 : - H1 * H21 + H3 = 0). { apply (Rmult_eq_reg_r (x - y)); [|lra]. lra. }
  rewrite B0 in Qx. apply Hne. assert (X := D_pos x). assert (Y := D_pos y).
  assert (C0 : H21 + H22 = 2 * H1 * H1) by lra. assert (B1 : H3 = H1 * H21) by lra. rewrite C0, B1. field. lra.
Qed.
Lemma chooses is_real x y : is_derive (energy l) x 0 -> is_derive (energy l) y 0 -> energy l x <> energy l y ->
  (energy l 0 = 0 \/ forall z, is_derive (energy l) z 0 -> / 10 ^ 12 <= Rabs (norm l z / norm l 0 / energy l 0)) ->
  exists a e v, choose is_real (calculate_ene H1 H21 H22 H3 H4) = Chosen a e v.
Proof.
  intros Hx Hy Hne HB.
  assert (E0 : energy l 0 = H1) by (rewrite energy_eq; field). assert (N0 : norm l 0 = W) by (rewrite norm_eq; ring).
  apply does_choose; [exact D_pos|exact (AA_ne x y Hx Hy Hne)|]. rewrite E0 in HB. destruct HB as [HB|HB]; [now left|right].
  intros z Hz. rewrite <- energy_fun in Hz. specialize (HB z Hz). rewrite N0, norm_eq in HB.
  replace (W * (1 + 2 * z * H1 + z * z * H21) / W / H1) with ((1 + 2 * z * H1 + z * z * H21) / H1) in HB; [exact HB|]. unfold Rdiv. f_equal. field. apply W_ne.
Qed.
(** one-body values in complex mode *)
Lemma loop_upd_out {A} n (f : Z -> A) out i : (0 <= i < n)%Z -> loop 0 n (fun i o => upd o i (f i)) out i = f i.
Proof. intros Hi. rewrite (loop_upd_self n (fun i _ => f i)) by lia. now replace ((0 <=? i) && (i <? n))%Z with true by lia. Qed.
Lemma dnorm_eq a : fst (Cplus (Cplus (RtoC 1) (Cmult (Cmult (RtoC 2) (RtoC a)) (moments l 2))) (Cmult (Cmult (RtoC a) (RtoC a)) (moments l 3))) = norm l a / W.
Proof. rewrite norm_eq. fold H1 H21. unfold H1, H21. cbn [Cplus Cmult RtoC fst snd]. field. apply W_ne. Qed.
Lemma csum_scal_r' (f : sample -> C) c : Cmult (csum l f) c = csum l (fun s => Cmult (f s) c).
Proof. clear. induction l as [|s l' IH]; cbn [csum]; [ring|]. rewrite <- IH. ring. Qed.
Lemma csum_conj' (f : sample -> C) : Cconj (csum l f) = csum l (fun s => Cconj (f s)).
Proof.
  clear. induction l as [|s l' IH]; cbn [csum]; [unfold Cconj; cbn; apply injective_projections; cbn; ring|]. rewrite <- IH. unfold Cconj, Cplus. cbn. f_equal. ring.
Qed.
Lemma norm_ne a : norm l a <> 0. Proof. destruct HP as (_ & _ & H). specialize (H a). lra. Qed.
Lemma combine a (A0 A1 A2 A3 : sample -> C) :
  Cdiv (Cplus (Cplus (Cmult (csum l A0) (RtoC (1 / W))) (Cmult (RtoC a) (Cplus (Cmult (csum l A1) (RtoC (1 / W))) (Cmult (csum l A2) (RtoC (1 / W)))))) (Cmult (Cmult (RtoC a) (RtoC a)) (Cmult (csum l A3) (RtoC (1 / W))))) (RtoC (norm l a / W)) =
  Cdiv (csum l (fun s => Cplus (Cplus (A0 s) (Cmult (RtoC a) (Cplus (A1 s) (A2 s)))) (Cmult (Cmult (RtoC a) (RtoC a)) (A3 s)))) (RtoC (norm l a)).
Proof.
  rewrite !csum_add, !csum_scal, csum_add.
  assert (X := norm_ne a). assert (Y := W_ne). unfold Cdiv. assert (Y' : RtoC W <> 0%C) by (intros Z; apply RtoC_inj in Z; contradiction). assert (X' : RtoC (norm l a) <> 0%C) by (intros Z; apply RtoC_inj in Z; contradiction).
  rewrite (RtoC_div (norm l a) W) by exact Y.
  replace (RtoC (1 / W)) with (/ RtoC W)%C by (rewrite <- RtoC_inv by assumption; f_equal; field; assumption).
  field. split; assumption.
Qed.
Lemma conj_div z r : r <> 0 -> Cconj (Cdiv z (RtoC r)) = Cdiv (Cconj z) (RtoC r).
Proof. intros X. unfold Cdiv. rewrite <- RtoC_inv by exact X. apply injective_projections; cbn; ring. Qed.
Lemma one_body n i a out : (0 <= i < n)%Z -> phys_val_fcmp (moments l 2) (moments l 3) a (op_moments n l) n NLSHam out i = Cconj (value l i a).
Proof.
  intros Hi. unfold phys_val_fcmp. cbv zeta. rewrite (loop_upd_out n (fun i => Cdiv _ _)) by exact Hi. rewrite dnorm_eq.
  replace i with ((0 * 2 + 0) * n + i)%Z at 1 by lia. rewrite (qcaq_entry n ltac:(lia)) by lia.
  replace (n + i)%Z with ((0 * 2 + 1) * n + i)%Z by lia. rewrite (qcaq_entry n ltac:(lia)) by lia.
  replace (NLSHam * n + i)%Z with ((1 * 2 + 0) * n + i)%Z by (unfold NLSHam; lia). rewrite (qcaq_entry n ltac:(lia)) by lia.
  replace (NLSHam * n + n + i)%Z with ((1 * 2 + 1) * n + i)%Z by (unfold NLSHam; lia). rewrite (qcaq_entry n ltac:(lia)) by lia.
  fold W. rewrite combine. unfold value. rewrite conj_div by apply norm_ne.
  f_equal. rewrite csum_conj'. apply csum_ext. intros s _. unfold pick, amp. cbn [Z.eqb]. apply injective_projections; cbn; ring.
Qed.
End Moments.

(** ** real samples *)
Lemma rsum_map {A B} (f : A -> B) (g : B -> R) l : rsum (map f l) g = rsum l (fun x => g (f x)).
Proof. induction l as [|x l IH]; cbn; [reflexivity|]. now rewrite IH. Qed.
Lemma csum_map {A B} (f : A -> B) (g : B -> C) l : csum (map f l) g = csum l (fun x => g (f x)).
Proof. induction l as [|x l IH]; cbn; [reflexivity|]. now rewrite IH. Qed.
Lemma csum_RtoC {A} (g : A -> R) l : csum l (fun x => RtoC (g x)) = RtoC (rsum l g).
Proof. induction l as [|x l IH]; cbn [csum rsum]; [reflexivity|]. now rewrite IH, RtoC_plus. Qed.
Lemma rtotal_embed l : total (map embed l) = rtotal l.
Proof. rewrite total_sum, rtotal_sum, rsum_map. reflexivity. Qed.
Lemma lsl_embed s j : lsl_local (RtoC 1) (sh1 (embed s)) (sh2 (embed s)) j = RtoC (lsl_local 1 (rh1 s) (rh2 s) j).
Proof. unfold lsl_local. destruct (j =? 0)%Z; [reflexivity|]. destruct (j =? 3)%Z; reflexivity. Qed.
Lemma moments_embed l i : (0 <= i < 16)%Z -> fst (moments (map embed l) i) = rmoments l i.
Proof.
  intros Hi. rewrite qqqq_entry, rqqqq_entry by exact Hi. rewrite rtotal_embed. cbn [Cmult RtoC fst snd]. rewrite csum_re, Rmult_0_r, Rminus_0_r. f_equal.
  rewrite rsum_map. apply rsum_ext. intros s _. unfold lq. rewrite !lsl_embed. cbn [Cmult RtoC Cconj fst snd embed sw]. ring.
Qed.
Section Real.
Variable l : list rsample.
Hypothesis HP : positive (map embed l).
Lemma rlanczos_eq : rlanczos l = choose true (calculate_ene (fst (moments (map embed l) 2)) (fst (moments (map embed l) 3)) (fst (moments (map embed l) 10)) (fst (moments (map embed l) 11)) (fst (moments (map embed l) 15))).
Proof. unfold rlanczos. cbv zeta. rewrite !moments_embed by lia. reflexivity. Qed.
Lemma rchoice a e v : rlanczos l = Chosen a e v ->
  e = energy (map embed l) a /\ minimum (energy (map embed l)) a /\ forall v', v = Some v' -> v' = (square (map embed l) a - e ^ 2) / e ^ 2.
Proof. rewrite rlanczos_eq. apply choice. exact HP. Qed.
Lemma rvalue i a : value (map embed l) i a = RtoC (rsum l (fun s => rw s * ((1 + a * rh1 s) * (rA s i + a * rHA s i))) / norm (map embed l) a).
Proof.
  unfold value. rewrite csum_map, RtoC_div by (destruct HP as (_ & _ & H); specialize (H a); lra). f_equal. rewrite <- csum_RtoC. apply csum_ext. intros s _.
  unfold amp. apply injective_projections; cbn; ring.
Qed.
Lemma rtot_ne : rtotal l <> 0. Proof. rewrite <- rtotal_embed. apply W_ne. exact HP. Qed.
Lemma rdnorm a : 1 + 2 * a * rmoments l 2 + a * a * rmoments l 3 = norm (map embed l) a / rtotal l.
Proof. rewrite (norm_eq _ HP), rtotal_embed, !moments_embed by lia. field. apply rtot_ne. Qed.
Lemma rcombine a (A0 A1 A2 A3 : rsample -> R) : let W := rtotal l in
  (rsum l A0 * (1 / W) + a * (rsum l A1 * (1 / W) + rsum l A2 * (1 / W)) + a * a * (rsum l A3 * (1 / W))) / (norm (map embed l) a / W) =
  rsum l (fun s => A0 s + a * (A1 s + A2 s) + a * a * A3 s) / norm (map embed l) a.
Proof.
  intros W. rewrite !rsum_add, !rsum_scal, rsum_add. assert (X : norm (map embed l) a <> 0) by (destruct HP as (_ & _ & H); specialize (H a); lra). assert (Y := rtot_ne). fold W in Y. field. split; assumption.
Qed.
Lemma r_one_body n i a out : (0 <= i < n)%Z -> RtoC (phys_val_real (rmoments l 2) (rmoments l 3) a (rop_moments n l) n NLSHam out i) = value (map embed l) i a.
Proof.
  intros Hi. rewrite rvalue. f_equal. unfold phys_val_real. cbv zeta. rewrite (loop_upd_out n (fun i => _ / _)) by exact Hi. rewrite rdnorm.
  replace i with ((0 * 2 + 0) * n + i)%Z at 1 by lia. rewrite (rqcaq_entry n ltac:(lia)) by lia.
  replace (n + i)%Z with ((0 * 2 + 1) * n + i)%Z by lia. rewrite (rqcaq_entry n ltac:(lia)) by lia.
  replace (NLSHam * n + i)%Z with ((1 * 2 + 0) * n + i)%Z by (unfold NLSHam; lia). rewrite (rqcaq_entry n ltac:(lia)) by lia.
  replace (NLSHam * n + n + i)%Z with ((1 * 2 + 1) * n + i)%Z by (unfold NLSHam; lia). rewrite (rqcaq_entry n ltac:(lia)) by lia.
  rewrite rcombine. f_equal. apply rsum_ext. intros s _. unfold pick. cbn [Z.eqb]. ring.
Qed.
Lemma r_two_body n i a out : (0 <= i < n)%Z -> RtoC (phys_val_real (rmoments l 2) (rmoments l 3) a (rdc_moments n l) n NLSHam out i) = value (map embed l) i a.
Proof.
  intros Hi. rewrite rvalue. f_equal. unfold phys_val_real. cbv zeta. rewrite (loop_upd_out n (fun i => _ / _)) by exact Hi. rewrite rdnorm.
  replace i with ((0 * 2 + 0) * n + i)%Z at 1 by lia. rewrite (rdc_entry n ltac:(lia)) by lia.
  replace (n + i)%Z with ((0 * 2 + 1) * n + i)%Z by lia. rewrite (rdc_entry n ltac:(lia)) by lia.
  replace (NLSHam * n + i)%Z with ((1 * 2 + 0) * n + i)%Z by (unfold NLSHam; lia). rewrite (rdc_entry n ltac:(lia)) by lia.
  replace (NLSHam * n + n + i)%Z with ((1 * 2 + 1) * n + i)%Z by (unfold NLSHam; lia). rewrite (rdc_entry n ltac:(lia)) by lia.
  rewrite rcombine. f_equal. apply rsum_ext. intros s _. unfold pick. cbn [Z.eqb]. ring.
Qed.
End Real.
(** two-body values in complex mode when the local energies are real *)
Lemma two_body l n i a out : positive l -> (0 <= i < n)%Z -> (forall s, In s l -> snd (sh1 s) = 0) ->
  phys_val_fcmp (moments l 2) (moments l 3) a (dc_moments n l) n NLSHam out i = value l i a.
Proof.
  intros HP Hi Hr. unfold phys_val_fcmp. cbv zeta. rewrite (loop_upd_out n (fun i => Cdiv _ _)) by exact Hi. rewrite (dnorm_eq l HP).
  replace i with ((0 * 2 + 0) * n + i)%Z at 1 by lia. rewrite (dc_entry n ltac:(lia)) by lia.
  replace (n + i)%Z with ((0 * 2 + 1) * n + i)%Z by lia. rewrite (dc_entry n ltac:(lia)) by lia.
  replace (NLSHam * n + i)%Z with ((1 * 2 + 0) * n + i)%Z by (unfold NLSHam; lia). rewrite (dc_entry n ltac:(lia)) by lia.
  replace (NLSHam * n + n + i)%Z with ((1 * 2 + 1) * n + i)%Z by (unfold NLSHam; lia). rewrite (dc_entry n ltac:(lia)) by lia.
  rewrite (combine l HP). unfold value. f_equal. apply csum_ext. intros s Hs. specialize (Hr s Hs). unfold pick, amp. cbn [Z.eqb]. apply injective_projections; cbn; rewrite Hr; ring.
Qed.
