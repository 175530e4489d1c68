(** The linear system: covariance form, positivity; the matrix-free operator *)
From Coq Require Import ZArith List Bool Reals Lia Lra Permutation.
From Coquelicot Require Import Complex.
From Verif Require Import Base.ZLoop Base.RSum Par.Model Par.Proofs SR.Model SR.Spec SR.Proofs SR.ProofsSel.
Import ListNotations.
Local Open Scope Z_scope.

(** ** sums *)
Lemma rsum_prod {A B} (l : list A) (m : list B) (u : A -> R) (v : B -> R) :
  rsum l (fun i => rsum m (fun j => u i * v j)%R) = (rsum l u * rsum m v)%R.
Proof. rewrite (rsum_ext l _ (fun i => u i * rsum m v)%R) by (intros; apply rsum_scal). apply rsum_scal_r. Qed.
Lemma rmean_rsum {A} l (L : list A) (F : A -> sample -> R) : rmean l (fun x => rsum L (fun i => F i x)) = rsum L (fun i => rmean l (F i)).
Proof.
  unfold rmean. unfold Rdiv. rewrite rsum_scal_r. f_equal. rewrite <- rsum_swap. apply rsum_ext. intros x _. now rewrite rsum_scal.
Qed.
Lemma rmean_ext l f g : (forall x, f x = g x) -> rmean l f = rmean l g.
Proof. intros H. unfold rmean. f_equal. apply rsum_ext. intros. now rewrite H. Qed.
Lemma rmean_add l f g : rmean l (fun x => f x + g x)%R = (rmean l f + rmean l g)%R.
Proof. unfold rmean, Rdiv. rewrite (rsum_ext _ _ (fun x => wgt x * f x + wgt x * g x)%R) by (intros; ring). rewrite rsum_add. ring. Qed.
Lemma rmean_sub l f g : rmean l (fun x => f x - g x)%R = (rmean l f - rmean l g)%R.
Proof. unfold rmean, Rdiv. rewrite (rsum_ext _ _ (fun x => wgt x * f x - wgt x * g x)%R) by (intros; ring). rewrite rsum_sub. ring. Qed.
Lemma rmean_scal l c f : rmean l (fun x => c * f x)%R = (c * rmean l f)%R.
Proof. unfold rmean, Rdiv. rewrite (rsum_ext _ _ (fun x => c * (wgt x * f x))%R) by (intros; ring). rewrite rsum_scal. ring. Qed.
Lemma rmean_const l c : total_weight l <> 0%R -> rmean l (fun _ => c) = c.
Proof. intros H. unfold rmean. rewrite rsum_scal_r. fold (total_weight l). field. exact H. Qed.
Lemma rmean_nonneg l f : (forall x, In x (counted l) -> 0 <= wgt x)%R -> (0 < total_weight l)%R -> (forall x, In x (counted l) -> 0 <= f x)%R -> (0 <= rmean l f)%R.
Proof.
  intros Hw HW Hf. unfold rmean. apply Rmult_le_pos; [|left; now apply Rinv_0_lt_compat]. apply rsum_nonneg. intros x Hx.
  apply Rmult_le_pos; auto.
Qed.
Lemma rmean_sq_ge l f : (forall x, In x (counted l) -> 0 <= wgt x)%R -> (0 < total_weight l)%R ->
  (rmean l f * rmean l f <= rmean l (fun x => f x * f x))%R.
Proof.
  intros Hw HW. set (m := rmean l f).
  assert (H : (0 <= rmean l (fun x => (f x - m) * (f x - m)))%R). { apply rmean_nonneg; try assumption. intros. apply Rle_0_sqr. }
  rewrite (rmean_ext l _ (fun x => f x * f x - (2 * m * f x - m * m))%R) in H by (intros; ring).
  rewrite rmean_sub, rmean_sub, rmean_scal, rmean_const in H by lra. fold m in H. lra.
Qed.

Lemma cmean_re l f : total_weight l <> 0%R -> fst (cmean l f) = rmean l (fun x => fst (f x)).
Proof.
  intros H. unfold cmean, rmean, Cdiv. rewrite <- RtoC_inv by assumption. cbn [fst Cmult RtoC snd]. rewrite csum_re.
  unfold RtoC. cbn [fst snd]. rewrite Rmult_0_r, Rminus_0_r.
  rewrite (rsum_ext (counted l) (fun x => fst ((wgt x, 0%R) * f x)%C) (fun x => wgt x * fst (f x))%R); [reflexivity|]. intros x _. cbn. ring.
Qed.

(** ** entries of the assembled matrix *)
Lemma stc_cell (nn : Z) (v : Z -> Z -> R) (c : Z -> R) (S0 : Z -> R) si sj : 0 <= si < nn -> 0 <= sj < nn ->
  loop 0 nn (fun si Smat =>
    let Smat := loop 0 nn (fun sj Smat => upd Smat (si + nn * sj) (v si sj)) Smat in
    upd Smat (si + nn * si) (Smat (si + nn * si)%Z * c si)%R) S0 (si + nn * sj) = (if si =? sj then v si si * c si else v si sj)%R.
Proof.
  intros Hi Hj.
  assert (Inner : forall k M a b, 0 <= k < nn -> 0 <= a < nn -> 0 <= b < nn ->
    loop 0 nn (fun sj Smat => upd Smat (k + nn * sj) (v k sj)) M (a + nn * b) = if a =? k then v k b else M (a + nn * b)).
  { intros k M a b Hk Ha Hb.
    assert (T : forall b', 0 <= b' < nn -> loop 0 nn (fun sj Smat => upd Smat (k + nn * sj) (v k sj)) M (a + nn * b') = if (a =? k) && (b' <? nn) then v k b' else M (a + nn * b')).
    { apply (loop_inv (fun e M' => forall b', 0 <= b' < nn -> M' (a + nn * b') = if (a =? k) && (b' <? e) then v k b' else M (a + nn * b'))); [lia| |].
      - intros b' Hb'. destruct (Z.ltb_spec b' 0); [lia|]. now rewrite andb_false_r.
      - intros e M' He IH b' Hb'. rewrite upd_get. destruct (Z.eqb_spec (a + nn * b') (k + nn * e)) as [E|E].
        + assert (b' = e) by nia. subst b'. assert (a = k) by nia. subst a. rewrite Z.eqb_refl. destruct (Z.ltb_spec e (e + 1)); [reflexivity|lia].
        + rewrite IH by assumption. destruct (Z.eqb_spec a k) as [->|]; cbn [andb]; [|reflexivity].
          assert (b' <> e) by (intros ->; now apply E). destruct (Z.ltb_spec b' e), (Z.ltb_spec b' (e + 1)); try lia; reflexivity. }
    rewrite T by assumption. destruct (Z.ltb_spec b nn); [|lia]. now rewrite andb_true_r. }
  assert (T : forall a b, 0 <= a < nn -> 0 <= b < nn ->
    loop 0 nn (fun si Smat => let Smat := loop 0 nn (fun sj Smat => upd Smat (si + nn * sj) (v si sj)) Smat in
      upd Smat (si + nn * si) (Smat (si + nn * si)%Z * c si)%R) S0 (a + nn * b) =
    if a <? nn then (if a =? b then v a a * c a else v a b)%R else S0 (a + nn * b)).
  { apply (loop_inv (fun e M => forall a b, 0 <= a < nn -> 0 <= b < nn -> M (a + nn * b) = if a <? e then (if a =? b then v a a * c a else v a b)%R else S0 (a + nn * b))); [lia| |].
    - intros a b Ha Hb. destruct (Z.ltb_spec a 0); [lia|reflexivity].
    - intros e M He IH a b Ha Hb. cbn zeta. rewrite upd_get. rewrite !Inner by lia. rewrite Z.eqb_refl.
      destruct (Z.eqb_spec (a + nn * b) (e + nn * e)) as [E|E].
      + assert (b = e) by nia. subst b. assert (a = e) by nia. subst a. rewrite Z.eqb_refl. destruct (Z.ltb_spec e (e + 1)); [reflexivity|lia].
      + destruct (Z.eqb_spec a e) as [->|].
        * destruct (Z.ltb_spec e (e + 1)); [|lia]. destruct (Z.eqb_spec e b) as [<-|]; [contradiction|reflexivity].
        * rewrite IH by assumption. destruct (Z.ltb_spec a e), (Z.ltb_spec a (e + 1)); try lia; reflexivity. }
  rewrite T by assumption. destruct (Z.ltb_spec si nn); [|lia]. destruct (Z.eqb_spec si sj) as [<-|]; reflexivity.
Qed.
Lemma loop_upd_range {A} nn (f : Z -> A) g j : 0 <= j < nn -> loop 0 nn (fun i g => upd g i (f i)) g j = f j.
Proof.
  intros Hj.
  assert (T : loop 0 nn (fun i g => upd g i (f i)) g j = if j <? nn then f j else g j).
  { apply (loop_inv (fun e g' => g' j = if j <? e then f j else g j)); [lia| |].
    - destruct (Z.ltb_spec j 0); [lia|reflexivity].
    - intros e g' He IH. rewrite upd_get. destruct (Z.eqb_spec j e) as [->|].
      + destruct (Z.ltb_spec e (e + 1)); [reflexivity|lia].
      + rewrite IH. destruct (Z.ltb_spec j e), (Z.ltb_spec j (e + 1)); try lia; reflexivity. }
  rewrite T. destruct (Z.ltb_spec j nn); [reflexivity|lia].
Qed.

Section Matrix.
Variables (S nn : Z) (idx : Z -> Z) (l : list sample) (OO HO : Z -> C) (del dt : R).
Hypothesis HW : total_weight l <> 0%R.
Hypothesis HA : is_average S l OO HO.
Hypothesis Hidx : forall k, 0 <= k < nn -> 0 <= idx k < 2 * S - 2.

Lemma avg_first p : 0 <= p < 2 * S - 2 -> fst (OO (p + 2)) = rmean l (fun x => fst (dO p x)).
Proof.
  intros Hp. destruct HA as (A & _). specialize (A 0 (p + 2) ltac:(lia) ltac:(lia)). change (0 * (2 * S) + (p + 2)) with (p + 2) in A.
  rewrite A, cmean_re by assumption. apply rmean_ext. intros x. change (srOptO x 0) with (RtoC 1). rewrite Cconj_1, Cmult_1_r.
  unfold srOptO, dO. destruct (Z.eqb_spec (p + 2) 0); [lia|]. destruct (Z.eqb_spec (p + 2) 1); [lia|reflexivity].
Qed.
Lemma avg_second p q : 0 <= p < 2 * S - 2 -> 0 <= q < 2 * S - 2 ->
  fst (OO ((p + 2) * (2 * S) + (q + 2))) = rmean l (fun x => fst (Cmult (dO p x) (Cconj (dO q x)))).
Proof.
  intros Hp Hq. destruct HA as (A & _). rewrite (A (p + 2) (q + 2)) by lia. rewrite cmean_re by assumption. apply rmean_ext. intros x.
  unfold srOptO, dO. destruct (Z.eqb_spec (p + 2) 0); [lia|]. destruct (Z.eqb_spec (p + 2) 1); [lia|].
  destruct (Z.eqb_spec (q + 2) 0); [lia|]. destruct (Z.eqb_spec (q + 2) 1); [lia|]. cbn. ring.
Qed.
Lemma avg_energy : 0 < S -> fst (HO 0) = rmean l (fun x => fst (ene x)).
Proof.
  intros HS. destruct HA as (_ & A). rewrite A by lia. rewrite cmean_re by assumption. apply rmean_ext. intros x.
  change (srOptO x 0) with (RtoC 1). cbn. ring.
Qed.
Lemma avg_ho p : 0 <= p < 2 * S - 2 -> fst (HO (p + 2)) = rmean l (fun x => fst (Cmult (ene x) (dO p x))).
Proof.
  intros Hp. destruct HA as (_ & A). rewrite A by lia. rewrite cmean_re by assumption. apply rmean_ext. intros x.
  unfold srOptO, dO. destruct (Z.eqb_spec (p + 2) 0); [lia|]. destruct (Z.eqb_spec (p + 2) 1); [lia|reflexivity].
Qed.
Lemma smat_entry S0 g0 si sj : 0 <= si < nn -> 0 <= sj < nn ->
  fst (stcOptInit S del dt nn idx OO HO S0 g0) (si + nn * sj) = (covO l (idx si) (idx sj) * (if si =? sj then 1 + del else 1))%R.
Proof.
  intros Hi Hj. unfold stcOptInit. cbn [fst].
  rewrite (stc_cell nn (fun si sj => fst (OO ((idx si + 2) * (2 * S) + (idx sj + 2))%Z) - fst (OO (idx si + 2)%Z) * fst (OO (idx sj + 2)%Z))%R (fun _ => 1 + del)%R) by assumption.
  pose proof (Hidx si Hi). pose proof (Hidx sj Hj).
  destruct (Z.eqb_spec si sj) as [<-|]; rewrite !avg_second, !avg_first by assumption; unfold covO; ring.
Qed.
Lemma force_entry S0 g0 si : 0 <= si < nn ->
  snd (stcOptInit S del dt nn idx OO HO S0 g0) si = (- 2 * dt * force l (idx si))%R.
Proof.
  intros Hi. unfold stcOptInit. cbn [snd].
  rewrite (loop_upd_range nn (fun si => - dt * 2 * (fst (HO (idx si + 2)%Z) - fst (HO 0%Z) * fst (OO (idx si + 2)%Z)))%R) by assumption.
  pose proof (Hidx si Hi). rewrite avg_ho, avg_first, avg_energy by lia. unfold force.
  set (E := rmean l (fun x => fst (ene x))). set (Op := rmean l (fun x => fst (dO (idx si) x))).
  rewrite (rmean_ext l (fun x => fst (Cmult (Cminus (ene x) (RtoC E)) (Cminus (dO (idx si) x) (RtoC Op))))
     (fun x => fst (Cmult (ene x) (dO (idx si) x)) - (Op * fst (ene x) + (E * fst (dO (idx si) x) - E * Op)))%R) by (intros; cbn; ring).
  rewrite rmean_sub, rmean_add, rmean_sub, !rmean_scal, rmean_const by assumption. fold E Op. ring.
Qed.
End Matrix.

(** ** positivity *)
Lemma covO_sym l p q : covO l p q = covO l q p.
Proof. unfold covO. rewrite (rmean_ext l (fun x => fst (Cmult (dO p x) (Cconj (dO q x)))) (fun x => fst (Cmult (dO q x) (Cconj (dO p x))))) by (intros; cbn; ring). ring. Qed.
Lemma cov_quadratic l (L : list Z) (p : Z -> Z) (x : Z -> R) :
  rsum L (fun i => rsum L (fun j => x i * x j * covO l (p i) (p j)))%R =
  (rmean l (fun s => rsum L (fun i => x i * fst (dO (p i) s)) * rsum L (fun i => x i * fst (dO (p i) s))
                     + rsum L (fun i => x i * snd (dO (p i) s)) * rsum L (fun i => x i * snd (dO (p i) s)))
   - rmean l (fun s => rsum L (fun i => x i * fst (dO (p i) s))) * rmean l (fun s => rsum L (fun i => x i * fst (dO (p i) s))))%R.
Proof.
  rewrite rmean_rsum. rewrite <- rsum_prod.
  rewrite (rmean_ext l _ (fun s => rsum L (fun i => rsum L (fun j => x i * x j * fst (Cmult (dO (p i) s) (Cconj (dO (p j) s)))))%R)).
  2:{ intros s. rewrite <- !rsum_prod, <- rsum_add. apply rsum_ext. intros i _. rewrite <- rsum_add. apply rsum_ext. intros j _. cbn. ring. }
  rewrite rmean_rsum. rewrite <- rsum_sub. apply rsum_ext. intros i _. rewrite rmean_rsum, <- rsum_sub. apply rsum_ext. intros j _.
  rewrite !rmean_scal. unfold covO. ring.
Qed.
Lemma cov_psd l (L : list Z) (p : Z -> Z) (x : Z -> R) : (forall s, In s (counted l) -> 0 <= wgt s)%R -> (0 < total_weight l)%R ->
  (0 <= rsum L (fun i => rsum L (fun j => x i * x j * covO l (p i) (p j))))%R.
Proof.
  intros Hw HW. rewrite cov_quadratic. pose proof (rmean_sq_ge l (fun s => rsum L (fun i => x i * fst (dO (p i) s))%R) Hw HW) as H.
  rewrite rmean_add. set (B := rmean l (fun s => rsum L (fun i => x i * snd (dO (p i) s)) * rsum L (fun i => x i * snd (dO (p i) s)))%R).
  assert (0 <= B)%R by (apply rmean_nonneg; try assumption; intros; apply Rle_0_sqr). lra.
Qed.
Lemma cov_diag_nonneg l p : (forall s, In s (counted l) -> 0 <= wgt s)%R -> (0 < total_weight l)%R -> (0 <= covO l p p)%R.
Proof.
  intros Hw HW. pose proof (cov_psd l [0] (fun _ => p) (fun _ => 1%R) Hw HW) as H. cbn [rsum] in H. lra.
Qed.
Lemma quad_split n (M : Z -> Z -> R) del (x : Z -> R) : 0 <= n ->
  rsum (zrange 0 n) (fun i => rsum (zrange 0 n) (fun j => x i * (M i j * (if i =? j then 1 + del else 1)) * x j))%R =
  (rsum (zrange 0 n) (fun i => rsum (zrange 0 n) (fun j => x i * x j * M i j)) + del * rsum (zrange 0 n) (fun i => x i * x i * M i i))%R.
Proof.
  intros Hn. rewrite <- rsum_scal, <- rsum_add. apply rsum_ext. intros i Hi.
  transitivity (rsum (zrange 0 n) (fun j => x i * x j * M i j + (if Z.eqb j i then del * (x j * x j * M j j) else 0)))%R.
  - apply rsum_ext. intros j Hj. rewrite (Z.eqb_sym j i). destruct (Z.eqb_spec i j) as [<-|]; ring.
  - rewrite rsum_add. f_equal. apply (rsum_delta _ i (fun j => del * (x j * x j * M j j))%R); [apply zrange_NoDup|exact Hi].
Qed.
Lemma rsum_pos_elem (l : list Z) f k : (forall i, In i l -> 0 <= f i)%R -> In k l -> (0 < f k)%R -> (0 < rsum l f)%R.
Proof.
  induction l as [|y l IH]; intros Hf Hk Hp; [destruct Hk|]. cbn [rsum]. destruct Hk as [->|Hk].
  - pose proof (rsum_nonneg l f ltac:(intros; apply Hf; now right)). lra.
  - pose proof (Hf y (or_introl eq_refl)). pose proof (IH (fun i Hi => Hf i (or_intror Hi)) Hk Hp). lra.
Qed.

(** ** stored derivatives in conjugate-gradient mode *)
Lemma os_table n N (re im : Z -> Z -> R) : 0 <= n -> 0 <= N ->
  let st := loop 0 N (fun i st => loop 0 n (fun si (st : (Z -> R) * (Z -> R)) =>
      (upd (fst st) (si + i * n) (re i si), upd (snd st) (si + i * n) (im i si))) st) ((fun _ => 0%R), (fun _ => 0%R)) in
  forall i si, 0 <= i < N -> 0 <= si < n -> fst st (si + i * n) = re i si /\ snd st (si + i * n) = im i si.
Proof.
  intros Hn HN. cbn zeta.
  assert (Inner : forall i (st : (Z -> R) * (Z -> R)) i' si, 0 <= si < n ->
    let r := loop 0 n (fun si (st : (Z -> R) * (Z -> R)) => (upd (fst st) (si + i * n) (re i si), upd (snd st) (si + i * n) (im i si))) st in
    fst r (si + i' * n) = (if i' =? i then re i si else fst st (si + i' * n)) /\ snd r (si + i' * n) = (if i' =? i then im i si else snd st (si + i' * n))).
  { intros i st i' si Hsi. cbn zeta.
    assert (T : forall s, 0 <= s < n -> let r := loop 0 n (fun si (st : (Z -> R) * (Z -> R)) => (upd (fst st) (si + i * n) (re i si), upd (snd st) (si + i * n) (im i si))) st in
       fst r (s + i' * n) = (if (i' =? i) && (s <? n) then re i s else fst st (s + i' * n)) /\ snd r (s + i' * n) = (if (i' =? i) && (s <? n) then im i s else snd st (s + i' * n))).
    { cbn zeta. apply (loop_inv (fun e (r : (Z -> R) * (Z -> R)) => forall s, 0 <= s < n ->
        fst r (s + i' * n) = (if (i' =? i) && (s <? e) then re i s else fst st (s + i' * n)) /\ snd r (s + i' * n) = (if (i' =? i) && (s <? e) then im i s else snd st (s + i' * n)))); [lia| |].
      - intros s Hs. destruct (Z.ltb_spec s 0); [lia|]. now rewrite andb_false_r.
      - intros e r He IH s Hs. cbn [fst snd]. rewrite !upd_get. destruct (Z.eqb_spec (s + i' * n) (e + i * n)) as [E|E].
        + assert (i' = i) by nia. subst i'. assert (s = e) by nia. subst s. rewrite Z.eqb_refl. destruct (Z.ltb_spec e (e + 1)); [split; reflexivity|lia].
        + destruct (IH s Hs) as (A & B). rewrite A, B. destruct (Z.eqb_spec i' i) as [->|]; cbn [andb]; [|split; reflexivity].
          assert (s <> e) by (intros ->; now apply E). destruct (Z.ltb_spec s e), (Z.ltb_spec s (e + 1)); try lia; split; reflexivity. }
    specialize (T si Hsi). cbn zeta in T. destruct (Z.ltb_spec si n); [|lia]. now rewrite andb_true_r in T. }
  assert (T : forall i si, 0 <= i < N -> 0 <= si < n ->
    let st := loop 0 N (fun i st => loop 0 n (fun si (st : (Z -> R) * (Z -> R)) => (upd (fst st) (si + i * n) (re i si), upd (snd st) (si + i * n) (im i si))) st) ((fun _ => 0%R), (fun _ => 0%R)) in
    (i < N -> fst st (si + i * n) = re i si /\ snd st (si + i * n) = im i si)).
  { cbn zeta. apply (loop_inv (fun e (st : (Z -> R) * (Z -> R)) => forall i si, 0 <= i < N -> 0 <= si < n -> i < e -> fst st (si + i * n) = re i si /\ snd st (si + i * n) = im i si)); [lia| |].
    - intros. lia.
    - intros e st He IH i si Hi Hsi Hie. destruct (Inner e st i si Hsi) as (A & B). rewrite A, B.
      destruct (Z.eqb_spec i e) as [->|]; [split; reflexivity|]. apply IH; lia. }
  intros i si Hi Hsi. now apply T.
Qed.
Lemma cg_vectors n (fo fg fd : Z -> R) si : 0 <= si < n ->
  let st := loop 0 n (fun si (st : (Z -> R) * (Z -> R) * (Z -> R)) => let '(o, g, d) := st in (upd o si (fo si), upd g si (fg si), upd d si (fd si)))
     ((fun _ => 0%R), (fun _ => 0%R), (fun _ => 0%R)) in
  fst (fst st) si = fo si /\ snd (fst st) si = fg si /\ snd st si = fd si.
Proof.
  intros Hsi. cbn zeta.
  assert (T : forall s, 0 <= s < n -> s < n -> let st := loop 0 n (fun si (st : (Z -> R) * (Z -> R) * (Z -> R)) => let '(o, g, d) := st in (upd o si (fo si), upd g si (fg si), upd d si (fd si)))
     ((fun _ => 0%R), (fun _ => 0%R), (fun _ => 0%R)) in fst (fst st) s = fo s /\ snd (fst st) s = fg s /\ snd st s = fd s).
  { cbn zeta. apply (loop_inv (fun e (st : (Z -> R) * (Z -> R) * (Z -> R)) => forall s, 0 <= s < n -> s < e -> fst (fst st) s = fo s /\ snd (fst st) s = fg s /\ snd st s = fd s)); [lia| |].
    - intros. lia.
    - intros e ((o, g), d) He IH s Hs Hse. cbn [fst snd]. rewrite !upd_get. destruct (Z.eqb_spec s e) as [->|]; [repeat split|]. apply IH; lia. }
  apply T; lia.
Qed.
