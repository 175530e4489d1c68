From Coq Require Import ZArith List Bool Lia Reals Lra.
From Coquelicot Require Import Complex.
From Verif Require Import Base.ZLoop Base.RSum Pf.Pfaffian Pf.Spec Pf.Proofs Slater.Model Slater.Spec.
Import ListNotations.
Local Open Scope Z_scope.

(** ** loops that touch what we look at in one iteration only *)
Lemma loop_miss {St V} a b (f : Z -> St -> St) (get : St -> V) s0 : (forall i s, a <= i < b -> get (f i s) = get s) -> get (loop a b f s0) = get s0.
Proof.
  intros H. destruct (Z_le_gt_dec a b) as [Hab|]; [|now rewrite loop_nil by lia].
  apply (loop_inv (fun _ s => get s = get s0)); [assumption|reflexivity|]. intros i s Hi IH. now rewrite H.
Qed.
Lemma loop_once {St V} a b (f : Z -> St -> St) (get : St -> V) (g : V -> V) i0 s0 : a <= i0 < b ->
  (forall s, get (f i0 s) = g (get s)) -> (forall i s, a <= i < b -> i <> i0 -> get (f i s) = get s) -> get (loop a b f s0) = g (get s0).
Proof.
  intros H0 Hhit Hmiss.
  assert (H : get (loop a b f s0) = if i0 <? b then g (get s0) else get s0).
  { apply (loop_inv (fun e s => get s = if i0 <? e then g (get s0) else get s0)); [lia| |].
    - destruct (Z.ltb_spec i0 a); [lia|reflexivity].
    - intros i s Hi IH. destruct (Z.eq_dec i i0) as [->|Hne].
      + rewrite Hhit, IH. destruct (Z.ltb_spec i0 i0), (Z.ltb_spec i0 (i0 + 1)); try lia. reflexivity.
      + rewrite Hmiss, IH by assumption. destruct (Z.ltb_spec i0 i), (Z.ltb_spec i0 (i + 1)); try lia; reflexivity. }
  rewrite H. destruct (Z.ltb_spec i0 b); [reflexivity|lia].
Qed.
Lemma loop_hit {St V} a b (f : Z -> St -> St) (get : St -> V) i0 v s0 : a <= i0 < b ->
  (forall s, get (f i0 s) = v) -> (forall i s, a <= i < b -> i <> i0 -> get (f i s) = get s) -> get (loop a b f s0) = v.
Proof. intros. apply (loop_once a b f get (fun _ => v) i0); assumption. Qed.

(** ** numbering *)
Lemma mixed_unique k a b a' b' : 0 <= b < k -> 0 <= b' < k -> a * k + b = a' * k + b' -> a = a' /\ b = b'.
Proof. intros. destruct (Z.div_mod_unique k a a' b b'); [lia|lia|lia|auto]. Qed.
Lemma mixed_div k a b : 0 <= b < k -> (a * k + b) / k = a.
Proof. intros. rewrite Z.div_add_l, Z.div_small by lia. lia. Qed.
Lemma mixed_mod k a b : 0 <= b < k -> (a * k + b) mod k = b.
Proof. intros. rewrite Z.add_comm, Z_mod_plus_full. now apply Z.mod_small. Qed.
Lemma mixed_range n k a b : 0 <= a < n -> 0 <= b < k -> 0 <= a * k + b < n * k.
Proof. nia. Qed.
Lemma projection_range S o m s : in_range S o m s -> 0 <= projection S o m s < NQPFull S.
Proof.
  intros (Ho & Hm & Hs). unfold projection, NQPFull, NQPFix.
  replace (NSPGaussLeg S * NMPTrans S * NQPOptTrans S) with ((NQPOptTrans S * NMPTrans S) * NSPGaussLeg S) by ring.
  apply mixed_range; [apply mixed_range|]; assumption.
Qed.
Lemma projection_inj S o m s o' m' s' : in_range S o m s -> in_range S o' m' s' -> projection S o m s = projection S o' m' s' -> o = o' /\ m = m' /\ s = s'.
Proof.
  intros (Ho & Hm & Hs) (Ho' & Hm' & Hs') E. apply mixed_unique in E; [|assumption|assumption].
  destruct E as (E & ->). apply mixed_unique in E; [|assumption|assumption]. tauto.
Qed.
Lemma projection_surj S q : 0 < NSPGaussLeg S -> 0 < NMPTrans S -> 0 <= q < NQPFull S -> exists o m s, in_range S o m s /\ q = projection S o m s.
Proof.
  intros HG HM Hq. unfold NQPFull, NQPFix in Hq.
  exists (q / NSPGaussLeg S / NMPTrans S), ((q / NSPGaussLeg S) mod NMPTrans S), (q mod NSPGaussLeg S).
  assert (E1 := Z.div_mod q (NSPGaussLeg S) ltac:(lia)). assert (E2 := Z.div_mod (q / NSPGaussLeg S) (NMPTrans S) ltac:(lia)).
  assert (H1 := Z.mod_pos_bound q (NSPGaussLeg S) HG). assert (H2 := Z.mod_pos_bound (q / NSPGaussLeg S) (NMPTrans S) HM).
  split; [|unfold projection; lia]. repeat split; try lia.
  - apply Z.div_pos; [apply Z.div_pos|]; lia.
  - apply Z.div_lt_upper_bound; [lia|]. apply Z.div_lt_upper_bound; lia.
Qed.
Lemma projection_parts S o m s : in_range S o m s ->
  projection S o m s / NQPFix S = o /\ (projection S o m s mod NQPFix S) / NSPGaussLeg S = m /\ projection S o m s mod NSPGaussLeg S = s /\
  projection S o m s / NSPGaussLeg S = o * NMPTrans S + m.
Proof.
  intros (Ho & Hm & Hs).
  assert (E : projection S o m s = o * NQPFix S + (m * NSPGaussLeg S + s)) by (unfold projection, NQPFix; ring).
  assert (R : 0 <= m * NSPGaussLeg S + s < NQPFix S) by (unfold NQPFix; rewrite (Z.mul_comm (NSPGaussLeg S) (NMPTrans S)); apply mixed_range; assumption).
  rewrite E, mixed_div, mixed_mod by assumption. rewrite mixed_div by assumption. rewrite <- E.
  unfold projection. rewrite mixed_mod, mixed_div by assumption. tauto.
Qed.
Lemma csum_product n k (F : Z -> C) : 0 <= n -> 0 <= k -> csum (zrange 0 (n * k)) F = csum (zrange 0 n) (fun a => csum (zrange 0 k) (fun b => F (a * k + b))).
Proof.
  intros Hn Hk. revert n Hn. apply natlike_ind.
  - reflexivity.
  - intros n Hn IH. unfold Z.succ. rewrite csum_snoc' by assumption. rewrite <- IH.
    rewrite (zrange_app 0 (n * k) ((n + 1) * k)) by nia. rewrite csum_app. f_equal.
    replace (n * k) with (0 + n * k) at 1 by ring. replace ((n + 1) * k) with (k + n * k) by ring. rewrite zrange_shift.
    generalize (zrange 0 k). induction l as [|x l IHl]; cbn; [reflexivity|]. rewrite IHl. f_equal. f_equal. ring.
Qed.
Lemma csum_projection S (F : Z -> C) : 0 <= NSPGaussLeg S -> 0 <= NMPTrans S -> 0 <= NQPOptTrans S ->
  csum (zrange 0 (NQPFull S)) F = csum (zrange 0 (NQPOptTrans S)) (fun o => csum (zrange 0 (NMPTrans S)) (fun m => csum (zrange 0 (NSPGaussLeg S)) (fun s => F (projection S o m s)))).
Proof.
  intros. unfold NQPFull, NQPFix. replace (NSPGaussLeg S * NMPTrans S * NQPOptTrans S) with ((NQPOptTrans S * NMPTrans S) * NSPGaussLeg S) by ring.
  rewrite csum_product by nia. rewrite csum_product by nia. reflexivity.
Qed.

(** ** Legendre polynomials *)
Lemma legendre_ok x n : legendre_poly x n = legendre (Z.to_nat n) x.
Proof.
  unfold legendre_poly. destruct (Z.leb_spec n 0) as [H|H].
  - replace (Z.to_nat n) with 0%nat by lia. reflexivity.
  - destruct (Z.eqb_spec n 1) as [->|H1]; [reflexivity|].
    set (f := fun i (st : R * R * R) => _).
    assert (I : let '(p1, p2, p3) := loop 2 (n + 1) f (1%R, x, 0%R) in
      p1 = legendre (Z.to_nat (n - 1)) x /\ p2 = legendre (Z.to_nat n) x /\ (2 < n + 1 -> p3 = p2)).
    { replace (n - 1) with (n + 1 - 2) by lia. replace (Z.to_nat n) with (Z.to_nat (n + 1 - 1)) by (f_equal; lia).
      apply (loop_inv (fun e st => let '(p1, p2, p3) := st in p1 = legendre (Z.to_nat (e - 2)) x /\ p2 = legendre (Z.to_nat (e - 1)) x /\ (2 < e -> p3 = p2))); [lia| |].
      - cbn. repeat split; lia.
      - intros e [[p1 p2] p3] He (-> & -> & _). cbn.
        replace (e + 1 - 2) with (e - 1) by lia. replace (e + 1 - 1) with e by lia. split; [reflexivity|]. split; [|reflexivity].
        replace (Z.to_nat e) with (Datatypes.S (Datatypes.S (Z.to_nat (e - 2)))) by lia.
        replace (Z.to_nat (e - 1)) with (Datatypes.S (Z.to_nat (e - 2))) by lia.
        cbn [legendre]. rewrite INR_IZR_INZ, Z2Nat.id by lia. rewrite minus_IZR.
        replace (IZR e) with (IZR e - 2 + 2)%R at 1 by ring.
        assert (IZR e >= 2)%R by (apply Rle_ge, IZR_le; lia).
        field. lra. }
    destruct (loop 2 (n + 1) f (1%R, x, 0%R)) as [[p1 p2] p3]. destruct I as (_ & -> & I). apply I. lia.
Qed.

(** ** angles and weights *)
Definition get3 (s : Z) (st : (Z -> R) * (Z -> R) * (Z -> R) * (Z -> R) * (Z -> R) * (Z -> C)) : R * R * R := let '(co, si, cs, cc, ss, fx) := st in (cs s, cc s, ss s).
Definition getfix (p : Z) (st : (Z -> R) * (Z -> R) * (Z -> R) * (Z -> R) * (Z -> R) * (Z -> C)) : C := let '(co, si, cs, cc, ss, fx) := st in fx p.
Section Weights.
Variables (S : sizes) (stot : Z) (beta weight : Z -> R) (para opt0 : Z -> C) (flag : bool).
Hypothesis HG : 0 < NSPGaussLeg S.
Hypothesis HM : 0 < NMPTrans S.
Definition A0 := init_qp_weight S stot beta weight para flag opt0.
Lemma init_angles s : 0 <= s < NSPGaussLeg S ->
  let h := half S beta s in
  SPGLCosSin A0 s = (cos h * sin h)%R /\ SPGLCosCos A0 s = (cos h * cos h)%R /\ SPGLSinSin A0 s = (sin h * sin h)%R.
Proof.
  intros Hs h. unfold h, half, A0, init_qp_weight. destruct (Z.eqb_spec (NSPGaussLeg S) 1) as [E|E].
  - cbn. rewrite cos_0, sin_0. replace s with 0 by lia. rewrite upd_same. repeat split; lra.
  - match goal with |- context [loop 0 (NSPGaussLeg S) ?f ?s0] => set (F := f); set (init := s0) end.
    assert (H1 : get3 s (loop 0 (NSPGaussLeg S) F init)
      = ((cos (beta s / 2) * sin (beta s / 2))%R, (cos (beta s / 2) * cos (beta s / 2))%R, (sin (beta s / 2) * sin (beta s / 2))%R)).
    { replace (beta s / 2)%R with (0.5 * beta s)%R by lra. apply (loop_hit 0 (NSPGaussLeg S) F (get3 s) s); [assumption| |].
      - intros [[[[[co si] cs] cc] ss] fx]. unfold F, get3. now rewrite !upd_same.
      - intros i [[[[[co si] cs] cc] ss] fx] Hi Hne. unfold F, get3. rewrite !upd_same, !upd_other by lia. reflexivity. }
    destruct (loop 0 (NSPGaussLeg S) F init) as [[[[[co si] cs] cc] ss] fx]. unfold get3 in H1; cbn. injection H1 as -> -> ->. tauto.
Qed.
Lemma init_fix m s : 0 <= m < NMPTrans S -> 0 <= s < NSPGaussLeg S ->
  QPFixWeight A0 (m * NSPGaussLeg S + s) = Cmult (RtoC (spin_weight S stot beta weight s)) (para m).
Proof.
  intros Hm Hs. unfold spin_weight, A0, init_qp_weight. destruct (Z.eqb_spec (NSPGaussLeg S) 1) as [E|E].
  - cbn. rewrite E. replace (m * 1 + s) with m by lia.
    rewrite (loop_hit 0 (NMPTrans S) (fun j (f : Z -> C) => upd f j (para j)) (fun f => f m) m (para m)).
    + ring.
    + assumption.
    + intros. apply upd_same.
    + intros. apply upd_other. lia.
  - match goal with |- context [loop 0 (NSPGaussLeg S) ?f ?s0] => set (F := f); set (init := s0) end.
    assert (H1 : getfix (m * NSPGaussLeg S + s) (loop 0 (NSPGaussLeg S) F init)
      = Cmult (RtoC (sin (beta s) / 2 * weight s * legendre (Z.to_nat stot) (cos (beta s)))) (para m)).
    { apply (loop_hit 0 (NSPGaussLeg S) F (getfix (m * NSPGaussLeg S + s)) s); [assumption| |].
      - intros [[[[[co si] cs] cc] ss] fx]. unfold F, getfix. rewrite legendre_ok.
        apply (loop_hit 0 (NMPTrans S) (fun j (f : Z -> C) => upd f (s + j * NSPGaussLeg S) _) (fun f => f (m * NSPGaussLeg S + s)) m); [assumption| |].
        + intros. rewrite Z.add_comm, upd_same. apply f_equal2; [|reflexivity]. apply f_equal. replace (0.5 * sin (beta s))%R with (sin (beta s) / 2)%R by lra. reflexivity.
        + intros i f Hi Hne. apply upd_other. intros C0. apply Hne. destruct (mixed_unique (NSPGaussLeg S) m s i s); lia.
      - intros i [[[[[co si] cs] cc] ss] fx] Hi Hne. unfold F, getfix.
        apply (loop_miss 0 (NMPTrans S) (fun j (f : Z -> C) => upd f (i + j * NSPGaussLeg S) _) (fun f => f (m * NSPGaussLeg S + s))).
        intros j f Hj. apply upd_other. intros C0. apply Hne. destruct (mixed_unique (NSPGaussLeg S) m s j i); lia. }
    destruct (loop 0 (NSPGaussLeg S) F init) as [[[[[co si] cs] cc] ss] fx]. unfold getfix in H1; cbn. exact H1.
Qed.
Lemma full_weight full opt o m s : (flag = false -> NQPOptTrans S = 1) -> in_range S o m s ->
  update_qp_weight S flag opt (QPFixWeight A0) full (projection S o m s) = Cmult (opt_weight flag opt o) (Cmult (RtoC (spin_weight S stot beta weight s)) (para m)).
Proof.
  intros Hf (Ho & Hm & Hs). rewrite <- init_fix by assumption.
  assert (E : projection S o m s = o * NQPFix S + (m * NSPGaussLeg S + s)) by (unfold projection, NQPFix; ring).
  assert (R : 0 <= m * NSPGaussLeg S + s < NQPFix S) by (unfold NQPFix; rewrite (Z.mul_comm (NSPGaussLeg S) (NMPTrans S)); apply mixed_range; assumption).
  unfold update_qp_weight, opt_weight. rewrite E. destruct flag.
  - apply (loop_hit 0 (NQPOptTrans S) _ (fun f : Z -> C => f (o * NQPFix S + (m * NSPGaussLeg S + s))) o); [assumption| |].
    + intros f. apply (loop_hit 0 (NQPFix S) _ (fun f : Z -> C => f (o * NQPFix S + (m * NSPGaussLeg S + s))) (m * NSPGaussLeg S + s)); [assumption| |].
      * intros. apply upd_same.
      * intros. apply upd_other. lia.
    + intros i f Hi Hne. apply (loop_miss 0 (NQPFix S) _ (fun f : Z -> C => f (o * NQPFix S + (m * NSPGaussLeg S + s)))).
      intros j g Hj. apply upd_other. intros C0. apply mixed_unique in C0; [|assumption|assumption]. lia.
  - replace o with 0 by (specialize (Hf eq_refl); lia). rewrite Z.mul_0_l, Z.add_0_l.
    rewrite (loop_hit 0 (NQPFix S) _ (fun f : Z -> C => f (m * NSPGaussLeg S + s)) (m * NSPGaussLeg S + s) (QPFixWeight A0 (m * NSPGaussLeg S + s))).
    + ring.
    + assumption.
    + intros. apply upd_same.
    + intros. apply upd_other. lia.
Qed.
End Weights.
