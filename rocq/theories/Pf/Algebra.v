(** Algebra of the rank-two and rank-four updates *)
From Coq Require Import ZArith List Bool Reals Lia Lra.
From Coquelicot Require Import Complex.
From Verif Require Import Base.ZLoop Base.RSum Pf.Pfaffian.
Import ListNotations.
Local Open Scope C_scope.
Local Notation "0" := (RtoC 0) : C_scope.
Local Notation "1" := (RtoC 1) : C_scope.

Lemma delta_refl i : delta i i = 1. Proof. unfold delta. now rewrite Z.eqb_refl. Qed.
Lemma delta_ne i j : i <> j -> delta i j = 0. Proof. intros. unfold delta. destruct (Z.eqb_spec i j); tauto. Qed.
Lemma delta_sym i j : delta i j = delta j i. Proof. unfold delta. now rewrite Z.eqb_sym. Qed.

Section One.
Variables (l : list Z) (A X : Z -> Z -> C) (a : Z) (v : Z -> C).
Hypothesis Hnd : NoDup l.
Hypothesis HA : skewsym A l.
Hypothesis HX : skewsym X l.
Hypothesis Hinv : left_inverse l X A.
Hypothesis Ha : In a l.
Hypothesis Hva : v a = 0.

Definition pvec (w : Z -> C) (i : Z) : C := csum l (fun j => X i j * w j).
(** the updated inverse, entry by entry *)
Definition inv1 (i j : Z) : C :=
  let p := pvec v in let q := fun k => X a k * (- / p a) in
  X i j + (p i * q j - p j * q i) - delta j a * q i + delta i a * q j.

Lemma X_diag i : In i l -> X i i = 0.
Proof. intros Hi. apply C_self_opp. now apply HX. Qed.
Lemma pvec_A w k : In k l -> csum l (fun j => pvec w j * A j k) = - w k.
Proof.
  intros Hk. unfold pvec.
  rewrite (csum_ext l _ (fun j => csum l (fun m => X j m * w m * A j k))) by (intros; now rewrite <- csum_scal_r).
  rewrite csum_swap. rewrite (csum_ext l _ (fun m => delta k m * (- w m))).
  - now rewrite csum_delta.
  - intros m Hm. rewrite (csum_ext l _ (fun j => (- w m) * (X m j * A j k))).
    + rewrite csum_scal, Hinv by assumption. rewrite delta_sym. ring.
    + intros j Hj. rewrite (HX m j) by assumption. ring.
Qed.
Lemma pvec_anti u w : csum l (fun j => pvec u j * w j) = - csum l (fun j => pvec w j * u j).
Proof.
  unfold pvec.
  rewrite (csum_ext l (fun j => csum l (fun m => X j m * u m) * w j) (fun j => csum l (fun m => X j m * u m * w j))) by (intros; now rewrite <- csum_scal_r).
  rewrite (csum_ext l (fun j => csum l (fun m => X j m * w m) * u j) (fun j => csum l (fun m => X j m * w m * u j))) by (intros; now rewrite <- csum_scal_r).
  rewrite csum_swap, <- csum_opp. apply csum_ext. intros j Hj. rewrite <- csum_opp. apply csum_ext. intros m Hm. rewrite (HX j m) by assumption. ring.
Qed.
Lemma pvec_self u : csum l (fun j => pvec u j * u j) = 0.
Proof. apply C_self_opp. apply pvec_anti. Qed.

Lemma inv1_row i k : In i l -> In k l -> pvec v a <> 0 -> csum l (fun j => inv1 i j * setrow A a v j k) = delta i k.
Proof.
  intros Hi Hk Hp. set (p := pvec v) in *. set (q := fun k => X a k * (- / p a)).
  assert (Eq : forall B, csum l (fun j => inv1 i j * B j) =
     csum l (fun j => X i j * B j) + p i * csum l (fun j => q j * B j) - q i * csum l (fun j => p j * B j) - q i * B a + delta i a * csum l (fun j => q j * B j)).
  { intros B. rewrite (csum_ext l (fun j => inv1 i j * B j)
      (fun j => X i j * B j + p i * (q j * B j) + (- q i) * (p j * B j) + (- q i) * (delta a j * B j) + delta i a * (q j * B j))).
    - rewrite !csum_add, !csum_scal, csum_delta by assumption. ring.
    - intros j Hj. unfold inv1. fold p. fold (q j) (q i). rewrite (delta_sym j a). ring. }
  destruct (Z.eq_dec k a) as [->|Hka].
  - (* column a: minus v *)
    rewrite (csum_ext l _ (fun j => inv1 i j * (- v j))).
    2:{ intros j Hj. unfold setrow. rewrite Z.eqb_refl. destruct (Z.eqb_spec j a) as [->|]; [rewrite Hva; ring|reflexivity]. }
    rewrite (Eq (fun j => - v j)).
    rewrite (csum_ext l (fun j => X i j * - v j) (fun j => - (X i j * v j))) by (intros; ring).
    rewrite (csum_ext l (fun j => q j * - v j) (fun j => (/ p a) * (X a j * v j))) by (intros; unfold q; ring).
    rewrite (csum_ext l (fun j => p j * - v j) (fun j => - (p j * v j))) by (intros; ring).
    rewrite !csum_opp, csum_scal. fold (pvec v i) (pvec v a). rewrite (pvec_self v : csum l (fun j => p j * v j) = 0), Hva. fold p.
    assert (/ p a * p a = 1) by (rewrite Cmult_comm; now apply Cinv_r). rewrite H. ring.
  - rewrite (csum_ext l _ (fun j => inv1 i j * (A j k + delta a j * (v k - A a k)))).
    2:{ intros j Hj. unfold setrow. destruct (Z.eqb_spec k a); [tauto|]. destruct (Z.eqb_spec j a) as [->|Hja].
        - rewrite delta_refl. ring.
        - rewrite delta_ne by congruence. ring. }
    rewrite (Eq (fun j => A j k + delta a j * (v k - A a k))).
    assert (Sp : forall f, csum l (fun j => f j * (A j k + delta a j * (v k - A a k))) = csum l (fun j => f j * A j k) + f a * (v k - A a k)).
    { intros f. rewrite (csum_ext l _ (fun j => f j * A j k + delta a j * (f j * (v k - A a k)))) by (intros; ring). rewrite csum_add, csum_delta by assumption. reflexivity. }
    rewrite !Sp, delta_refl. fold p. rewrite Hinv by assumption. rewrite (pvec_A v k Hk : csum l (fun j => p j * A j k) = _).
    rewrite (csum_ext l (fun j => q j * A j k) (fun j => (- / p a) * (X a j * A j k))) by (intros; unfold q; ring).
    rewrite csum_scal, Hinv by assumption. rewrite (delta_ne a k) by congruence.
    assert (Xa : X i a = p a * q i). { unfold q. rewrite (HX a i) by assumption. assert (p a * / p a = 1) by now apply Cinv_r. transitivity ((p a * / p a) * - X a i); [rewrite H; ring|ring]. }
    assert (qa : q a = 0) by (unfold q; rewrite X_diag by assumption; ring). rewrite Xa, qa. ring.
Qed.
Lemma inv1_skew : skewsym inv1 l.
Proof. intros i j Hi Hj. unfold inv1. rewrite (HX i j) by assumption. ring. Qed.
Lemma pf1 : pf (setrow A a v) l = - pvec v a * pf A l.
Proof.
  rewrite (pf_row A X l a v HA Hnd Ha Hinv). unfold pvec. rewrite (csum_ext l (fun k => v k * X k a) (fun k => - (X a k * v k))).
  - rewrite csum_opp. ring.
  - intros k Hk. rewrite (HX a k) by assumption. ring.
Qed.
End One.

Section Two.
Variables (l : list Z) (A X : Z -> Z -> C) (a b : Z) (v w : Z -> C).
Hypothesis Hnd : NoDup l.
Hypothesis HA : skewsym A l.
Hypothesis HX : skewsym X l.
Hypothesis Hinv : left_inverse l X A.
Hypothesis Ha : In a l.
Hypothesis Hb : In b l.
Hypothesis Hab : a <> b.
Hypothesis Hva : v a = 0.
Hypothesis Hwb : w b = 0.

Notation p := (pvec l X v).
Notation q := (pvec l X w).
Definition bMa : C := csum l (fun i => w i * pvec l X v i).
Definition ratio2 : C := X a b * w a + X a b * bMa + pvec l X v a * pvec l X w b - pvec l X v b * pvec l X w a.
Definition two : Z -> Z -> C := setrow (setrow A a v) b w.

Lemma pf2_generic : pvec l X v a <> 0 -> pf two l = ratio2 * pf A l.
Proof.
  intros Hp. unfold two.
  rewrite (pf_row (setrow A a v) (inv1 l X a v) l b w); [|now apply setrow_skew|assumption|assumption|].
  2:{ intros i k Hi Hk. now apply inv1_row. }
  rewrite (pf1 l A X a v) by assumption.
  rewrite (csum_ext l _ (fun k => - (X b k * w k) + (- (X a b * / p a)) * (w k * p k) + (p b * / p a) * (X a k * w k) + delta a k * (w k * (- (X a b * / p a))))).
  2:{ intros k Hk. unfold inv1. rewrite (HX b k) by assumption. rewrite (delta_ne b a), (delta_sym k a) by congruence. ring. }
  rewrite !csum_add, csum_opp, !csum_scal, csum_delta by assumption. fold bMa. fold (q a) (q b). unfold ratio2.
  assert (E : p a * / p a = 1) by now apply Cinv_r.
  transitivity ((p a * q b + (p a * / p a) * (X a b * bMa) - (p a * / p a) * (p b * q a) + (p a * / p a) * (X a b * w a)) * pf A l); [ring|].
  rewrite E. ring.
Qed.

End Two.

(** both sides are affine along v + t (row a of A) *)
Lemma setrow_setrow_swap A a b w (x : Z -> C) i j : a <> b -> setrow (setrow A a x) b w i j = setrow (setrow A b w) a (fun k => if (k =? b)%Z then - w a else x k) i j.
Proof.
  intros Hab. unfold setrow. destruct (Z.eqb_spec i b), (Z.eqb_spec j b), (Z.eqb_spec i a), (Z.eqb_spec j a); subst; try congruence; try reflexivity; ring.
Qed.

Lemma pvec_comb l X v u t i : pvec l X (fun j => v j + t * u j) i = pvec l X v i + t * pvec l X u i.
Proof. unfold pvec. rewrite <- csum_scal, <- csum_add. apply csum_ext. intros. ring. Qed.
Lemma pvec_row l A X a i : skewsym A l -> left_inverse l X A -> In i l -> In a l -> pvec l X (A a) i = - delta i a.
Proof.
  intros HA Hinv Hi Ha. unfold pvec. rewrite (csum_ext l _ (fun j => - (X i j * A j a))).
  - rewrite csum_opp, Hinv by assumption. reflexivity.
  - intros j Hj. rewrite (HA j a) by assumption. ring.
Qed.
Lemma ratio2_comb l A X a b v w t : NoDup l -> skewsym A l -> left_inverse l X A -> In a l -> In b l -> a <> b ->
  ratio2 l X a b (fun j => v j + t * A a j) w = ratio2 l X a b v w - t * (X a b * w a) - t * pvec l X w b.
Proof.
  intros Hnd HA Hinv Ha Hb Hab. unfold ratio2, bMa. rewrite !pvec_comb.
  rewrite (csum_ext l _ (fun i => w i * pvec l X v i + (- t) * (delta a i * w i))).
  2:{ intros i Hi. rewrite pvec_comb, (pvec_row l A X a i) by assumption. rewrite (delta_sym i a). ring. }
  rewrite csum_add, csum_scal, csum_delta by assumption.
  rewrite (pvec_row l A X a a), (pvec_row l A X a b), delta_refl, (delta_ne b a) by (assumption || congruence).
  ring.
Qed.
Lemma pf_two_comb l A a b w v u : NoDup l -> In a l -> In b l -> a <> b ->
  pf (two A a b v w) l + pf (two A a b (fun j => v j + RtoC 2 * u j) w) l = RtoC 2 * pf (two A a b (fun j => v j + 1 * u j) w) l.
Proof.
  intros Hnd Ha Hb Hab. destruct (pf_row_linear (setrow A b w) l a Hnd Ha) as (c & Hc & Hl).
  assert (E : forall x, pf (two A a b x w) l = csum l (fun z => (if (z =? b)%Z then - w a else x z) * c z)).
  { intros x. rewrite <- Hl. apply (pf_ext _ _ (length l)); [apply le_n|]. intros. now apply setrow_setrow_swap. }
  rewrite !E, <- csum_add, <- csum_scal. apply csum_ext. intros z Hz. replace (RtoC 2) with (1 + 1) by (rewrite <- RtoC_plus; reflexivity).
  destruct (z =? b)%Z; ring.
Qed.
Lemma pf2 l A X a b v w : NoDup l -> skewsym A l -> skewsym X l -> left_inverse l X A -> In a l -> In b l -> a <> b -> v a = 0 ->
  pf (two A a b v w) l = ratio2 l X a b v w * pf A l.
Proof.
  intros Hnd HA HX Hinv Ha Hb Hab Hva.
  destruct (Ceq_dec (pvec l X v a) 0) as [H0|Hn]; [|now apply pf2_generic].
  assert (HAa : A a a = 0) by (apply C_self_opp; now apply HA).
  assert (G : forall t, t <> 0 -> pf (two A a b (fun j => v j + t * A a j) w) l = ratio2 l X a b (fun j => v j + t * A a j) w * pf A l).
  { intros t Ht. apply pf2_generic; try assumption.
    - rewrite Hva, HAa. ring.
    - rewrite pvec_comb, H0, (pvec_row l A X a a), delta_refl by assumption. intros E. apply Ht. transitivity (- (0 + t * - (1))); [ring|]. rewrite E. ring. }
  pose proof (pf_two_comb l A a b w v (A a) Hnd Ha Hb Hab) as Hc.
  rewrite (G 1), (G (RtoC 2)) in Hc.
  2:{ intros E. apply RtoC_inj in E. lra. }
  2:{ intros E. apply RtoC_inj in E. lra. }
  rewrite !(ratio2_comb l A X a b v w) in Hc by assumption.
  replace (RtoC 2) with (1 + 1) in Hc by (rewrite <- RtoC_plus; reflexivity).
  match type of Hc with ?x + ?y = ?z => transitivity (z - y); [rewrite <- Hc; ring|ring] end.
Qed.

Section TwoInv.
Variables (l : list Z) (A X : Z -> Z -> C) (a b : Z) (v w : Z -> C).
Hypothesis Hnd : NoDup l.
Hypothesis HA : skewsym A l.
Hypothesis HX : skewsym X l.
Hypothesis Hinv : left_inverse l X A.
Hypothesis Ha : In a l.
Hypothesis Hb : In b l.
Hypothesis Hab : a <> b.
Hypothesis Hva : v a = 0.
Hypothesis Hwb : w b = 0.
Notation p := (pvec l X v).
Notation q := (pvec l X w).
Notation D := (ratio2 l X a b v w).
(** the updated inverse, entry by entry, with the coefficients of the code *)
Definition inv2 (i j : Z) : C :=
  let ca := - p a in let cb := p b in let cc := q a in let cd := - q b in
  let ce := - bMa l X v w - w a in let cf := X a b in
  let s := fun k => / D * X a k in let t := fun k => / D * X b k in
  let fi := cf * / D in
  X i j + (ca * (q i * t j - q j * t i) + cb * (q i * s j - q j * s i) + cc * (p i * t j - p j * t i) + cd * (p i * s j - p j * s i)
           + ce * D * (s i * t j - s j * t i) + fi * (p i * q j - q i * p j))
  + delta j a * (- cc * t i - cd * s i - fi * q i) + delta j b * (- ca * t i - cb * s i + fi * p i)
  + delta i a * (cc * t j + cd * s j + fi * q j) + delta i b * (ca * t j + cb * s j - fi * p j)
  + delta i a * delta j b * fi - delta i b * delta j a * fi.
Lemma inv2_skew : skewsym inv2 l.
Proof. intros i j Hi Hj. unfold inv2. rewrite (HX i j) by assumption. ring. Qed.
Lemma det_is_ratio : - p a * - q b - p b * q a - (- bMa l X v w - w a) * X a b = D.
Proof. unfold ratio2. ring. Qed.
Lemma inv2_row i k : In i l -> In k l -> D <> 0 -> csum l (fun j => inv2 i j * two A a b v w j k) = delta i k.
Proof.
  intros Hi Hk HD.
  set (B := fun j => two A a b v w j k).
  set (L := fun f => csum l (fun j => f j * B j)).
  change (L (inv2 i) = delta i k).
  set (ca := - p a). set (cb := p b). set (cc := q a). set (cd := - q b). set (ce := - bMa l X v w - w a). set (cf := X a b).
  set (s := fun k => / D * X a k). set (t := fun k => / D * X b k). set (fi := cf * / D).
  assert (E : L (inv2 i) = L (X i)
     + (ca * (q i * L t - t i * L q) + cb * (q i * L s - s i * L q) + cc * (p i * L t - t i * L p) + cd * (p i * L s - s i * L p)
        + ce * D * (s i * L t - t i * L s) + fi * (p i * L q - q i * L p))
     + (- cc * t i - cd * s i - fi * q i) * B a + (- ca * t i - cb * s i + fi * p i) * B b
     + delta i a * (cc * L t + cd * L s + fi * L q) + delta i b * (ca * L t + cb * L s - fi * L p)
     + delta i a * fi * B b - delta i b * fi * B a).
  { unfold L at 1. rewrite (csum_ext l _ (fun j => X i j * B j
      + (ca * q i + cc * p i + ce * D * s i + delta i a * cc + delta i b * ca) * (t j * B j)
      + (cb * q i + cd * p i - ce * D * t i + delta i a * cd + delta i b * cb) * (s j * B j)
      + (- ca * t i - cb * s i + fi * p i + delta i a * fi) * (q j * B j)
      + (- cc * t i - cd * s i - fi * q i - delta i b * fi) * (p j * B j)
      + (- cc * t i - cd * s i - fi * q i - delta i b * fi) * (delta a j * B j)
      + (- ca * t i - cb * s i + fi * p i + delta i a * fi) * (delta b j * B j))).
    - rewrite !csum_add, !csum_scal, !csum_delta by assumption. unfold L. ring.
    - intros j Hj. unfold inv2. fold ca cb cc cd ce cf fi. fold (s i) (s j) (t i) (t j). rewrite (delta_sym j a), (delta_sym j b). ring. }
  rewrite E. clear E.
  assert (Ls : L s = / D * L (X a)). { unfold L, s. rewrite <- csum_scal. apply csum_ext. intros. ring. }
  assert (Lt : L t = / D * L (X b)). { unfold L, t. rewrite <- csum_scal. apply csum_ext. intros. ring. }
  assert (DD : D * / D = 1) by now apply Cinv_r.
  assert (Xaa : X a a = 0) by (apply C_self_opp; now apply HX).
  assert (Xbb : X b b = 0) by (apply C_self_opp; now apply HX).
  assert (Xba : X b a = - cf) by now apply HX.
  assert (Xia : X i a = - (D * s i)). { unfold s. rewrite (HX a i) by assumption. transitivity (- ((D * / D) * X a i)); [rewrite DD|]; ring. }
  assert (Xib : X i b = - (D * t i)). { unfold t. rewrite (HX b i) by assumption. transitivity (- ((D * / D) * X b i)); [rewrite DD|]; ring. }
  assert (DE : D = ca * cd - cb * cc - ce * cf) by (unfold ca, cb, cc, cd, ce, cf, ratio2; ring).
  destruct (Z.eq_dec k b) as [->|Hkb]; [|destruct (Z.eq_dec k a) as [->|Hka]].
  - (* column b *)
    assert (LB : forall f, L f = - csum l (fun j => f j * w j)).
    { intros f. unfold L. rewrite <- csum_opp. apply csum_ext. intros j Hj. unfold B, two, setrow at 1. rewrite Z.eqb_refl.
      destruct (Z.eqb_spec j b) as [->|]; [rewrite Hwb; ring|ring]. }
    assert (LX : forall x, L (X x) = - q x) by (intros; apply LB).
    assert (LP : L p = - bMa l X v w). { rewrite LB. unfold bMa. f_equal. apply csum_ext. intros. ring. }
    assert (LQ : L q = 0). { rewrite LB, pvec_self by assumption. ring. }
    assert (Ba : B a = - w a). { unfold B, two, setrow at 1. rewrite Z.eqb_refl. destruct (Z.eqb_spec a b); [tauto|reflexivity]. }
    assert (Bb : B b = 0). { unfold B, two, setrow at 1. rewrite Z.eqb_refl. reflexivity. }
    assert (LP' : L p = ce + w a) by (rewrite LP; unfold ce; ring).
    assert (Qb : q b = - cd) by (unfold cd; ring).
    rewrite Ls, Lt, !LX, LP', LQ, Ba, Bb, Qb. change (q a) with cc. unfold fi.
    clearbody ca cb cc cd ce cf s t L B. clear - DE HD.
    revert HD DE. generalize (ratio2 l X a b v w) (p i) (q i) (s i) (t i) (delta i a) (delta i b) (w a).
    intros d pp qq ss tt da db wa HD ->. field. exact HD.
  - (* column a *)
    assert (LB : forall f, L f = - csum l (fun j => f j * v j) + f b * (v b + w a)).
    { intros f. rewrite <- (csum_delta l b (fun j => f j * (v j + w a)) Hnd Hb), <- csum_opp, <- csum_add. unfold L. apply csum_ext. intros j Hj.
      unfold B, two, setrow. rewrite Z.eqb_refl. destruct (Z.eqb_spec j b) as [->|Hjb].
      - rewrite delta_refl. destruct (Z.eqb_spec a b); [tauto|]. ring.
      - rewrite delta_ne by congruence. destruct (Z.eqb_spec a b); [tauto|]. destruct (Z.eqb_spec j a) as [->|]; [rewrite Hva; ring|ring]. }
    assert (LX : forall x, L (X x) = - p x + X x b * (v b + w a)) by (intros; apply LB).
    assert (LP : L p = cb * (v b + w a)). { rewrite LB, pvec_self by assumption. unfold cb. ring. }
    assert (LQ : L q = - ce - w a - cd * (v b + w a)).
    { rewrite LB, pvec_anti by assumption. unfold ce, bMa, cd. rewrite (csum_ext l (fun j => p j * w j) (fun j => w j * p j)) by (intros; ring). ring. }
    assert (Ba : B a = 0). { unfold B, two, setrow. rewrite Z.eqb_refl. destruct (Z.eqb_spec a b); [tauto|reflexivity]. }
    assert (Bb : B b = w a). { unfold B, two, setrow. rewrite Z.eqb_refl. destruct (Z.eqb_spec a b); [tauto|reflexivity]. }
    assert (Pa : p a = - ca) by (unfold ca; ring).
    rewrite Ls, Lt, !LX, LP, LQ, Ba, Bb, Pa, Xbb, Xib. change (X a b) with cf. change (p b) with cb. unfold fi.
    clearbody ca cb cc cd ce cf s t L B. clear - DE HD.
    revert HD DE. generalize (ratio2 l X a b v w) (p i) (q i) (s i) (t i) (delta i a) (delta i b) (w a) (v b).
    intros d pp qq ss tt da db wa vb HD ->. field. exact HD.
  - (* other columns *)
    assert (LB : forall f, L f = csum l (fun j => f j * A j k) + f a * (v k - A a k) + f b * (w k - A b k)).
    { intros f. rewrite <- (csum_delta l b (fun j => f j * (w k - A b k)) Hnd Hb), <- (csum_delta l a (fun j => f j * (v k - A a k)) Hnd Ha), <- !csum_add. unfold L. apply csum_ext. intros j Hj.
      unfold B, two, setrow. destruct (Z.eqb_spec k a); [tauto|]. destruct (Z.eqb_spec k b); [tauto|]. destruct (Z.eqb_spec j b) as [->|Hjb].
      - rewrite delta_refl, delta_ne by congruence. ring.
      - rewrite (delta_ne b j) by congruence. destruct (Z.eqb_spec j a) as [->|]; [rewrite delta_refl; ring|rewrite delta_ne by congruence; ring]. }
    assert (LXi : L (X i) = delta i k - D * s i * (v k - A a k) - D * t i * (w k - A b k)) by (rewrite LB, Hinv, Xia, Xib by assumption; ring).
    assert (LXa : L (X a) = cf * (w k - A b k)) by (rewrite LB, Hinv, Xaa, delta_ne by (assumption || congruence); unfold cf; ring).
    assert (LXb : L (X b) = - cf * (v k - A a k)) by (rewrite LB, Hinv, Xbb, Xba, delta_ne by (assumption || congruence); ring).
    assert (LP : L p = - v k - ca * (v k - A a k) + cb * (w k - A b k)). { rewrite LB, (pvec_A l A X) by assumption. unfold ca, cb. ring. }
    assert (LQ : L q = - w k + cc * (v k - A a k) - cd * (w k - A b k)). { rewrite LB, (pvec_A l A X) by assumption. unfold cc, cd. ring. }
    assert (Ba : B a = v k). { unfold B, two, setrow. destruct (Z.eqb_spec k a); [tauto|]. destruct (Z.eqb_spec k b); [tauto|]. destruct (Z.eqb_spec a b); [tauto|]. now rewrite Z.eqb_refl. }
    assert (Bb : B b = w k). { unfold B, two, setrow. destruct (Z.eqb_spec k b); [tauto|]. now rewrite Z.eqb_refl. }
    rewrite Ls, Lt, LXi, LXa, LXb, LP, LQ, Ba, Bb. unfold fi.
    clearbody ca cb cc cd ce cf s t L B. clear - DE HD.
    revert HD DE. generalize (ratio2 l X a b v w) (p i) (q i) (s i) (t i) (delta i a) (delta i b) (delta i k) (v k) (w k) (A a k) (A b k).
    intros d pp qq ss tt da db dk vk wk Aa Ab HD ->. field. exact HD.
Qed.
End TwoInv.
