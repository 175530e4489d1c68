(** The real routines compute the same numbers as the complex ones on real data. *)
From Coq Require Import ZArith List Bool Lia Reals Lra FunctionalExtensionality.
From Coquelicot Require Import Complex.
From Verif Require Import Base.ZLoop Base.Checked Base.RSum Proj.Model Proj.Spec Proj.Proofs Pf.Model Slater.Model Green.Model Rel.Model.
Import ListNotations.
Local Open Scope Z_scope.

Definition rc (c : C) (r : R) : Prop := c = RtoC r.
Definition ra (a : Z -> C) (b : Z -> R) : Prop := forall i, rc (a i) (b i).
Definition rp (a : (Z -> C) * (Z -> C)) (b : (Z -> R) * (Z -> R)) : Prop := ra (fst a) (fst b) /\ ra (snd a) (snd b).
Lemma rc_0 : rc Pf.Model.czero 0. Proof. reflexivity. Qed.
Lemma rc_plus a b x y : rc a x -> rc b y -> rc (Cplus a b) (x + y). Proof. intros -> ->. unfold rc. now rewrite RtoC_plus. Qed.
Lemma rc_mult a b x y : rc a x -> rc b y -> rc (Cmult a b) (x * y). Proof. intros -> ->. unfold rc. now rewrite RtoC_mult. Qed.
Lemma rc_minus a b x y : rc a x -> rc b y -> rc (Cminus a b) (x - y). Proof. intros -> ->. unfold rc. now rewrite RtoC_minus. Qed.
Lemma rc_opp a x : rc a x -> rc (Copp a) (- x). Proof. intros ->. unfold rc. now rewrite RtoC_opp. Qed.
Lemma rc_inv a x : rc a x -> rc (Cinv a) (/ x).
Proof.
  intros ->. unfold rc. destruct (Req_dec x 0) as [->|H]; [|now rewrite RtoC_inv].
  unfold Cinv, RtoC. cbn [fst snd]. replace (0 ^ 2 + 0 ^ 2)%R with 0%R by ring. unfold Rdiv. rewrite Rinv_0. f_equal; ring.
Qed.
Lemma ra_at a b i : ra a b -> rc (a i) (b i). Proof. intros H. apply H. Qed.
Lemma ra_const : ra (fun _ => Pf.Model.czero) (fun _ => 0%R). Proof. intros i. reflexivity. Qed.
Lemma ra_upd a b i v r : ra a b -> rc v r -> ra (upd a i v) (upd b i r).
Proof. intros H Hv j. unfold rc. rewrite !upd_get. destruct (j =? i); [exact Hv|apply H]. Qed.
Lemma ra_add a b i v r : ra a b -> rc v r -> ra (Pf.Model.cadd a i v) (radd b i r).
Proof. intros H Hv. unfold Pf.Model.cadd, radd. apply ra_upd; [exact H|]. apply rc_plus; [apply H|exact Hv]. Qed.
Lemma loop_rel {A B} (P : A -> B -> Prop) a b f g : forall x y, (forall i x y, P x y -> P (f i x) (g i y)) -> P x y -> P (loop a b f x) (loop a b g y).
Proof.
  unfold loop. intros x y Hf. revert x y. induction (zrange a b) as [|i l IH]; intros x y H; cbn; [exact H|]. apply IH. now apply Hf.
Qed.
Lemma loop_rel_in {A B} (P : A -> B -> Prop) a b f g : forall x y, (forall i x y, a <= i < b -> P x y -> P (f i x) (g i y)) -> P x y -> P (loop a b f x) (loop a b g y).
Proof.
  unfold loop. assert (H : forall i, In i (zrange a b) -> a <= i < b) by (intros i; apply zrange_in). revert H. generalize (zrange a b) as l.
  intros l Hl x y Hf. revert x y. induction l as [|i l IH]; intros x y H; cbn; [exact H|]. apply IH; [intros; apply Hl; now right|]. apply Hf; [apply Hl; now left|exact H].
Qed.
Ltac rel := repeat (cbv zeta; first
  [ assumption | exact rc_0 | exact ra_const | apply rc_plus | apply rc_mult | apply rc_minus | apply rc_opp | apply rc_inv | apply ra_upd | apply ra_add
  | apply (loop_rel rc); intros | apply (loop_rel ra); intros | match goal with H : ra ?a ?b |- rc (?a _) (?b _) => apply H | |- rc (loop _ _ _ _ _) (loop _ _ _ _ _) => apply ra_at | |- rc (upd _ _ _ _) (upd _ _ _ _) => apply ra_at end ]).

Section Pf.
Variables (N Ne n : Z) (Sl : Z -> C) (sl : Z -> R).
Hypothesis HSl : ra Sl sl.
Lemma new_pfm_rel ma s x q0 q1 I i P p B b : ra I i -> ra P p -> ra B b ->
  ra (calculate_new_pfm N Ne n Sl ma s x q0 q1 I P B) (calculate_new_pfm_real N Ne n sl ma s x q0 q1 i p b).
Proof. intros HI HP HB. unfold calculate_new_pfm, calculate_new_pfm_real, Pf.Model.Nsite2. rel. Qed.
Lemma four_rel a b (f : Z -> C * C * C * C -> C * C * C * C) g x y :
  let P := fun (u : C * C * C * C) (v : R * R * R * R) => let '(u1, u2, u3, u4) := u in let '(v1, v2, v3, v4) := v in rc u1 v1 /\ rc u2 v2 /\ rc u3 v3 /\ rc u4 v4 in
  (forall i u v, P u v -> P (f i u) (g i v)) -> P x y -> P (loop a b f x) (loop a b g y).
Proof. intros P. apply loop_rel. Qed.
Lemma new_two_child_rel ma s mb t x q0 q I i P p B b : ra I i -> ra P p -> ra B b ->
  ra (calculate_new_pfm_two_child N Ne n Sl ma s mb t x q0 q I P B) (calculate_new_pfm_two_child_real N Ne n sl ma s mb t x q0 q i p b).
Proof.
  intros HI HP HB. unfold calculate_new_pfm_two_child, calculate_new_pfm_two_child_real, Pf.Model.Nsite2. cbv zeta.
  match goal with |- ra (match ?L with pair _ _ => _ end) (match ?l with pair _ _ => _ end) => assert (H4 : let '(u1, u2, u3, u4) := L in let '(v1, v2, v3, v4) := l in rc u1 v1 /\ rc u2 v2 /\ rc u3 v3 /\ rc u4 v4);
    [|destruct L as (((A1, A2), A3), A4); destruct l as (((a1, a2), a3), a4)] end.
  { apply four_rel; [|repeat split; exact rc_0]. intros j (((u1, u2), u3), u4) (((v1, v2), v3), v4) (H1 & H2 & H3 & H4). repeat split; rel. }
  destruct H4 as (H1 & H2 & H3 & H4). rel.
Qed.
Lemma new_two_rel ma s mb t x q0 q1 I i P p B b : ra I i -> ra P p -> ra B b ->
  ra (calculate_new_pfm_two N Ne n Sl ma s mb t x q0 q1 I P B) (calculate_new_pfm_two_real N Ne n sl ma s mb t x q0 q1 i p b).
Proof.
  intros HI HP HB. unfold calculate_new_pfm_two, calculate_new_pfm_two_real. destruct (_ =? _); [now apply new_pfm_rel|]. apply (loop_rel ra); [|exact HB]. intros. now apply new_two_child_rel.
Qed.
Lemma update_child_rel ma s x q0 q I i P p : ra I i -> ra P p ->
  rp (update_mall_child N Ne n Sl ma s x q0 q I P) (update_mall_child_real N Ne n sl ma s x q0 q i p).
Proof.
  intros HI HP. unfold update_mall_child, update_mall_child_real, Pf.Model.Nsite2. cbv zeta.
  split; cbn [fst snd]; rel.
Qed.
Lemma update_rel ma s x q0 q1 A a : rp A a -> rp (update_mall N Ne n Sl ma s x q0 q1 A) (update_mall_real N Ne n sl ma s x q0 q1 a).
Proof. intros H. unfold update_mall, update_mall_real. apply loop_rel; [|exact H]. intros i (I, P) (j, p) (H1 & H2). now apply update_child_rel. Qed.
Lemma update_two_body_rel msa msb rsa rsb mo mo' rs q0 q I i P p : rc mo mo' -> ra I i -> ra P p ->
  rp (update_mall_two_body N n Sl msa msb rsa rsb mo rs q0 q I P) (update_mall_two_body_real N n sl msa msb rsa rsb mo' rs q0 q i p).
Proof.
  intros Hm HI HP. unfold update_mall_two_body, update_mall_two_body_real, Pf.Model.Nsite2. cbv zeta.
  set (VS := upd (loop 0 n _ _) msb mo). set (vs := upd (loop 0 n _ _) msb mo').
  assert (HS : ra VS vs) by (unfold VS, vs; rel). clearbody VS vs.
  set (VT := loop 0 n (fun msi v => upd v msi (Sl _)) _). set (vt := loop 0 n (fun msi v => upd v msi (sl _)) _).
  assert (HT : ra VT vt) by (unfold VT, vt; rel). clearbody VT vt.
  match goal with |- rp (match ?L with pair _ _ => _ end) (match ?l with pair _ _ => _ end) => assert (HP2 : rp L l); [|destruct L as (VP, VQ); destruct l as (vp, vq)] end.
  { apply loop_rel; [|split; exact ra_const]. intros j X Y HX. apply loop_rel; [|exact HX]. intros k (X1, X2) (Y1, Y2) (K1 & K2). cbn [fst snd] in *. split; cbn [fst snd]; rel. }
  destruct HP2 as (HVP & HVQ). cbn [fst snd] in HVP, HVQ.
  set (BM := loop 0 n (fun msi bMa => Cplus bMa _) _). set (bm := loop 0 n (fun msi bMa => Rplus bMa _) _).
  assert (HBM : rc BM bm) by (unfold BM, bm; rel). clearbody BM bm.
  set (DET := Cminus (Cminus _ _) (Cmult _ (I (q * n * n + msa * n + msb)))). set (det := Rminus (Rminus _ _) (Rmult _ (i (q * n * n + msa * n + msb)))).
  assert (HD : rc DET det) by (unfold DET, det; rel). clearbody DET det.
  set (VS' := loop 0 n (fun msi v => upd v msi (Cmult (Cinv DET) (I (q * n * n + msa * n + msi)))) _). set (vs' := loop 0 n (fun msi v => upd v msi (Rmult (Rinv det) (i (q * n * n + msa * n + msi)))) _).
  assert (HS' : ra VS' vs') by (unfold VS', vs'; rel). clearbody VS' vs'.
  set (VT' := loop 0 n (fun msi v => upd v msi (Cmult (Cinv DET) (I (q * n * n + msb * n + msi)))) _). set (vt' := loop 0 n (fun msi v => upd v msi (Rmult (Rinv det) (i (q * n * n + msb * n + msi)))) _).
  assert (HT' : ra VT' vt') by (unfold VT', vt'; rel). clearbody VT' vt'.
  split; cbn [fst snd]; rel.
Qed.
Lemma update_two_rel ma s mb t ra' rb' x q0 q1 A a : rp A a -> rp (update_mall_two N Ne n Sl ma s mb t ra' rb' x q0 q1 A) (update_mall_two_real N Ne n sl ma s mb t ra' rb' x q0 q1 a).
Proof.
  intros H. unfold update_mall_two, update_mall_two_real. apply loop_rel; [|exact H]. intros i (I, P) (j, p) (H1 & H2). cbn [fst snd] in *. unfold update_mall_two_child, update_mall_two_child_real. cbv zeta. apply update_two_body_rel; [apply HSl|exact H1|exact H2].
Qed.
End Pf.
