From Coq Require Import ZArith List Bool Reals Lia Lra.
From Coquelicot Require Import Coquelicot.
From Verif Require Import Base.ZLoop Base.Checked Base.RSum Slater.Derive Slater.Spec Rbm.Model Rbm.Spec Rbm.Proofs Rbm.ProofsRatio.
Import ListNotations.
Local Open Scope Z_scope.

(** ** derivatives *)
Lemma cderive_cexp F d : cderive F d -> cderive (fun t => cexp (F t)) (Cmult d (cexp (F R0))).
Proof.
  intros [A B]. unfold cexp. split; cbn [fst snd Cmult].
  - apply (is_derive_ext (fun t => (exp (fst (F t)) * cos (snd (F t)))%R)); [reflexivity|].
    evar_last; [apply is_derive_Reals; apply (derivable_pt_lim_mult (fun t => exp (fst (F t))) (fun t => cos (snd (F t))))|].
    + apply (derivable_pt_lim_comp (fun t => fst (F t)) exp); [apply is_derive_Reals; exact A|apply derivable_pt_lim_exp].
    + apply (derivable_pt_lim_comp (fun t => snd (F t)) cos); [apply is_derive_Reals; exact B|apply derivable_pt_lim_cos].
    + match goal with |- @eq _ ?a ?b => change (@eq R a b) end. ring.
  - apply (is_derive_ext (fun t => (exp (fst (F t)) * sin (snd (F t)))%R)); [reflexivity|].
    evar_last; [apply is_derive_Reals; apply (derivable_pt_lim_mult (fun t => exp (fst (F t))) (fun t => sin (snd (F t))))|].
    + apply (derivable_pt_lim_comp (fun t => fst (F t)) exp); [apply is_derive_Reals; exact A|apply derivable_pt_lim_exp].
    + apply (derivable_pt_lim_comp (fun t => snd (F t)) sin); [apply is_derive_Reals; exact B|apply derivable_pt_lim_sin].
    + match goal with |- @eq _ ?a ?b => change (@eq R a b) end. ring.
Qed.
Definition logd (F : R -> C) (x : C) : Prop := cderive F (Cmult x (F R0)).
Lemma logd_mult F G x y : logd F x -> logd G y -> logd (fun t => Cmult (F t) (G t)) (Cplus x y).
Proof.
  unfold logd. intros A B. replace (Cmult (Cplus x y) (Cmult (F R0) (G R0))) with (Cplus (Cmult (Cmult x (F R0)) (G R0)) (Cmult (F R0) (Cmult y (G R0)))) by ring.
  now apply cderive_mult.
Qed.
Lemma logd_exp F d : cderive F d -> logd (fun t => cexp (F t)) d.
Proof. apply cderive_cexp. Qed.
Lemma logd_prod {A} (l : list A) (F : R -> A -> C) (x : A -> C) : (forall a, In a l -> logd (fun t => F t a) (x a)) -> logd (fun t => cprod l (F t)) (csum l x).
Proof.
  induction l as [|a l IH]; intros H; cbn [cprod csum].
  - unfold logd. rewrite Cmult_0_l. apply cderive_const.
  - apply (logd_mult (fun t => F t a) (fun t => cprod l (F t))); [apply H; now left|]. apply IH. intros; apply H; now right.
Qed.
Lemma logd_cosh F d : ccosh (F R0) <> RtoC 0 -> cderive F d -> logd (fun t => ccosh (F t)) (Cmult (ctanh (F R0)) d).
Proof.
  intros Hc HF. unfold logd.
  assert (A := cderive_cexp F d HF).
  assert (HFo : cderive (fun t => Copp (F t)) (Copp d)).
  { apply (cderive_ext (fun t => Cminus (RtoC 0) (F t))); [intros; ring|]. replace (Copp d) with (Cminus (RtoC 0) d) by ring. apply cderive_minus; [apply cderive_const|assumption]. }
  assert (B := cderive_cexp (fun t => Copp (F t)) (Copp d) HFo).
  assert (S := cderive_plus _ _ _ _ A B).
  assert (K := cderive_mult _ (fun _ => Cinv (RtoC 2)) _ (RtoC 0) S (cderive_const _)).
  cbv beta in K. match type of K with cderive _ ?v => replace (Cmult (Cmult (ctanh (F R0)) d) (ccosh (F R0))) with v; [exact K|] end.
  unfold ctanh, ccosh. field. split; [apply C2_0|].
  intros E. apply Hc. unfold ccosh. rewrite E. unfold Cdiv. apply Cmult_0_l.
Qed.
Lemma logd_unshift F x : logd F x -> log_derivative F x.
Proof. intros [A B]. split; apply is_derive_Reals; assumption. Qed.

Section M.
Variable M : machine.
Hypothesis Hwf : wf_machine M.
Variable W : Z -> C.
Variable e : Z -> Z.
Notation N := (Nsite M).
Ltac sizes := pose proof (wf_sizes M Hwf); unfold nRBM, NRBM, Nneuron, NPhys, NHid, NPh in *; lia.

(** one weight moves along direction d *)
Variables (p : Z) (d : C).
Definition moved_w (t : R) : Z -> C := upd W p (Cplus (W p) (Cmult (RtoC t) d)).
Lemma moved_0 k : moved_w R0 k = W k.
Proof. unfold moved_w, upd. destruct (Z.eqb_spec k p); [subst; change (RtoC R0) with (RtoC 0); ring|reflexivity]. Qed.
Definition hit (k : Z) : C := if k =? p then d else RtoC 0.
Lemma moved_derive k : cderive (fun t => moved_w t k) (hit k).
Proof.
  unfold moved_w, hit, upd. destruct (k =? p); [apply cderive_affine|apply cderive_const].
Qed.
Lemma moved_lin k x : cderive (fun t => Cmult (moved_w t k) x) (Cmult (hit k) x).
Proof.
  assert (H := cderive_mult (fun t => moved_w t k) (fun _ => x) _ _ (moved_derive k) (cderive_const x)).
  cbv beta in H. replace (Cmult (hit k) x) with (Cplus (Cmult (hit k) x) (Cmult (moved_w R0 k) (RtoC 0))) by ring. exact H.
Qed.
Lemma moved_sum sz (k : Z -> Z) (x : Z -> C) : cderive (fun t => csum (zrange 0 sz) (fun r => Cmult (moved_w t (k r)) (x r))) (csum (zrange 0 sz) (fun r => Cmult (hit (k r)) (x r))).
Proof. apply (cderive_csum (zrange 0 sz) (fun t r => Cmult (moved_w t (k r)) (x r))). intros. apply moved_lin. Qed.
Lemma cderive_if (b : bool) F g : cderive F g -> cderive (fun t => if b then F t else RtoC 0) (if b then g else RtoC 0).
Proof. destruct b; [trivial|]. intros _. apply cderive_const. Qed.

Definition dvisible : C := Cplus (Cplus
  (if 0 <? NPhysC M then csum (zrange 0 N) (fun r => Cmult (hit (PhysC M r)) (zc (charge M e r))) else RtoC 0)
  (if 0 <? NPhysS M then csum (zrange 0 N) (fun r => Cmult (hit (NPhysC M + PhysS M r)) (zc (spin M e r))) else RtoC 0))
  (if 0 <? NPhysG M then csum (zrange 0 (2 * N)) (fun r => Cmult (hit (NPhysC M + NPhysS M + PhysG M r)) (zc (general e r))) else RtoC 0).
Definition dtheta (nh np sz h : Z) (kh : Z -> Z) (kp : Z -> Z -> Z) (x : Z -> Z) : C := Cplus
  (if 0 <? nh then hit (kh h) else RtoC 0)
  (if 0 <? np then csum (zrange 0 sz) (fun r => Cmult (hit (kp r h)) (zc (x r))) else RtoC 0).
Definition dC (h : Z) : C := dtheta (NHidC M) (NPhC M) N h (fun h => NPhys M + HidC M h) (fun r h => NPhys M + NHid M + PhC M r h) (charge M e).
Definition dS (h : Z) : C := dtheta (NHidS M) (NPhS M) N h (fun h => NPhys M + (NHidC M + HidS M h)) (fun r h => NPhys M + NHid M + (NPhC M + PhS M r h)) (spin M e).
Definition dG (h : Z) : C := dtheta (NHidG M) (NPhG M) (2 * N) h (fun h => NPhys M + (NHidC M + NHidS M + HidG M h)) (fun r h => NPhys M + NHid M + (NPhC M + NPhS M + PhG M r h)) (general e).

Lemma theta_derive (nh np sz h : Z) (kh : Z -> Z) (kp : Z -> Z -> Z) (x : Z -> Z) :
  cderive (fun t => Cplus (if 0 <? nh then moved_w t (kh h) else RtoC 0) (if 0 <? np then csum (zrange 0 sz) (fun r => Cmult (moved_w t (kp r h)) (zc (x r))) else RtoC 0))
    (dtheta nh np sz h kh kp x).
Proof.
  apply (cderive_plus (fun t => if 0 <? nh then moved_w t (kh h) else RtoC 0) (fun t => if 0 <? np then csum (zrange 0 sz) (fun r => Cmult (moved_w t (kp r h)) (zc (x r))) else RtoC 0)).
  - apply (cderive_if (0 <? nh) (fun t => moved_w t (kh h))). apply moved_derive.
  - apply (cderive_if (0 <? np) (fun t => csum (zrange 0 sz) (fun r => Cmult (moved_w t (kp r h)) (zc (x r))))). apply (moved_sum sz (fun r => kp r h) (fun r => zc (x r))).
Qed.
Lemma theta_0 (nh np sz h : Z) (kh : Z -> Z) (kp : Z -> Z -> Z) (x : Z -> Z) :
  Cplus (if 0 <? nh then moved_w R0 (kh h) else RtoC 0) (if 0 <? np then csum (zrange 0 sz) (fun r => Cmult (moved_w R0 (kp r h)) (zc (x r))) else RtoC 0) =
  Cplus (if 0 <? nh then W (kh h) else RtoC 0) (if 0 <? np then csum (zrange 0 sz) (fun r => Cmult (W (kp r h)) (zc (x r))) else RtoC 0).
Proof. rewrite moved_0. f_equal. destruct (0 <? np); [|reflexivity]. apply csum_ext. intros. now rewrite moved_0. Qed.

Definition dall : C := Cplus dvisible (Cplus (Cplus
  (csum (zrange 0 (NneuronC M)) (fun h => Cmult (ctanh (thetaC M W e h)) (dC h)))
  (csum (zrange 0 (NneuronS M)) (fun h => Cmult (ctanh (thetaS M W e h)) (dS h))))
  (csum (zrange 0 (NneuronG M)) (fun h => Cmult (ctanh (thetaG M W e h)) (dG h)))).

Hypothesis Hc : forall h, 0 <= h < NneuronC M -> ccosh (thetaC M W e h) <> RtoC 0.
Hypothesis Hs : forall h, 0 <= h < NneuronS M -> ccosh (thetaS M W e h) <> RtoC 0.
Hypothesis Hg : forall h, 0 <= h < NneuronG M -> ccosh (thetaG M W e h) <> RtoC 0.
Lemma machine_derive : logd (fun t => machine_weight M (moved_w t) e) dall.
Proof.
  unfold machine_weight, dall. apply (logd_mult (fun t => cexp (visible M (moved_w t) e)) (fun t => hidden M (moved_w t) e)).
  - apply logd_exp. unfold visible, dvisible.
    apply (cderive_plus (fun t => Cplus (if 0 <? NPhysC M then csum (zrange 0 N) (fun r => Cmult (moved_w t (PhysC M r)) (zc (charge M e r))) else RtoC 0)
        (if 0 <? NPhysS M then csum (zrange 0 N) (fun r => Cmult (moved_w t (NPhysC M + PhysS M r)) (zc (spin M e r))) else RtoC 0))
      (fun t => if 0 <? NPhysG M then csum (zrange 0 (2 * N)) (fun r => Cmult (moved_w t (NPhysC M + NPhysS M + PhysG M r)) (zc (general e r))) else RtoC 0)).
    apply (cderive_plus (fun t => if 0 <? NPhysC M then csum (zrange 0 N) (fun r => Cmult (moved_w t (PhysC M r)) (zc (charge M e r))) else RtoC 0)
        (fun t => if 0 <? NPhysS M then csum (zrange 0 N) (fun r => Cmult (moved_w t (NPhysC M + PhysS M r)) (zc (spin M e r))) else RtoC 0)).
    + apply (cderive_if (0 <? NPhysC M) (fun t => csum (zrange 0 N) (fun r => Cmult (moved_w t (PhysC M r)) (zc (charge M e r))))). apply (moved_sum N (PhysC M)).
    + apply (cderive_if (0 <? NPhysS M) (fun t => csum (zrange 0 N) (fun r => Cmult (moved_w t (NPhysC M + PhysS M r)) (zc (spin M e r))))). apply (moved_sum N (fun r => NPhysC M + PhysS M r)).
    + apply (cderive_if (0 <? NPhysG M) (fun t => csum (zrange 0 (2 * N)) (fun r => Cmult (moved_w t (NPhysC M + NPhysS M + PhysG M r)) (zc (general e r))))).
      apply (moved_sum (2 * N) (fun r => NPhysC M + NPhysS M + PhysG M r)).
  - unfold hidden.
    apply (logd_mult (fun t => Cmult (cprod (zrange 0 (NneuronC M)) (fun h => ccosh (thetaC M (moved_w t) e h))) (cprod (zrange 0 (NneuronS M)) (fun h => ccosh (thetaS M (moved_w t) e h))))
       (fun t => cprod (zrange 0 (NneuronG M)) (fun h => ccosh (thetaG M (moved_w t) e h)))).
    apply (logd_mult (fun t => cprod (zrange 0 (NneuronC M)) (fun h => ccosh (thetaC M (moved_w t) e h))) (fun t => cprod (zrange 0 (NneuronS M)) (fun h => ccosh (thetaS M (moved_w t) e h)))).
    + apply (logd_prod (zrange 0 (NneuronC M)) (fun t h => ccosh (thetaC M (moved_w t) e h))). intros h Hh. apply zrange_in in Hh.
      assert (E : thetaC M (moved_w R0) e h = thetaC M W e h) by (unfold thetaC; exact (theta_0 (NHidC M) (NPhC M) N h (fun h => NPhys M + HidC M h) (fun r h => NPhys M + NHid M + PhC M r h) (charge M e))).
      rewrite <- E. apply (logd_cosh (fun t => thetaC M (moved_w t) e h)); [rewrite E; now apply Hc|].
      exact (theta_derive (NHidC M) (NPhC M) N h (fun h => NPhys M + HidC M h) (fun r h => NPhys M + NHid M + PhC M r h) (charge M e)).
    + apply (logd_prod (zrange 0 (NneuronS M)) (fun t h => ccosh (thetaS M (moved_w t) e h))). intros h Hh. apply zrange_in in Hh.
      assert (E : thetaS M (moved_w R0) e h = thetaS M W e h) by (unfold thetaS; exact (theta_0 (NHidS M) (NPhS M) N h (fun h => NPhys M + (NHidC M + HidS M h)) (fun r h => NPhys M + NHid M + (NPhC M + PhS M r h)) (spin M e))).
      rewrite <- E. apply (logd_cosh (fun t => thetaS M (moved_w t) e h)); [rewrite E; now apply Hs|].
      exact (theta_derive (NHidS M) (NPhS M) N h (fun h => NPhys M + (NHidC M + HidS M h)) (fun r h => NPhys M + NHid M + (NPhC M + PhS M r h)) (spin M e)).
    + apply (logd_prod (zrange 0 (NneuronG M)) (fun t h => ccosh (thetaG M (moved_w t) e h))). intros h Hh. apply zrange_in in Hh.
      assert (E : thetaG M (moved_w R0) e h = thetaG M W e h) by (unfold thetaG; exact (theta_0 (NHidG M) (NPhG M) (2 * N) h (fun h => NPhys M + (NHidC M + NHidS M + HidG M h)) (fun r h => NPhys M + NHid M + (NPhC M + NPhS M + PhG M r h)) (general e))).
      rewrite <- E. apply (logd_cosh (fun t => thetaG M (moved_w t) e h)); [rewrite E; now apply Hg|].
      exact (theta_derive (NHidG M) (NPhG M) (2 * N) h (fun h => NPhys M + (NHidC M + NHidS M + HidG M h)) (fun r h => NPhys M + NHid M + (NPhC M + NPhS M + PhG M r h)) (general e)).
Qed.
End M.

(** ** the slots the program fills *)
Section Slots.
Variable M : machine.
Hypothesis Hwf : wf_machine M.
Variable W : Z -> C.
Variable e : Z -> Z.
Notation N := (Nsite M).
Ltac sizes := pose proof (wf_sizes M Hwf); unfold nRBM, NRBM, Nneuron, NPhys, NHid, NPh in *; lia.

(** v in slot i, I*v in slot i+1 *)
Definition two (i : Z) (v : C) (j : Z) : C := Cplus (if i =? j then v else RtoC 0) (if i + 1 =? j then Cmult Ci v else RtoC 0).
Lemma adds_put2 i v : 0 <= i -> i + 1 < 2 * NRBM M -> adds (fun O => put2 M O i v) (two i v).
Proof.
  intros H0 H1 O. unfold put2, cinc. rewrite inb_true by lia. cbn [bind]. rewrite inb_true by lia. eexists. split; [reflexivity|]. intros j.
  change (caddto (caddto O i v) (i + 1) (Cmult Ci v) j = Cplus (O j) (two i v j)). rewrite !caddto_get. unfold two. ring.
Qed.
Lemma adds_loop a b (f : Z -> (Z -> C) -> option (Z -> C)) (t : Z -> Z -> C) : (forall i, a <= i < b -> adds (f i) (t i)) ->
  adds (loopM a b f) (fun j => csum (zrange a b) (fun i => t i j)).
Proof.
  intros H. unfold loopM. assert (Hl : forall x, In x (zrange a b) -> adds (f x) (t x)) by (intros x Hx; apply H; now apply zrange_in).
  clear H. induction (zrange a b) as [|x l IH]; intros c; cbn [fold_left csum]; [eexists; split; [reflexivity|intros; ring]|].
  destruct (Hl x (or_introl eq_refl) c) as (c1 & E1 & V1). cbn [bind]. rewrite E1.
  destruct (IH (fun y Hy => Hl y (or_intror Hy)) c1) as (c2 & E2 & V2). exists c2. split; [exact E2|]. intros j. rewrite V2, V1. ring.
Qed.
Definition fam (nn sz : Z) (hid : Z -> Z) (ph : Z -> Z -> Z) (oh op : Z) (x : Z -> Z) (th : Z -> C) (j : Z) : C :=
  csum (zrange 0 nn) (fun h => Cplus (two (2 * hid h + oh) (ctanh (th h)) j)
    (csum (zrange 0 sz) (fun r => two (2 * ph r h + op) (Cmult (zc (x r)) (ctanh (th h))) j))).
Lemma adds_fam nn sz hid ph first oh op x x' c nh np : (forall h, below nn h -> below nh (hid h)) -> (forall r h, below sz r -> below nn h -> below np (ph r h)) ->
  0 <= first -> first + nn <= nRBM M -> 0 <= oh -> oh + 2 * nh <= 2 * NRBM M -> 0 <= op -> op + 2 * np <= 2 * NRBM M ->
  (forall r, below sz r -> x' r = Some (x r)) ->
  adds (diff_family M nn sz hid ph first oh op x' c) (fam nn sz hid ph oh op x (fun h => c (h + first))).
Proof.
  intros Hh Hp H0 H1 H2 H3 H4 H5 Hx. unfold diff_family, fam. apply adds_loop. intros h Hb. specialize (Hh h Hb). unfold below in Hh.
  rewrite (rd_ok nn) by lia. cbn [bind]. rewrite rd_ok by lia. cbn [bind]. cbv zeta.
  apply (adds_seq (fun O => put2 M O (2 * hid h + oh) (ctanh (c (h + first))))).
  - apply adds_put2; lia.
  - apply (adds_loop 0 sz _ (fun r => two (2 * ph r h + op) (Cmult (zc (x r)) (ctanh (c (h + first)))))). intros r Hr. specialize (Hp r h Hr Hb). unfold below in Hp.
    rewrite Hx by assumption. cbn [bind]. rewrite inb_true by lia. rewrite rd_ok by lia. cbn [bind]. apply adds_put2; lia.
Qed.
(** value of [two] at the slots of a parameter *)
Lemma two_re q v p : two (2 * q) v (2 * p) = if q =? p then v else RtoC 0.
Proof. unfold two. destruct (Z.eqb_spec (2 * q) (2 * p)), (Z.eqb_spec (2 * q + 1) (2 * p)), (Z.eqb_spec q p); try lia; ring. Qed.
Lemma two_im q v p : two (2 * q) v (2 * p + 1) = Cmult Ci (if q =? p then v else RtoC 0).
Proof. unfold two. destruct (Z.eqb_spec (2 * q) (2 * p + 1)), (Z.eqb_spec (2 * q + 1) (2 * p + 1)), (Z.eqb_spec q p); try lia; ring. Qed.

Hypothesis Hcomp : complete M.

Definition sel (b : bool) : C := if b then RtoC 1 else RtoC 0.
Definition famval (nn sz : Z) (kh : Z -> Z) (kp : Z -> Z -> Z) (x : Z -> Z) (th : Z -> C) (p : Z) : C :=
  csum (zrange 0 nn) (fun h => Cmult (ctanh (th h)) (Cplus (sel (kh h =? p)) (csum (zrange 0 sz) (fun r => Cmult (sel (kp r h =? p)) (zc (x r)))))).
Lemma fam_re nn sz hid ph oh op x th p : fam nn sz hid ph (2 * oh) (2 * op) x th (2 * p) = famval nn sz (fun h => oh + hid h) (fun r h => op + ph r h) x th p.
Proof.
  unfold fam, famval. apply csum_ext. intros h _.
  replace (2 * hid h + 2 * oh) with (2 * (oh + hid h)) by lia. rewrite two_re.
  replace (csum (zrange 0 sz) (fun r => two (2 * ph r h + 2 * op) (Cmult (zc (x r)) (ctanh (th h))) (2 * p)))
    with (Cmult (ctanh (th h)) (csum (zrange 0 sz) (fun r => Cmult (sel (op + ph r h =? p)) (zc (x r))))).
  - unfold sel. destruct (oh + hid h =? p); ring.
  - rewrite <- csum_scal. apply csum_ext. intros r _. replace (2 * ph r h + 2 * op) with (2 * (op + ph r h)) by lia. rewrite two_re. unfold sel. destruct (_ =? _); ring.
Qed.
Lemma fam_im nn sz hid ph oh op x th p : fam nn sz hid ph (2 * oh) (2 * op) x th (2 * p + 1) = Cmult Ci (famval nn sz (fun h => oh + hid h) (fun r h => op + ph r h) x th p).
Proof.
  unfold fam, famval. rewrite <- csum_scal. apply csum_ext. intros h _.
  replace (2 * hid h + 2 * oh) with (2 * (oh + hid h)) by lia. rewrite two_im.
  replace (csum (zrange 0 sz) (fun r => two (2 * ph r h + 2 * op) (Cmult (zc (x r)) (ctanh (th h))) (2 * p + 1)))
    with (Cmult Ci (Cmult (ctanh (th h)) (csum (zrange 0 sz) (fun r => Cmult (sel (op + ph r h =? p)) (zc (x r)))))).
  - unfold sel. destruct (oh + hid h =? p); ring.
  - rewrite <- !csum_scal. apply csum_ext. intros r _. replace (2 * ph r h + 2 * op) with (2 * (op + ph r h)) by lia. rewrite two_im. unfold sel. destruct (_ =? _); ring.
Qed.

Definition slot (p : Z) : C := Cplus
  (if p <? NPhys M then raw M W e p else RtoC 0) (Cplus
  (famval (NneuronC M) N (fun h => NPhys M + HidC M h) (fun r h => NPhys M + NHid M + PhC M r h) (charge M e) (thetaC M W e) p) (Cplus
  (famval (NneuronS M) N (fun h => NPhys M + (NHidC M + HidS M h)) (fun r h => NPhys M + NHid M + (NPhC M + PhS M r h)) (spin M e) (thetaS M W e) p)
  (famval (NneuronG M) (2 * N) (fun h => NPhys M + (NHidC M + NHidS M + HidG M h)) (fun r h => NPhys M + NHid M + (NPhC M + NPhS M + PhG M r h)) (general e) (thetaG M W e) p))).

Lemma famval_ext nn sz kh kh' kp kp' x th th' p : (forall h, below nn h -> kh h = kh' h) -> (forall r h, kp r h = kp' r h) -> (forall h, below nn h -> th h = th' h) ->
  famval nn sz kh kp x th p = famval nn sz kh' kp' x th' p.
Proof.
  intros A B D. unfold famval. apply csum_ext. intros h Hh. apply zrange_in in Hh. rewrite A, D by assumption. f_equal. f_equal. apply csum_ext. intros. now rewrite B.
Qed.
Lemma phys_loop c O : (forall j, 0 <= j < 2 * NRBM M -> O j = RtoC 0) ->
  exists O', loopM 0 (NPhys M) (fun idx O => ctmp <- rd (nRBM M) c idx;; O <- wr (2 * NRBM M) O (2 * idx) ctmp;; wr (2 * NRBM M) O (2 * idx + 1) (Cmult Ci ctmp)) O = Some O' /\
  forall p, 0 <= p < NRBM M -> O' (2 * p) = (if p <? NPhys M then c p else RtoC 0) /\ O' (2 * p + 1) = Cmult Ci (if p <? NPhys M then c p else RtoC 0).
Proof.
  intros HO. rewrite (loopM_pure 0 (NPhys M) _ (fun idx O => upd (upd O (2 * idx) (c idx)) (2 * idx + 1) (Cmult Ci (c idx)))).
  2:{ intros i s Hi. rewrite rd_ok by sizes. cbn [bind]. rewrite wr_ok by sizes. cbn [bind]. now rewrite wr_ok by sizes. }
  eexists. split; [reflexivity|]. intros p Hp.
  assert (G : forall n, 0 <= n -> forall p, 0 <= p < NRBM M ->
     loop 0 n (fun idx O => upd (upd O (2 * idx) (c idx)) (2 * idx + 1) (Cmult Ci (c idx))) O (2 * p) = (if p <? n then c p else RtoC 0) /\
     loop 0 n (fun idx O => upd (upd O (2 * idx) (c idx)) (2 * idx + 1) (Cmult Ci (c idx))) O (2 * p + 1) = Cmult Ci (if p <? n then c p else RtoC 0)).
  { intros n Hn. pattern n. apply (range_ind _ 0); [| |assumption].
    - intros q Hq. rewrite loop_empty by lia. destruct (Z.ltb_spec q 0); [lia|]. rewrite !HO by lia. split; [reflexivity|ring].
    - intros k Hk IH q Hq. specialize (IH q Hq). destruct IH as [I1 I2]. rewrite !loop_snoc by lia. rewrite !upd_get.
      destruct (Z.eq_dec q k) as [->|Hne].
      + rewrite (Z.eqb_refl (2 * k + 1)). destruct (Z.eqb_spec (2 * k) (2 * k + 1)); [lia|]. rewrite Z.eqb_refl. destruct (Z.ltb_spec k (k + 1)); [split; reflexivity|lia].
      + destruct (Z.eqb_spec (2 * q) (2 * k + 1)); [lia|]. destruct (Z.eqb_spec (2 * q) (2 * k)); [lia|].
        destruct (Z.eqb_spec (2 * q + 1) (2 * k + 1)); [lia|]. destruct (Z.eqb_spec (2 * q + 1) (2 * k)); [lia|]. rewrite I1, I2.
        destruct (Z.ltb_spec q k), (Z.ltb_spec q (k + 1)); try lia; split; reflexivity. }
  apply G; sizes.
Qed.
Lemma zero2_ok O : exists O', loopM 0 (2 * NRBM M) (fun idx O => wr (2 * NRBM M) O idx (RtoC 0)) O = Some O' /\ forall j, 0 <= j < 2 * NRBM M -> O' j = RtoC 0.
Proof.
  rewrite (loopM_pure 0 (2 * NRBM M) _ (fun idx c => upd c idx (RtoC 0))) by (intros; now apply wr_ok).
  eexists. split; [reflexivity|]. intros j Hj.
  assert (G : forall n, 0 <= n -> forall j, 0 <= j < n -> loop 0 n (fun idx c => upd c idx (RtoC 0)) O j = RtoC 0); [|apply G; lia].
  intros n Hn. pattern n. apply (range_ind _ 0); [lia| |assumption]. intros k Hk IH i Hi. rewrite loop_snoc by lia. unfold upd. destruct (Z.eqb_spec i k); [reflexivity|]. apply IH. lia.
Qed.
Lemma diff_slots O c : is_rbm_cnt M W e c -> exists O', rbm_diff M O c e = Some O' /\
  forall p, 0 <= p < NRBM M -> O' (2 * p) = slot p /\ O' (2 * p + 1) = Cmult Ci (slot p).
Proof.
  intros Hc. unfold rbm_diff. cbv zeta. destruct (zero2_ok O) as (O1 & -> & V1). cbn [bind]. destruct (phys_loop c O1 V1) as (O2 & -> & V2). cbn [bind].
  destruct Hcomp as (KC & KS & KG).
  assert (AC : adds (diff_family M (NneuronC M) N (HidC M) (PhC M) (NPhys M) (2 * NPhys M) (2 * NPhys M + 2 * NHid M) (xcharge M e) c)
     (fam (NneuronC M) N (HidC M) (PhC M) (2 * NPhys M) (2 * NPhys M + 2 * NHid M) (charge M e) (fun h => c (h + NPhys M)))).
  { apply (adds_fam _ _ _ _ _ _ _ (charge M e) _ _ (NHidC M) (NPhC M)); try sizes.
    - intros h Hh. apply wf_hidC; [assumption| |assumption]. unfold below in Hh. apply KC. lia.
    - intros r h Hr Hh. apply wf_phC; [assumption| |assumption|assumption]. unfold below in Hh. apply KC. lia.
    - intros; now apply xcharge_ok. }
  assert (AS : adds (diff_family M (NneuronS M) N (HidS M) (PhS M) (NPhys M + NneuronC M) (2 * NPhys M + 2 * NHidC M) (2 * NPhys M + 2 * NHid M + 2 * NPhC M) (xspin M e) c)
     (fam (NneuronS M) N (HidS M) (PhS M) (2 * NPhys M + 2 * NHidC M) (2 * NPhys M + 2 * NHid M + 2 * NPhC M) (spin M e) (fun h => c (h + (NPhys M + NneuronC M))))).
  { apply (adds_fam _ _ _ _ _ _ _ (spin M e) _ _ (NHidS M) (NPhS M)); try sizes.
    - intros h Hh. apply wf_hidS; [assumption| |assumption]. unfold below in Hh. apply KS. lia.
    - intros r h Hr Hh. apply wf_phS; [assumption| |assumption|assumption]. unfold below in Hh. apply KS. lia.
    - intros; now apply xspin_ok. }
  assert (AG : adds (diff_family M (NneuronG M) (2 * N) (HidG M) (PhG M) (NPhys M + NneuronC M + NneuronS M) (2 * NPhys M + 2 * NHidC M + 2 * NHidS M) (2 * NPhys M + 2 * NHid M + 2 * NPhC M + 2 * NPhS M) (xgeneral M e) c)
     (fam (NneuronG M) (2 * N) (HidG M) (PhG M) (2 * NPhys M + 2 * NHidC M + 2 * NHidS M) (2 * NPhys M + 2 * NHid M + 2 * NPhC M + 2 * NPhS M) (general e) (fun h => c (h + (NPhys M + NneuronC M + NneuronS M))))).
  { apply (adds_fam _ _ _ _ _ _ _ (general e) _ _ (NHidG M) (NPhG M)); try sizes.
    - intros h Hh. apply wf_hidG; [assumption| |assumption]. unfold below in Hh. apply KG. lia.
    - intros r h Hr Hh. apply wf_phG; [assumption| |assumption|assumption]. unfold below in Hh. apply KG. lia.
    - intros; now apply xgeneral_ok. }
  pose proof (adds_seq _ _ _ _ AC (adds_seq _ _ _ _ AS AG)) as A. clear AC AS AG.
  destruct (A O2) as (O3 & E3 & V3). exists O3. split; [exact E3|]. intros p Hp. destruct (V2 p Hp) as [R2 I2].
  replace (2 * NPhys M + 2 * NHidC M + 2 * NHidS M) with (2 * (NPhys M + NHidC M + NHidS M)) in V3 by lia.
  replace (2 * NPhys M + 2 * NHidC M) with (2 * (NPhys M + NHidC M)) in V3 by lia.
  replace (2 * NPhys M + 2 * NHid M + 2 * NPhC M + 2 * NPhS M) with (2 * (NPhys M + NHid M + NPhC M + NPhS M)) in V3 by lia.
  replace (2 * NPhys M + 2 * NHid M + 2 * NPhC M) with (2 * (NPhys M + NHid M + NPhC M)) in V3 by lia.
  replace (2 * NPhys M + 2 * NHid M) with (2 * (NPhys M + NHid M)) in V3 by lia.
  assert (EC : famval (NneuronC M) N (fun h => NPhys M + HidC M h) (fun r h => NPhys M + NHid M + PhC M r h) (charge M e) (fun h => c (h + NPhys M)) p =
               famval (NneuronC M) N (fun h => NPhys M + HidC M h) (fun r h => NPhys M + NHid M + PhC M r h) (charge M e) (thetaC M W e) p).
  { apply famval_ext; [reflexivity|reflexivity|]. intros h Hh. rewrite Z.add_comm. now apply (cnt_thC _ _ _ _ Hc). }
  assert (ES : famval (NneuronS M) N (fun h => NPhys M + NHidC M + HidS M h) (fun r h => NPhys M + NHid M + NPhC M + PhS M r h) (spin M e) (fun h => c (h + (NPhys M + NneuronC M))) p =
               famval (NneuronS M) N (fun h => NPhys M + (NHidC M + HidS M h)) (fun r h => NPhys M + NHid M + (NPhC M + PhS M r h)) (spin M e) (thetaS M W e) p).
  { apply famval_ext; [intros; lia|intros; lia|]. intros h Hh. rewrite Z.add_comm. now apply (cnt_thS _ _ _ _ Hc). }
  assert (EG : famval (NneuronG M) (2 * N) (fun h => NPhys M + NHidC M + NHidS M + HidG M h) (fun r h => NPhys M + NHid M + NPhC M + NPhS M + PhG M r h) (general e) (fun h => c (h + (NPhys M + NneuronC M + NneuronS M))) p =
               famval (NneuronG M) (2 * N) (fun h => NPhys M + (NHidC M + NHidS M + HidG M h)) (fun r h => NPhys M + NHid M + (NPhC M + NPhS M + PhG M r h)) (general e) (thetaG M W e) p).
  { apply famval_ext; [intros; lia|intros; lia|]. intros h Hh. rewrite Z.add_comm. now apply (cnt_thG _ _ _ _ Hc). }
  assert (ER : (if p <? NPhys M then c p else RtoC 0) = (if p <? NPhys M then raw M W e p else RtoC 0)).
  { destruct (p <? NPhys M) eqn:E; [|reflexivity]. apply (cells_raw M Hwf W e c Hc). apply Z.ltb_lt in E. sizes. }
  rewrite !V3, !fam_re, !fam_im, R2, I2, EC, ES, EG, ER. unfold slot. split; ring.
Qed.

(** the slot is the logarithmic derivative in direction 1, and I times the slot the one in direction I *)
Lemma hit_sel p d k : hit p d k = Cmult d (sel (k =? p)).
Proof. unfold hit, sel. destruct (_ =? _); ring. Qed.
Lemma vis_slot p d : dvisible M e p d = Cmult d (if p <? NPhys M then raw M W e p else RtoC 0).
Proof.
  assert (T : forall b sz (k : Z -> Z) (x : Z -> Z), (if b : bool then csum (zrange 0 sz) (fun r => Cmult (hit p d (k r)) (zc (x r))) else RtoC 0) =
     Cmult d (if b then csum (zrange 0 sz) (fun r => if k r =? p then zc (x r) else RtoC 0) else RtoC 0)).
  { intros [|] sz k x; [|ring]. rewrite <- csum_scal. apply csum_ext. intros r _. rewrite hit_sel. unfold sel. destruct (_ =? _); ring. }
  unfold dvisible. rewrite (T _ N (PhysC M)), (T _ N (fun r => NPhysC M + PhysS M r)), (T _ (2 * N) (fun r => NPhysC M + NPhysS M + PhysG M r)).
  assert (V : Cplus (Cplus (if 0 <? NPhysC M then csum (zrange 0 N) (fun r => if PhysC M r =? p then zc (charge M e r) else RtoC 0) else RtoC 0)
     (if 0 <? NPhysS M then csum (zrange 0 N) (fun r => if NPhysC M + PhysS M r =? p then zc (spin M e r) else RtoC 0) else RtoC 0))
     (if 0 <? NPhysG M then csum (zrange 0 (2 * N)) (fun r => if NPhysC M + NPhysS M + PhysG M r =? p then zc (general e r) else RtoC 0) else RtoC 0) = vis M e p).
  { unfold vis, tPhys. rewrite Cplus_assoc. f_equal; [f_equal|].
    - destruct (0 <? NPhysC M); [|reflexivity]. apply csum_ext. intros. now rewrite Z.add_0_r.
    - destruct (0 <? NPhysS M); [|reflexivity]. apply csum_ext. intros r _. now rewrite (Z.add_comm (PhysS M r)).
    - destruct (0 <? NPhysG M); [|reflexivity]. apply csum_ext. intros r _. now rewrite (Z.add_comm (PhysG M r)). }
  transitivity (Cmult d (vis M e p)); [rewrite <- V; ring|]. f_equal.
  destruct (Z.ltb_spec p (NPhys M)) as [H|H].
  - unfold raw. rewrite (bias_low M Hwf), (coup_low M Hwf) by assumption. ring.
  - now apply (vis_high M Hwf).
Qed.
Lemma dtheta_sel p d nh np sz h kh kp x : 0 < nh -> 0 < np -> dtheta p d nh np sz h kh kp x = Cmult d (Cplus (sel (kh h =? p)) (csum (zrange 0 sz) (fun r => Cmult (sel (kp r h =? p)) (zc (x r))))).
Proof.
  intros Hn Hp. unfold dtheta. destruct (Z.ltb_spec 0 nh); [|lia]. destruct (Z.ltb_spec 0 np); [|lia]. rewrite hit_sel.
  rewrite (csum_ext _ (fun r => Cmult (hit p d (kp r h)) (zc (x r))) (fun r => Cmult d (Cmult (sel (kp r h =? p)) (zc (x r))))) by (intros; rewrite hit_sel; ring).
  rewrite csum_scal. ring.
Qed.
Lemma slot_dall p d : dall M W e p d = Cmult d (slot p).
Proof.
  destruct Hcomp as (KC & KS & KG).
  unfold dall, slot. rewrite vis_slot.
  assert (F : forall nn (g k : Z -> C), (forall h, 0 <= h < nn -> g h = Cmult d (k h)) -> csum (zrange 0 nn) g = Cmult d (csum (zrange 0 nn) k)).
  { intros nn g k H. rewrite <- csum_scal. apply csum_ext. intros h Hh. apply H. now apply zrange_in. }
  unfold famval.
  rewrite (F (NneuronC M) (fun h => Cmult (ctanh (thetaC M W e h)) (dC M e p d h)) (fun h => Cmult (ctanh (thetaC M W e h)) (Cplus (sel (NPhys M + HidC M h =? p)) (csum (zrange 0 N) (fun r => Cmult (sel (NPhys M + NHid M + PhC M r h =? p)) (zc (charge M e r))))))).
  2:{ intros h Hh. unfold dC. rewrite dtheta_sel by (apply KC; lia). ring. }
  rewrite (F (NneuronS M) (fun h => Cmult (ctanh (thetaS M W e h)) (dS M e p d h)) (fun h => Cmult (ctanh (thetaS M W e h)) (Cplus (sel (NPhys M + (NHidC M + HidS M h) =? p)) (csum (zrange 0 N) (fun r => Cmult (sel (NPhys M + NHid M + (NPhC M + PhS M r h) =? p)) (zc (spin M e r))))))).
  2:{ intros h Hh. unfold dS. rewrite dtheta_sel by (apply KS; lia). ring. }
  rewrite (F (NneuronG M) (fun h => Cmult (ctanh (thetaG M W e h)) (dG M e p d h)) (fun h => Cmult (ctanh (thetaG M W e h)) (Cplus (sel (NPhys M + (NHidC M + NHidS M + HidG M h) =? p)) (csum (zrange 0 (2 * N)) (fun r => Cmult (sel (NPhys M + NHid M + (NPhC M + NPhS M + PhG M r h) =? p)) (zc (general e r))))))).
  2:{ intros h Hh. unfold dG. rewrite dtheta_sel by (apply KG; lia). ring. }
  ring.
Qed.

Lemma theta_neq0 : machine_weight M W e <> RtoC 0 ->
  (forall h, 0 <= h < NneuronC M -> ccosh (thetaC M W e h) <> RtoC 0) /\ (forall h, 0 <= h < NneuronS M -> ccosh (thetaS M W e h) <> RtoC 0) /\
  (forall h, 0 <= h < NneuronG M -> ccosh (thetaG M W e h) <> RtoC 0).
Proof.
  intros Hw. pose proof (raw_cells M Hwf W e (raw M W e) (fun _ _ => eq_refl)) as Hr. pose proof (machine_neq0 M Hwf W e _ Hr Hw) as Hz. pose proof (wf_sizes M Hwf) as Hsz.
  repeat split; intros h Hh.
  - rewrite <- (cnt_thC _ _ _ _ Hr) by assumption. rewrite Z.add_comm. apply Hz. unfold Nneuron. lia.
  - rewrite <- (cnt_thS _ _ _ _ Hr) by assumption. replace (NPhys M + NneuronC M + h) with (h + NneuronC M + NPhys M) by lia. apply Hz. unfold Nneuron. lia.
  - rewrite <- (cnt_thG _ _ _ _ Hr) by assumption. replace (NPhys M + NneuronC M + NneuronS M + h) with (h + NneuronC M + NneuronS M + NPhys M) by lia. apply Hz. unfold Nneuron. lia.
Qed.
Lemma weight_ext W1 W2 : (forall k, W1 k = W2 k) -> machine_weight M W1 e = machine_weight M W2 e.
Proof.
  intros H. unfold machine_weight, visible, hidden, thetaC, thetaS, thetaG. f_equal.
  - f_equal. f_equal; [f_equal|]; match goal with |- (if ?b then _ else _) = _ => destruct b; [|reflexivity] end; apply csum_ext; intros; now rewrite H.
  - f_equal; [f_equal|]; apply cprod_ext; intros h _; f_equal; rewrite H; f_equal; match goal with |- (if ?b then _ else _) = _ => destruct b; [|reflexivity] end; apply csum_ext; intros; now rewrite H.
Qed.
Lemma diff_ok O c : is_rbm_cnt M W e c -> machine_weight M W e <> RtoC 0 -> exists O', rbm_diff M O c e = Some O' /\
  forall p, 0 <= p < NRBM M ->
    log_derivative (fun t => machine_weight M (shift_re W p t) e) (O' (2 * p)) /\
    log_derivative (fun t => machine_weight M (shift_im W p t) e) (O' (2 * p + 1)).
Proof.
  intros Hc Hw. destruct (diff_slots O c Hc) as (O' & E & V). exists O'. split; [exact E|]. intros p Hp. destruct (V p Hp) as [-> ->].
  destruct (theta_neq0 Hw) as (TC & TS & TG). split; apply logd_unshift.
  - pose proof (machine_derive M W e p (RtoC 1) TC TS TG) as K. rewrite slot_dall, Cmult_1_l in K. unfold logd in *.
    rewrite (weight_ext (moved_w W p (RtoC 1) R0) (shift_re W p 0)) in K by (intros k; unfold moved_w, shift_re, upd; destruct (k =? p); [f_equal; unfold RtoC, Cmult; cbn; f_equal; ring|reflexivity]).
    refine (cderive_ext _ _ _ _ K). intros t. apply weight_ext. intros k. unfold moved_w, shift_re, upd. destruct (k =? p); [f_equal; unfold RtoC, Cmult; cbn; f_equal; ring|reflexivity].
  - pose proof (machine_derive M W e p Ci TC TS TG) as K. rewrite slot_dall in K. unfold logd in *.
    rewrite (weight_ext (moved_w W p Ci R0) (shift_im W p 0)) in K by (intros k; unfold moved_w, shift_im, upd; destruct (k =? p); [f_equal; unfold RtoC, Cmult, Ci; cbn; f_equal; ring|reflexivity]).
    refine (cderive_ext _ _ _ _ K). intros t. apply weight_ext. intros k. unfold moved_w, shift_im, upd. destruct (k =? p); [f_equal; unfold RtoC, Cmult, Ci; cbn; f_equal; ring|reflexivity].
Qed.
End Slots.
