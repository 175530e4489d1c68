(** A logarithm, machines used as concrete cases, and counterexamples. *)
From Coq Require Import ZArith List Bool Reals Lia Lra.
From Coquelicot Require Import Coquelicot.
From Verif Require Import Base.ZLoop Base.Checked Base.RSum Proj.Spec Slater.Derive Slater.Spec Rbm.Model Rbm.Spec Rbm.Proofs Rbm.ProofsRatio Rbm.ProofsDiff.
Import ListNotations.
Local Open Scope Z_scope.

(** ** the principal logarithm *)
Definition principal (z : C) : C := (ln (Cmod z), if Rle_dec 0 (snd z) then acos (fst z / Cmod z) else (- acos (fst z / Cmod z)))%R.
Lemma principal_log : is_log principal.
Proof.
  intros z Hz. assert (Hm : (0 < Cmod z)%R) by now apply Cmod_gt_0.
  assert (Hsq : (Rsqr (Cmod z) = fst z * fst z + snd z * snd z)%R).
  { unfold Cmod. rewrite Rsqr_sqrt; [ring|]. nra. }
  unfold Rsqr in Hsq. set (m := Cmod z) in *.
  assert (Hb : (-1 <= fst z / m <= 1)%R).
  { assert (H2 : (fst z * fst z <= m * m)%R) by nra. assert (Ha : (- m <= fst z <= m)%R) by nra.
    split; apply (Rmult_le_reg_r m); try assumption; unfold Rdiv; rewrite Rmult_assoc, Rinv_l by lra; lra. }
  assert (Hs : (m * sin (acos (fst z / m)) = Rabs (snd z))%R).
  { rewrite sin_acos by assumption. rewrite <- (sqrt_Rsqr m) at 1 by lra. rewrite <- sqrt_mult_alt by apply Rle_0_sqr.
    rewrite <- sqrt_Rsqr_abs. f_equal. unfold Rsqr. field_simplify; [|lra]. nra. }
  unfold cexp, principal. cbn [fst snd]. fold m. rewrite exp_ln by assumption. transitivity (fst z, snd z); [|now destruct z].
  destruct (Rle_dec 0 (snd z)) as [H|H].
  - rewrite cos_acos by assumption. f_equal; [field; lra|]. rewrite Hs. now apply Rabs_pos_eq.
  - rewrite cos_neg, sin_neg, cos_acos by assumption. f_equal; [field; lra|].
    replace (m * - sin (acos (fst z / m)))%R with (- (m * sin (acos (fst z / m))))%R by ring. rewrite Hs. rewrite Rabs_left by lra. ring.
Qed.

(** real weights never make the machine vanish *)
Lemma ccosh_real z : snd z = 0%R -> ccosh z <> RtoC 0.
Proof.
  intros H E. apply (f_equal fst) in E. unfold ccosh, cexp, Cdiv, Cinv, Cplus, Cmult, Copp, RtoC in E. cbn [fst snd] in E. rewrite H, Ropp_0, cos_0, sin_0 in E.
  pose proof (exp_pos (fst z)). pose proof (exp_pos (- fst z)).
  replace ((exp (fst z) * 1 + exp (- fst z) * 1) * (2 / (2 ^ 2 + 0 ^ 2)) - (exp (fst z) * 0 + exp (- fst z) * 0) * (- 0 / (2 ^ 2 + 0 ^ 2)))%R with ((exp (fst z) + exp (- fst z)) / 2)%R in E by field. lra.
Qed.
Lemma real_weight M W e : (forall k, snd (W k) = 0%R) -> machine_weight M W e <> RtoC 0.
Proof.
  intros HW. unfold machine_weight. apply Cmult_neq_0; [apply cexp_neq0|].
  assert (S : forall (b : bool) (k : Z -> Z) (l : list Z) (x : Z -> Z), snd (if b then csum l (fun r => Cmult (W (k r)) (zc (x r))) else RtoC 0) = 0%R).
  { intros [|] k l x; [|reflexivity]. rewrite csum_im. apply rsum_zero. intros r _. cbn. rewrite HW. ring. }
  assert (S' : forall (b : bool) k, snd (if b then W k else RtoC 0) = 0%R) by (intros [|] k; [apply HW|reflexivity]).
  unfold hidden. apply Cmult_neq_0; [apply Cmult_neq_0|]; apply cprod_neq0; intros h _; apply ccosh_real; cbn [snd Cplus].
  - unfold thetaC. cbn [snd Cplus]. rewrite S', (S _ (fun r => NPhys M + NHid M + PhC M r h)). ring.
  - unfold thetaS. cbn [snd Cplus]. rewrite S', (S _ (fun r => NPhys M + NHid M + (NPhC M + PhS M r h))). ring.
  - unfold thetaG. cbn [snd Cplus]. rewrite S', (S _ (fun r => NPhys M + NHid M + (NPhC M + NPhS M + PhG M r h))). ring.
Qed.

(** ** a machine with all nine kinds of weights on two sites, 2+1+1 neurons and one without weights *)
Definition ma : machine := Machine 2  1 1 2  1 1 1  2 1 2  2 1 1 1
  (fun _ => 0) (fun _ => 0) (fun rs => rs / 2)  (fun _ => 0) (fun _ => 0) (fun _ => 0)
  (fun r h => (r + h) mod 2) (fun _ _ => 0) (fun rs _ => rs mod 2).
Definition wa (k : Z) : C := RtoC (IZR (k - 4)).
(** up electron on site 0, down electron on site 1 *)
Definition ea (rs : Z) : Z := if (rs =? 0) || (rs =? 3) then 1 else 0.
Lemma ma_wf : wf_machine ma.
Proof.
  constructor; cbn; unfold below; intros; try lia; try (apply Z.mod_pos_bound; lia).
  all: split; [apply Z.div_pos; lia|apply Z.div_lt_upper_bound; lia].
Qed.
Lemma ma_complete : complete ma.
Proof. unfold complete. cbn. lia. Qed.
Lemma ea_hop : legal_hop (Nsite ma) 0 0 1 0 ea. Proof. unfold legal_hop. cbn. lia. Qed.
Lemma ea_flip : legal_hop (Nsite ma) 0 0 1 1 (upd ea 3 0). Proof. unfold legal_hop. cbn. lia. Qed.
Lemma wa_neq0 e : machine_weight ma wa e <> RtoC 0. Proof. apply real_weight. intros. reflexivity. Qed.

(** ** general visible fields on one site: a spin flip in place *)
Definition mf : machine := Machine 1  0 0 2  0 0 0  0 0 0  0 0 0 0
  (fun _ => 0) (fun _ => 0) (fun rs => rs)  (fun _ => 0) (fun _ => 0) (fun _ => 0) (fun _ _ => 0) (fun _ _ => 0) (fun _ _ => 0).
Definition ef (rs : Z) : Z := if rs =? 0 then 1 else 0.
Definition cf (k : Z) : C := if k =? 0 then RtoC 1 else RtoC (-1).
Lemma mf_wf : wf_machine mf.
Proof. constructor; cbn; unfold below; intros; lia. Qed.
Lemma cf_cnt W : is_rbm_cnt mf W ef cf.
Proof. constructor; cbn; unfold below; intros k Hk; try lia. assert (k = 0 \/ k = 1) as [->| ->] by lia; reflexivity. Qed.
Lemma flip_refuted : exists M W e r s t cold c, wf_machine M /\ is_rbm_cnt M W e cold /\ legal_hop (Nsite M) r s r t e /\
  update_rbm_cnt_fsz M W r r s t false cold cold = Some c /\ ~ is_rbm_cnt M W (hop (Nsite M) r s r t e) c.
Proof.
  exists mf, (fun _ => RtoC 0), ef, 0, 0, 1, cf. eexists. split; [apply mf_wf|]. split; [apply cf_cnt|]. split; [unfold legal_hop; cbn; lia|].
  split; [reflexivity|]. intros H. pose proof (cnt_visG _ _ _ _ H 0 ltac:(unfold below; cbn; lia)) as E. cbn in E. unfold zc in E. apply RtoC_inj in E.
  match type of E with _ = IZR ?z => assert (Ez : z = -1) by (vm_compute; reflexivity); rewrite Ez in E end. lra.
Qed.

(** ** neurons without hidden-layer table *)
Definition mb : machine := Machine 1  0 0 0  0 0 0  1 0 0  1 0 0 0
  (fun _ => 0) (fun _ => 0) (fun _ => 0)  (fun _ => 0) (fun _ => 0) (fun _ => 0) (fun _ _ => 0) (fun _ _ => 0) (fun _ _ => 0).
Definition wb (k : Z) : C := RtoC 1.
Definition eb (rs : Z) : Z := 1.
Definition cb (k : Z) : C := Cplus (RtoC 0) (Cplus (Cmult (RtoC 1) (zc 1)) (RtoC 0)).
Lemma mb_wf : wf_machine mb.
Proof. constructor; cbn; unfold below; intros; lia. Qed.
Lemma cb_cnt : is_rbm_cnt mb wb eb cb.
Proof. constructor; cbn; unfold below; intros k Hk; try lia. reflexivity. Qed.
Lemma tanh_1 : ctanh (RtoC 1) <> RtoC 0.
Proof.
  intros E. unfold ctanh in E. pose proof (exp_increasing (-1) 1 ltac:(lra)) as Hi.
  assert (Ep : cexp (RtoC 1) = RtoC (exp 1)) by (unfold cexp, RtoC; cbn; rewrite cos_0, sin_0; f_equal; ring).
  assert (Em : cexp (Copp (RtoC 1)) = RtoC (exp (-1))).
  { unfold cexp, RtoC, Copp. cbn. rewrite Ropp_0, cos_0, sin_0. f_equal; [|ring]. replace (- (1))%R with (-1)%R by ring. ring. }
  rewrite Ep, Em in E. pose proof (exp_pos 1). pose proof (exp_pos (-1)).
  rewrite <- RtoC_minus, <- RtoC_plus, <- RtoC_div in E by lra. apply RtoC_inj in E.
  assert (0 < (exp 1 - exp (-1)) / (exp 1 + exp (-1)))%R; [|lra]. apply Rdiv_lt_0_compat; lra.
Qed.
Lemma incomplete_refuted : exists M W e c O O' p, wf_machine M /\ is_rbm_cnt M W e c /\ machine_weight M W e <> RtoC 0 /\
  rbm_diff M O c e = Some O' /\ 0 <= p < NRBM M /\ ~ log_derivative (fun t => machine_weight M (shift_re W p t) e) (O' (2 * p)).
Proof.
  exists mb, wb, eb, cb, (fun _ => RtoC 0). eexists. exists 0. split; [apply mb_wf|]. split; [apply cb_cnt|].
  assert (Hw : machine_weight mb wb eb <> RtoC 0) by (apply real_weight; reflexivity). split; [exact Hw|]. split; [reflexivity|]. split; [cbn; lia|].
  match goal with |- ~ log_derivative _ ?v => set (v0 := v) end.
  assert (Hv : v0 = Cplus (ctanh (RtoC 1)) (ctanh (RtoC 1))).
  { unfold v0. cbn. replace (cb 0) with (RtoC 1) by (unfold cb, zc; ring). unfold zc. ring. }
  destruct (theta_neq0 mb mb_wf wb eb Hw) as (TC & TS & TG).
  pose proof (machine_derive mb wb eb 0 (RtoC 1) TC TS TG) as K.
  assert (Hd : dall mb wb eb 0 (RtoC 1) = ctanh (RtoC 1)).
  { unfold dall, dvisible, dC, dtheta, thetaC, hit. change (zrange 0 (NneuronC mb)) with [0]. change (zrange 0 (Nsite mb)) with [0].
    cbn [csum]. cbn. unfold charge, wb, zc. cbn [Z.add Z.sub].
    match goal with |- context [ctanh (Cplus ?a ?b)] => replace (Cplus a b) with (RtoC 1) by (cbn; ring) end.
    cbn. change (IZR 1) with 1%R. ring. }
  rewrite Hd in K. intros L. rewrite Hv in L. unfold log_derivative, derivative in L.
  assert (K' : cderive (fun t => machine_weight mb (shift_re wb 0 t) eb) (Cmult (ctanh (RtoC 1)) (machine_weight mb (shift_re wb 0 0) eb))).
  { unfold logd in K. rewrite (weight_ext mb eb (moved_w wb 0 (RtoC 1) R0) (shift_re wb 0 0)) in K by (intros k; unfold moved_w, shift_re, upd; destruct (k =? 0); [f_equal; unfold RtoC, Cmult; cbn; f_equal; ring|reflexivity]).
    refine (cderive_ext _ _ _ _ K). intros t. apply weight_ext. intros k. unfold moved_w, shift_re, upd. destruct (k =? 0); [f_equal; unfold RtoC, Cmult; cbn; f_equal; ring|reflexivity]. }
  assert (L' : cderive (fun t => machine_weight mb (shift_re wb 0 t) eb) (Cmult (Cplus (ctanh (RtoC 1)) (ctanh (RtoC 1))) (machine_weight mb (shift_re wb 0 0) eb))).
  { destruct L as [L1 L2]. split; apply is_derive_Reals; assumption. }
  pose proof (cderive_unique _ _ _ K' L') as E.
  assert (Hw0 : machine_weight mb (shift_re wb 0 0) eb <> RtoC 0).
  { rewrite (weight_ext mb eb _ wb); [exact Hw|]. intros k. unfold shift_re, upd. destruct (Z.eqb_spec k 0); [subst; unfold wb, RtoC, Cplus; cbn; f_equal; ring|reflexivity]. }
  set (w := machine_weight mb (shift_re wb 0 0) eb) in *. apply (Cmult_neq_0 _ _ tanh_1 Hw0).
  assert (X : Cminus (Cmult (Cplus (ctanh (RtoC 1)) (ctanh (RtoC 1))) w) (Cmult (ctanh (RtoC 1)) w) = RtoC 0) by (rewrite <- E; ring).
  rewrite <- X. ring.
Qed.

(** updated counters are the recomputed ones *)
Lemma hop_is_make M (Hwf : wf_machine M) W e ri rj s alias cnew cold e' c0 c1 : is_rbm_cnt M W e cold -> legal_hop (Nsite M) ri s rj s e ->
  update_rbm_cnt M W ri rj s alias cnew cold e' = Some c0 -> make_rbm_cnt M W cnew (hop (Nsite M) ri s rj s e) = Some c1 ->
  forall k, 0 <= k < nRBM M -> c0 k = c1 k.
Proof.
  intros H L E0 E1. destruct (hop_update M Hwf W e ri s rj alias cnew cold e' H L) as (c & Ec & Hc).
  destruct (make_cells M Hwf W cnew (hop (Nsite M) ri s rj s e)) as (c' & Ec' & Hc').
  assert (c = c0) by congruence. assert (c' = c1) by congruence. subst. now apply (cells_unique M Hwf W (hop (Nsite M) ri s rj s e)).
Qed.
