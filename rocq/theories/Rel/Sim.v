(** The real Green functions compute the same numbers as the complex ones on real data without a machine. *)
From Coq Require Import ZArith List Bool Lia Reals Lra FunctionalExtensionality.
From Coquelicot Require Import Complex.
From Verif Require Import Base.ZLoop Base.Checked Base.RSum Proj.Model Proj.Spec Proj.Proofs Pf.Model Slater.Model Green.Model Rel.Model Rel.Embed.
Import ListNotations.
Local Open Scope Z_scope.

(** writing the counters a second time changes nothing *)
Lemma update_twice T ri rj s b cnt e p : wf_tables T -> occ01 (Proj.Model.Nsite T) e -> legal_hop (Proj.Model.Nsite T) ri s rj s e -> is_proj_cnt T e cnt ->
  update_proj_cnt T ri rj s false b cnt (hop (Proj.Model.Nsite T) ri s rj s e) = Some p -> update_proj_cnt T ri rj s false p cnt (hop (Proj.Model.Nsite T) ri s rj s e) = Some p.
Proof.
  intros HT HO HL Hc E. destruct (update_correct T HT ri rj s false b cnt e HO HL Hc) as (p' & E' & _ & Hout). rewrite E' in E. injection E as <-.
  rewrite <- E'. unfold update_proj_cnt. destruct (copy_ok T HT false b cnt) as (c & Eb & I1 & O1). destruct (copy_ok T HT false p' cnt) as (c' & Ep & I2 & O2).
  rewrite Eb, Ep. replace c' with c; [reflexivity|]. apply functional_extensionality. intros j.
  destruct (Z_lt_dec j 0) as [L|L]; [rewrite O1, O2, Hout by lia; reflexivity|]. destruct (Z_lt_dec j (NProj T)) as [L'|L']; [rewrite I1, I2 by lia; reflexivity|rewrite O1, O2, Hout by lia; reflexivity].
Qed.

Definition wrel (k : work) (r : rwork) : Prop := eleIdx k = wIdx r /\ eleNum k = wNum r /\ projNew k = wProj r /\ ra (pfBuf k) (wPf r).
Definition orel {A B} (P : A -> B -> Prop) (o : option A) (o' : option B) : Prop :=
  match o, o' with Some a, Some b => P a b | None, None => True | _, _ => False end.
Definition grel (a : C * work) (b : R * rwork) : Prop := rc (fst a) (fst b) /\ wrel (snd a) (snd b).
Lemma orel_bind {A A' B B'} (P : A -> A' -> Prop) (Q : B -> B' -> Prop) o o' f f' : orel P o o' -> (forall a a', P a a' -> orel Q (f a) (f' a')) -> orel Q (bind o f) (bind o' f').
Proof. intros H Hf. destruct o, o'; cbn in *; try tauto. now apply Hf. Qed.
Lemma orel_same {A B B'} (Q : B -> B' -> Prop) (o : option A) f f' : (forall a, o = Some a -> orel Q (f a) (f' a)) -> orel Q (bind o f) (bind o f').
Proof. intros H. destruct o; cbn; [now apply H|exact I]. Qed.

Section Sim.
Variables (Gc : env) (Gr : renv).
Hypothesis HN : gNsite Gc = rNsite Gr.
Hypothesis HNe : gNe Gc = rNe Gr.
Hypothesis HQ : gNQPFull Gc = rNQPFull Gr.
Hypothesis HT : gT Gc = rT Gr.
Hypothesis HPj : gProj Gc = rProj Gr.
Hypothesis HF : gFlagRBM Gc = false.
Hypothesis HSl : ra (gSl Gc) (rSl Gr).
Hypothesis HI : ra (gInvM Gc) (rInvM Gr).
Hypothesis HP : ra (gPfM Gc) (rPfM Gr).
Hypothesis Hip : forall P p, ra P p -> rc (calculate_ip (gA Gc) 0 (gNQPFull Gc) P) (calculate_ip_real (rA Gr) 0 (rNQPFull Gr) p).
Hypothesis wfT : wf_tables (rT Gr).
Hypothesis HS : Proj.Model.Nsite (rT Gr) = rNsite Gr.
Variables (cfg cnt e : Z -> Z) (rcnt : Z -> C) (ip : C) (rip : R).
Hypothesis Hrip : rc ip rip.
Hypothesis He : occ01 (rNsite Gr) e.
Hypothesis Hc : is_proj_cnt (rT Gr) e cnt.

Lemma proj_same p : proj_ratio Gc p cnt = proj_ratio_real Gr p cnt.
Proof. unfold proj_ratio, proj_ratio_real, log_proj_ratio_real. now rewrite HT, HPj. Qed.
Lemma put_rel m r0 a b k r : wrel k r -> orel wrel (put Gc m r0 a b k) (put_real Gr m r0 a b r).
Proof.
  intros (H1 & H2 & H3 & H4). unfold put, put_real. rewrite HN, HNe, H1, H2. apply orel_same. intros x _. apply orel_same. intros y _. apply orel_same. intros z _. cbn. repeat split; assumption.
Qed.
Lemma put_num m r0 a b k k' : put_real Gr m r0 a b k = Some k' -> wNum k' = upd (upd (wNum k) a 0) b 1 /\ wProj k' = wProj k /\ wPf k' = wPf k.
Proof.
  unfold put_real, wr. destruct (inb (2 * rNe Gr) m); cbn [bind]; [|discriminate]. destruct (inb (2 * rNsite Gr) a); cbn [bind]; [|discriminate]. destruct (inb (2 * rNsite Gr) b); cbn [bind]; [|discriminate].
  intros E. injection E as <-. repeat split.
Qed.
Lemma quot_rel z r : rc z r -> rc (Cconj (Cdiv z ip)) (r / rip).
Proof.
  intros H. assert (X : rc (Cdiv z ip) (r / rip)) by (unfold Cdiv, Rdiv; apply rc_mult; [exact H|now apply rc_inv]). rewrite X. unfold rc, Cconj, RtoC. cbn. f_equal. ring.
Qed.
Lemma green1_rel ri rj s k r : 0 <= ri < rNsite Gr -> 0 <= rj < rNsite Gr -> 0 <= s <= 1 -> wrel k r -> (forall i, wNum r i = e i) ->
  orel grel (green1 Gc ri rj s ip cfg cnt rcnt k) (green1_real Gr ri rj s rip cfg cnt r).
Proof.
  intros Hi Hj Hs (K1 & K2 & K3 & K4) Hr. unfold green1, green1_real. rewrite HN, HNe, HF, K2.
  apply orel_same. intros ni Eni. apply orel_same. intros nj Enj. destruct (Z.eqb_spec ri rj) as [->|Hne]; [cbn; repeat split; assumption|].
  destruct ((ni =? 1) || (nj =? 0)) eqn:Et; [cbn; repeat split; assumption|]. apply orb_false_iff in Et. destruct Et as (Et1 & Et2). apply Z.eqb_neq in Et1, Et2.
  apply orel_same. intros mj Emj.
  assert (X := put_rel (mj + s * rNe Gr) ri (rj + s * rNsite Gr) (ri + s * rNsite Gr) k r (conj K1 (conj K2 (conj K3 K4)))).
  destruct (put Gc _ _ _ _ k) as [k1|] eqn:Ek; destruct (put_real Gr _ _ _ _ r) as [r1|] eqn:Er; cbn in X; try contradiction; cbn [bind]; try exact I. destruct X as (J1 & J2 & J3 & J4).
  destruct (put_num _ _ _ _ _ _ Er) as (En & Epj & Epf).
  unfold rd in Eni, Enj. destruct (inb _ (ri + _)); [|discriminate]. destruct (inb _ (rj + _)); [|discriminate]. injection Eni as <-. injection Enj as <-. rewrite Hr in Et1, Et2.
  assert (O1 := He (ri + s * rNsite Gr) ltac:(nia)). assert (O2 := He (rj + s * rNsite Gr) ltac:(nia)).
  assert (HL : legal_hop (rNsite Gr) rj s ri s e) by (unfold legal_hop; repeat split; lia).
  assert (Eh : wNum r1 = hop (rNsite Gr) rj s ri s e) by (rewrite En; unfold hop; do 2 f_equal; now apply functional_extensionality).
  rewrite J2, J3, HT, Eh. apply orel_same. intros p Ep. rewrite <- HS in Ep, HL. assert (He' := He). rewrite <- HS in He'. assert (E2 := update_twice _ _ _ _ _ _ _ _ wfT He' HL Hc Ep). rewrite HS in E2. rewrite E2. cbn [bind].
  match goal with |- orel grel (bind ?o _) (bind ?o' _) => apply (orel_bind wrel grel o o') end.
  - apply put_rel. repeat split; try assumption; cbn [Green.Model.pfBuf wPf]. rewrite HQ, J1. apply new_pfm_rel; assumption.
  - intros k2 r2 Hk. split; [|exact Hk]. cbn [fst]. apply quot_rel. apply rc_mult; [unfold rc; now rewrite proj_same|]. apply Hip. rewrite HQ, J1. apply new_pfm_rel; assumption.
Qed.
Lemma green2_rel ri rj rk rl s t k r : 0 <= ri < rNsite Gr -> 0 <= rj < rNsite Gr -> 0 <= rk < rNsite Gr -> 0 <= rl < rNsite Gr -> 0 <= s <= 1 -> 0 <= t <= 1 -> wrel k r -> (forall i, wNum r i = e i) ->
  orel grel (green2 Gc ri rj rk rl s t ip cfg cnt rcnt k) (green2_real Gr ri rj rk rl s t rip cfg cnt r).
Proof.
  intros Hi Hj Hk Hl Hs Ht W Hr. pose proof W as (K1 & K2 & K3 & K4). unfold green2, green2_real. rewrite HN, HNe, HF, K2.
  apply orel_same. intros ni _. apply orel_same. intros nj _. apply orel_same. intros nk _. apply orel_same. intros nl _.
  set (restc := if (ni =? 1) || _ || _ || _ then _ else _). set (restr := if (ni =? 1) || _ || _ || _ then _ else _).
  assert (HR : orel grel restc restr).
  { unfold restc, restr. destruct ((ni =? 1) || (nj =? 0) || (nk =? 1) || (nl =? 0)); [split; [reflexivity|exact W]|].
    apply orel_same. intros mj _. apply orel_same. intros ml _.
    apply (orel_bind wrel grel). { now apply put_rel. } intros k1 r1 (J1 & J2 & J3 & J4).
    rewrite J2, J3, HT. apply orel_same. intros p _. cbn [bind]. apply (orel_bind wrel grel). { apply put_rel. repeat split; assumption. } intros k2 r2 (L1 & L2 & L3 & L4).
    rewrite L2. apply orel_same. intros p' _. cbn [bind]. apply (orel_bind wrel grel).
    { apply put_rel. repeat split; try assumption. cbn [Green.Model.pfBuf wPf]. rewrite HQ, L1. apply new_two_rel; assumption. }
    intros k3 r3 W3. apply (orel_bind wrel grel). { now apply put_rel. } intros k4 r4 W4. split; [|exact W4]. cbn [fst]. apply quot_rel. apply rc_mult; [unfold rc; now rewrite proj_same|]. apply Hip. rewrite HQ, L1. apply new_two_rel; assumption. }
  clearbody restc restr.
  assert (Z0 : orel grel (Some (RtoC 0, k)) (Some (0%R, r))) by (split; [reflexivity|exact W]).
  assert (ZN : forall v, orel grel (Some (RtoC (IZR v), k)) (Some (IZR v, r))) by (intros v; split; [reflexivity|exact W]).
  assert (G1 : forall a b u, 0 <= a < rNsite Gr -> 0 <= b < rNsite Gr -> 0 <= u <= 1 -> orel grel (green1 Gc a b u ip cfg cnt rcnt k) (green1_real Gr a b u rip cfg cnt r)) by (intros; now apply green1_rel).
  assert (GM : orel grel (bind (green1 Gc rk rj s ip cfg cnt rcnt k) (fun r => Some (Copp (fst r), snd r))) (bind (green1_real Gr rk rj s rip cfg cnt r) (fun r => Some ((- fst r)%R, snd r)))).
  { apply (orel_bind grel grel). { now apply G1. } intros (a, k') (b, r') (X1 & X2). split; [|exact X2]. cbn [fst] in *. now apply rc_opp. }
  repeat match goal with |- orel grel (if ?b then _ else _) (if ?b then _ else _) => destruct b end; auto.
Qed.
End Sim.
