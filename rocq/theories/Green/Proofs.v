(** GreenFunc1 and GreenFunc2 give matrix elements. *)
From Coq Require Import ZArith List Bool Lia Reals Lra FunctionalExtensionality.
From Coquelicot Require Import Complex.
From Verif Require Import Base.ZLoop Base.Checked Base.RSum Proj.Model Proj.Spec Proj.Proofs Pf.Pfaffian Pf.Model Pf.Spec Pf.Proofs Pf.ProofsTwo Slater.Model Slater.Spec Slater.Proofs Slater.ProofsElm
  Rbm.Model Rbm.Spec Rbm.Proofs Rbm.ProofsRatio Samp.Model Samp.Spec Green.Model Green.Spec Green.Anti Green.Moves Green.Core.
Import ListNotations.
Local Open Scope Z_scope.

Section Green.
Variable V : wave.
Hypothesis HV : wf_wave V.
Let N := sites V.
Let Ne := Slater.Model.Ne (vS V).
Variables (w : walker) (K : setting) (rcnt : Z -> C) (ip : C).
Hypothesis HS : sampled V K w rcnt ip.
Let Hc : consistent N Ne w := sa_tables _ _ _ _ _ HS.
Let x := Samp.Model.eleIdx w.
Let e := Samp.Model.eleNum w.
Let HN : 0 < N := N_pos V HV.
Let HNe : 0 < Ne := Ne_pos V HV.
Let G := env_of V K.
Let Sl := elements_of V (sopt0 K) (sE0 K).

Definition good (v : C) (r : option (C * work)) : Prop := exists k', r = Some (v, k') /\ starts w k'.

Lemma starts_eq k : starts w k -> Green.Model.eleIdx k = x /\ Green.Model.eleNum k = e.
Proof. intros (A & B). split; apply functional_extensionality; assumption. Qed.
Lemma rd_e n (a : Z -> Z) i : 0 <= i < n -> rd n a i = Some (a i).
Proof. intros H. apply rd_ok. exact H. Qed.
Lemma put_ok m r a b k : 0 <= m < 2 * Ne -> 0 <= a < 2 * N -> 0 <= b < 2 * N ->
  put G m r a b k = Some (Work (upd (Green.Model.eleIdx k) m r) (upd (upd (Green.Model.eleNum k) a 0) b 1) (projNew k) (rbmNew k) (pfBuf k)).
Proof. intros H1 H2 H3. unfold put. cbn [G env_of gNe gNsite]. repeat (rewrite wr_ok by assumption; cbn [bind]). reflexivity. Qed.

(** local values *)
Lemma local_0 ops : string V ops (psi V) x = RtoC 0 -> local V ops x = RtoC 0.
Proof. intros E. unfold local. rewrite E. unfold Cdiv. rewrite Cmult_0_l. unfold Cconj, RtoC. cbn. f_equal. lra. Qed.
Lemma local_1 ops : string V ops (psi V) x = psi V x -> local V ops x = RtoC 1.
Proof. intros E. unfold local. rewrite E. unfold Cdiv. rewrite Cinv_r by (apply (psi_nz V HV w Hc K rcnt ip HS)). unfold Cconj, RtoC. cbn. f_equal. lra. Qed.
Lemma local_eq ops ops' : string V ops (psi V) x = string V ops' (psi V) x -> local V ops x = local V ops' x.
Proof. intros E. unfold local. now rewrite E. Qed.
Lemma local_opp ops ops' : string V ops (psi V) x = Copp (string V ops' (psi V) x) -> local V ops x = Copp (local V ops' x).
Proof. intros E. unfold local. rewrite E. replace (Cdiv (Copp (string V ops' (psi V) x)) (psi V x)) with (Copp (Cdiv (string V ops' (psi V) x) (psi V x))) by (unfold Cdiv; ring). reflexivity. Qed.

(** spin-orbitals *)
Lemma orbit_of r s : 0 <= r < N -> 0 <= s <= 1 -> orbit V (r + s * N) /\ (r + s * N) / N = s /\ (r + s * N) mod N = r.
Proof.
  intros H1 H2. unfold orbit. fold N. split; [nia|]. split; [rewrite Z.div_add, Z.div_small by lia; lia|]. rewrite Z.mod_add, Z.mod_small by lia. reflexivity.
Qed.
Lemma op_of ri rj s : 0 <= ri < N -> 0 <= rj < N -> 0 <= s <= 1 -> operator V (ri + s * N, rj + s * N).
Proof.
  intros H1 H2 H3. destruct (orbit_of ri s H1 H3) as (A & B & _), (orbit_of rj s H2 H3) as (A' & B' & _). unfold operator. fold N. cbn [fst snd]. unfold orbit in A, A'. fold N in A, A'. rewrite B, B'. auto.
Qed.
Lemma skew q : 0 <= q < Slater.Model.NQPFull (vS V) -> skew_table N Sl q.
Proof. apply table_skew. apply (wv_valid V HV). Qed.
Lemma lat : on_lattice N (2 * Ne) x.
Proof. intros m Hm. apply (x_lattice V HNe w Hc). apply label_in. exact Hm. Qed.
Lemma elec r s : 0 <= r < N -> 0 <= s <= 1 -> e (r + s * N) = 1 -> electron Ne (Samp.Model.eleCfg w (r + s * N)) s /\ lab V w (r + s * N) = Samp.Model.eleCfg w (r + s * N) + s * Ne /\ 0 <= Samp.Model.eleCfg w (r + s * N) + s * Ne < 2 * Ne /\ x (lab V w (r + s * N)) = r.
Proof.
  intros Hr Hs He. destruct (c_site _ _ _ Hc r s Hr Hs) as [(C1 & C2)|(mi & Hm & C1 & C2 & C3)]; [fold e in C2; congruence|]. rewrite C1. split; [split; lia|].
  destruct (orbit_of r s Hr Hs) as (_ & D & _). unfold lab. fold N. rewrite D, C1. fold Ne. split; [reflexivity|]. split; [nia|]. exact C3.
Qed.
Lemma mp_eq p r : (if gFlagRBM G then Cmult (RtoC (proj_ratio G p (eleProjCnt w))) (rbm_ratio (gM G) (gclog G) (gRBM G) (gNB G) (gThreads G) (gjunk G) r rcnt) else RtoC (proj_ratio G p (eleProjCnt w)))
  = Cmult (RtoC (proj_ratio G p (eleProjCnt w))) (machine_part V K rcnt r).
Proof. unfold machine_part. cbn [G env_of gFlagRBM gM gclog gRBM gNB gThreads gjunk]. destruct (vFlagRBM V); [reflexivity|ring]. Qed.
Lemma upd_twice {A} (f : Z -> A) i u v : upd (upd f i u) i v = upd f i v.
Proof. apply functional_extensionality. intros j. rewrite !upd_get. now destruct (j =? i). Qed.
Lemma upd_same {A} (f : Z -> A) i v : f i = v -> upd f i v = f.
Proof. intros E. apply functional_extensionality. intros j. rewrite upd_get. destruct (Z.eqb_spec j i) as [->|]; congruence. Qed.
Lemma upd_comm {A} (f : Z -> A) i j u v : i <> j -> upd (upd f i u) j v = upd (upd f j v) i u.
Proof. intros H. apply functional_extensionality. intros k. rewrite !upd_get. destruct (Z.eqb_spec k i), (Z.eqb_spec k j); congruence. Qed.

Lemma green1_ok ri rj s k : 0 <= ri < N -> 0 <= rj < N -> 0 <= s <= 1 -> starts w k ->
  good (local V [(ri + s * N, rj + s * N)] x) (green1 G ri rj s ip (Samp.Model.eleCfg w) (eleProjCnt w) rcnt k).
Proof.
  intros Hi Hj Hs Hk. destruct (starts_eq k Hk) as (Ex & Ee). assert (Hop := op_of ri rj s Hi Hj Hs).
  destruct (orbit_of ri s Hi Hs) as (Oi & Di & Mi), (orbit_of rj s Hj Hs) as (Oj & Dj & Mj).
  unfold green1. cbn [G env_of gNsite]. fold G. fold N. rewrite Ee, !rd_e by assumption. cbn [bind].
  destruct (Z.eqb_spec ri rj) as [->|Hne].
  - exists k. split; [|exact Hk]. do 2 f_equal. destruct (e01 V HN HNe w Hc _ Oj) as [E|E]; fold e in E; rewrite E.
    + symmetry. apply local_0. apply (step_b_empty V HN HNe w Hc (psi V) _ _ []); [exact Hop|exact I|intros o []|exact E].
    + symmetry. apply local_1. apply (step_diag V HN HNe w Hc (psi V) _ _ []); [exact Hop|exact I|intros o []|exact E|reflexivity].
  - assert (Hab : ri + s * N <> rj + s * N) by lia.
    destruct (Z.eqb_spec (e (ri + s * N)) 1) as [E1|E1]; cbn [Datatypes.orb].
    { exists k. split; [|exact Hk]. do 2 f_equal. symmetry. apply local_0. destruct (e01 V HN HNe w Hc _ Oj) as [E|E].
      - apply (step_b_empty V HN HNe w Hc (psi V) _ _ []); [exact Hop|exact I|intros o []|exact E].
      - apply (step_a_full V HN HNe w Hc (psi V) _ _ []); [apply psi_anti|exact Hop|exact I|intros o []|exact E|exact Hab|intros o []|exact E1]. }
    destruct (Z.eqb_spec (e (rj + s * N)) 0) as [E2|E2].
    { exists k. split; [|exact Hk]. do 2 f_equal. symmetry. apply local_0. apply (step_b_empty V HN HNe w Hc (psi V) _ _ []); [exact Hop|exact I|intros o []|exact E2]. }
    destruct (e01 V HN HNe w Hc _ Oi) as [E1'|H]; [|fold e in H; congruence]. destruct (e01 V HN HNe w Hc _ Oj) as [H|E2']; [fold e in H; congruence|]. fold e in E1', E2'.
    assert (Hcl : clean V w [(ri + s * N, rj + s * N)]) by (apply step_clean; [exact Hop|exact I|intros o []|exact E2'|exact Hab|intros o []|exact E1']).
    destruct (elec rj s Hj Hs E2') as (He & Hl & Hm & Hx).
    set (mj := Samp.Model.eleCfg w (rj + s * N)) in *.
    change (Green.Model.gNe G) with Ne. rewrite put_ok by assumption. cbn [bind Green.Model.eleIdx Green.Model.eleNum projNew rbmNew pfBuf].
    rewrite Ex, Ee. set (e1 := upd (upd e (rj + s * N) 0) (ri + s * N) 1).
    assert (Eh : e1 = hop N rj s ri s e) by reflexivity.
    destruct (wv_sites V HV) as (S1 & S2). fold N in S1, S2.
    assert (Hlh : legal_hop N rj s ri s e) by (repeat split; try lia; left; exact E1').
    assert (Ho1 : occ01 N e) by (apply (e_01 V HV w Hc)).
    assert (P : forall c, exists p, update_proj_cnt (gT G) rj ri s false c (eleProjCnt w) e1 = Some p /\ is_proj_cnt (vT V) e1 p).
    { intros c. rewrite Eh. destruct (update_correct (vT V) (wv_T V HV) rj ri s false c (eleProjCnt w) e) as (p & E & Hp & _); rewrite ?S1; try assumption; [apply (sa_cnt _ _ _ _ _ HS)|].
      rewrite S1 in *. exists p. split; assumption. }
    destruct (P (projNew k)) as (p & Ep & Hp). rewrite Ep. cbn [bind].
    assert (Q : exists p' r, (if gFlagRBM G then r <- update_rbm_cnt (gM G) (gRBM G) rj ri s false (rbmNew k) rcnt e1;; Some (p, r)
             else p <- update_proj_cnt (gT G) rj ri s false p (eleProjCnt w) e1;; Some (p, rbmNew k)) = Some (p', r) /\ is_proj_cnt (vT V) e1 p' /\ (vFlagRBM V = true -> is_rbm_cnt (vM V) (vRBM V) e1 r)).
    { change (gFlagRBM G) with (vFlagRBM V). destruct (vFlagRBM V) eqn:F.
      - destruct (hop_update (vM V) (wv_M V HV) (vRBM V) e rj s ri false (rbmNew k) rcnt e1) as (r & Er & Hr); [now apply (sa_rcnt _ _ _ _ _ HS)|rewrite S2; exact Hlh|].
        rewrite S2 in Hr. exists p, r. change (gM G) with (vM V). change (gRBM G) with (vRBM V). rewrite Er. split; [reflexivity|]. split; [exact Hp|]. intros _. exact Hr.
      - destruct (P p) as (p' & Ep' & Hp'). exists p', (rbmNew k). rewrite Ep'. split; [reflexivity|]. split; [exact Hp'|discriminate]. }
    destruct Q as (p' & r & EQ & Hp' & Hr). rewrite EQ. cbn [bind].
    rewrite mp_eq. rewrite put_ok by assumption. cbn [bind Green.Model.eleIdx Green.Model.eleNum projNew rbmNew pfBuf].
    eexists. split.
    + f_equal. f_equal. unfold local. f_equal. rewrite (clean_value V HN HNe w Hc _ _ Hcl).
      apply (ratio_moves V HV w Hc K rcnt ip HS [(ri + s * N, rj + s * N)]); [exact Hcl|exact Hp'|exact Hr|].
      intros q Hq. cbn [moves]. fold N. rewrite Mi. unfold lab at 1. fold N. rewrite Dj. fold mj Ne x.
      rewrite <- (Z.add_0_r q) at 2.
      apply (calc_one N Ne HNe Sl x (gInvM G) (gPfM G) (pfBuf k) mj s ri 0 (gNQPFull G)); [|exact He|exact Hi|exact lat|apply (sa_mat _ _ _ _ _ HS)|change (gNQPFull G) with (Slater.Model.NQPFull (vS V)); lia].
      intros q' Hq'. apply skew. change (gNQPFull G) with (Slater.Model.NQPFull (vS V)) in Hq'. lia.
    + split; cbn [Green.Model.eleIdx Green.Model.eleNum]; intros i.
      * rewrite upd_twice, upd_same; [reflexivity|]. rewrite <- Hl. exact Hx.
      * unfold e1. rewrite upd_twice, (upd_comm e) by lia. rewrite (upd_same _ (ri + s * N)) by exact E1'. rewrite upd_twice, upd_same by exact E2'. reflexivity.
Qed.

(** one operator on the configuration itself *)
Lemma single c d : operator V (c, d) -> c <> d -> clean V w [(c, d)] \/ ((e d = 0 \/ e c = 1) /\ forall f, anti V f -> string V [(c, d)] f x = RtoC 0).
Proof.
  intros Hop Hne. assert (Oc : orbit V c) by apply Hop. assert (Od : orbit V d) by apply Hop.
  destruct (e01 V HN HNe w Hc _ Od) as [E|E]; fold e in E.
  - right. split; [now left|]. intros f Hf. apply (step_b_empty V HN HNe w Hc f _ _ []); [exact Hop|exact I|intros o []|exact E].
  - destruct (e01 V HN HNe w Hc _ Oc) as [E'|E']; fold e in E'.
    + left. apply step_clean; [exact Hop|exact I|intros o []|exact E|exact Hne|intros o []|exact E'].
    + right. split; [now right|]. intros f Hf. apply (step_a_full V HN HNe w Hc f _ _ []); [exact Hf|exact Hop|exact I|intros o []|exact E|exact Hne|intros o []|exact E'].
Qed.
Lemma single_0 c d : operator V (c, d) -> c <> d -> e d = 0 \/ e c = 1 -> forall f, anti V f -> string V [(c, d)] f x = RtoC 0.
Proof.
  intros Hop Hne He. destruct (single c d Hop Hne) as [Hcl|(_ & H)]; [|exact H]. cbn in Hcl. destruct Hcl as (_ & E1 & E2 & _). fold e in E1, E2. destruct He; congruence.
Qed.
Lemma clean_e c d : clean V w [(c, d)] -> e d = 1 /\ e c = 0.
Proof. intros H. cbn in H. tauto. Qed.
Lemma diag c f : operator V (c, c) -> string V [(c, c)] f x = if e c =? 0 then RtoC 0 else f x.
Proof.
  intros Hop. assert (Oc : orbit V c) by apply Hop. destruct (e01 V HN HNe w Hc _ Oc) as [E|E]; fold e in E; rewrite E; cbn [Z.eqb].
  - apply (step_b_empty V HN HNe w Hc f _ _ []); [exact Hop|exact I|intros o []|exact E].
  - apply (step_diag V HN HNe w Hc f _ _ []); [exact Hop|exact I|intros o []|exact E|reflexivity].
Qed.
(** two operators: what remains in each coincidence *)
Section Two.
Variables a b c d : Z.
Hypothesis O1 : operator V (a, b).
Hypothesis O2 : operator V (c, d).
Let F := act V (a, b) (psi V).
Let two := string V [(a, b); (c, d)] (psi V) x.
Lemma F_anti : anti V F. Proof. apply act_anti. apply psi_anti. Qed.
Lemma two_diag2 : c = d -> two = if e c =? 0 then RtoC 0 else string V [(a, b)] (psi V) x.
Proof. intros <-. unfold two. cbn [string]. apply (diag c F O2). Qed.
Lemma two_bd : c <> d -> b = d -> two = RtoC 0.
Proof.
  intros Hne Hbd. destruct (single c d O2 Hne) as [Hcl|(_ & H)]; [|apply H; exact F_anti].
  apply (step_b_dup V HN HNe w Hc (psi V) a b [(c, d)] Hcl (c, d)); [now left|now symmetry].
Qed.
Lemma two_0 : c <> d -> e d = 0 \/ e c = 1 -> two = RtoC 0.
Proof. intros Hne He. apply (single_0 c d O2 Hne He F F_anti). Qed.
Lemma two_b0 : c <> d -> c <> b -> e b = 0 -> two = RtoC 0.
Proof.
  intros Hne Hcb Hb. destruct (single c d O2 Hne) as [Hcl|(_ & H)]; [|apply H; exact F_anti].
  apply (step_b_empty V HN HNe w Hc (psi V) a b [(c, d)] O1 Hcl); [|exact Hb]. intros o [<-|[]]. exact Hcb.
Qed.
Lemma two_bc : c <> d -> b = c -> e d = 1 -> e c = 0 -> two = string V [(a, d)] (psi V) x.
Proof.
  intros Hne E Ed Ec. destruct (single c d O2 Hne) as [Hcl|([?|?] & _)]; [|congruence|congruence].
  destruct (step_chain V HN HNe w Hc (psi V) a b [(c, d)] O1 Hcl [] [] c d eq_refl (eq_sym E)) as (_ & H & _). exact H.
Qed.
Lemma D1 : c <> b -> d <> b -> forall o, In o [(c, d)] -> fst o <> b /\ snd o <> b.
Proof. intros H H' o [<-|[]]. auto. Qed.
Lemma two_ad : c <> d -> b <> c -> b <> d -> a = d -> e c = 0 -> e d = 1 -> e b = 1 -> two = Copp (string V [(c, b)] (psi V) x).
Proof.
  intros Hne H1 H2 E Ec Ed Eb. destruct (single c d O2 Hne) as [Hcl|([?|?] & _)]; [|congruence|congruence].
  destruct (step_exchange V HN HNe w Hc (psi V) a b [(c, d)] (psi_anti V) O1 Hcl (D1 (not_eq_sym H1) (not_eq_sym H2)) Eb [] [] c d eq_refl (eq_sym E)) as (_ & H & _). exact H.
Qed.
Lemma two_ac : c <> d -> b <> c -> b <> d -> a <> b -> a = c -> two = RtoC 0.
Proof.
  intros Hne H1 H2 H3 E. destruct (e01 V HN HNe w Hc b) as [Eb|Eb]; [apply O1|now apply two_b0; auto|].
  destruct (single c d O2 Hne) as [Hcl|(_ & H)]; [|apply H; exact F_anti].
  apply (step_a_dup V HN HNe w Hc (psi V) a b [(c, d)] (psi_anti V) O1 Hcl (D1 (not_eq_sym H1) (not_eq_sym H2)) Eb (c, d)); [exact H3|now left|now symmetry].
Qed.
Lemma two_diag1 : c <> d -> b <> c -> b <> d -> a = b -> two = if e a =? 0 then RtoC 0 else string V [(c, d)] (psi V) x.
Proof.
  intros Hne H1 H2 E. destruct (e01 V HN HNe w Hc a) as [Eb|Eb]; [apply O1| |]; fold e in Eb; rewrite Eb; cbn [Z.eqb].
  - apply two_b0; auto. now rewrite <- E.
  - destruct (single c d O2 Hne) as [Hcl|(_ & H)]; [|rewrite (H _ (psi_anti V)); apply H; exact F_anti].
    apply (step_diag V HN HNe w Hc (psi V) a b [(c, d)] O1 Hcl (D1 (not_eq_sym H1) (not_eq_sym H2))); [now rewrite <- E|exact E].
Qed.
Lemma two_a1 : c <> d -> b <> c -> b <> d -> a <> b -> a <> d -> e a = 1 -> two = RtoC 0.
Proof.
  intros Hne H1 H2 H3 H4 Ea. destruct (e01 V HN HNe w Hc b) as [Eb|Eb]; [apply O1|now apply two_b0; auto|].
  destruct (single c d O2 Hne) as [Hcl|(_ & H)]; [|apply H; exact F_anti].
  apply (step_a_full V HN HNe w Hc (psi V) a b [(c, d)] (psi_anti V) O1 Hcl (D1 (not_eq_sym H1) (not_eq_sym H2)) Eb); [exact H3| |exact Ea]. intros o [<-|[]]. cbn. congruence.
Qed.
Lemma two_clean : c <> d -> b <> c -> b <> d -> a <> b -> a <> c -> e a = 0 -> e b = 1 -> e c = 0 -> e d = 1 -> clean V w [(a, b); (c, d)].
Proof.
  intros Hne H1 H2 H3 H4 Ea Eb Ec Ed. destruct (single c d O2 Hne) as [Hcl|([?|?] & _)]; [|congruence|congruence].
  apply step_clean; [exact O1|exact Hcl|apply D1; congruence|exact Eb|exact H3| |exact Ea]. intros o [<-|[]]. cbn. congruence.
Qed.
End Two.

Lemma rest_ok ri rj rk rl s t k : 0 <= ri < N -> 0 <= rj < N -> 0 <= rk < N -> 0 <= rl < N -> 0 <= s <= 1 -> 0 <= t <= 1 -> starts w k ->
  let a := ri + s * N in let b := rj + s * N in let c := rk + t * N in let d := rl + t * N in
  c <> d -> b <> c -> b <> d -> a <> b -> a <> c -> a <> d ->
  good (local V [(a, b); (c, d)] x)
   (if (e a =? 1) || (e b =? 0) || (e c =? 1) || (e d =? 0) then Some (RtoC 0, k)
    else
      mj <- rd (2 * N) (Samp.Model.eleCfg w) b;; ml <- rd (2 * N) (Samp.Model.eleCfg w) d;;
      let msj := mj + s * Ne in let mtl := ml + t * Ne in
      w1 <- put G mtl rk d c k;;
      p <- update_proj_cnt (gT G) rl rk t false (projNew w1) (eleProjCnt w) (Green.Model.eleNum w1);;
      r <- (if gFlagRBM G then update_rbm_cnt (gM G) (gRBM G) rl rk t false (rbmNew w1) rcnt (Green.Model.eleNum w1) else Some (rbmNew w1));;
      w2 <- put G msj ri b a (Work (Green.Model.eleIdx w1) (Green.Model.eleNum w1) p r (pfBuf w1));;
      p <- update_proj_cnt (gT G) rj ri s true p p (Green.Model.eleNum w2);;
      r <- (if gFlagRBM G then update_rbm_cnt (gM G) (gRBM G) rj ri s true r r (Green.Model.eleNum w2) else Some r);;
      let z := RtoC (proj_ratio G p (eleProjCnt w)) in
      let z := if gFlagRBM G then Cmult z (rbm_ratio (gM G) (gclog G) (gRBM G) (gNB G) (gThreads G) (gjunk G) r rcnt) else z in
      let pf := calculate_new_pfm_two N Ne (2 * Ne) (gSl G) ml t mj s (Green.Model.eleIdx w2) 0 (gNQPFull G) (gInvM G) (gPfM G) (pfBuf w2) in
      let z := Cmult z (calculate_ip (gA G) 0 (gNQPFull G) pf) in
      w3 <- put G mtl rl c d (Work (Green.Model.eleIdx w2) (Green.Model.eleNum w2) p r pf);;
      w4 <- put G msj rj a b w3;;
      Some (Cconj (Cdiv z ip), w4)).
Proof.
  intros Hi Hj Hk Hl Hs Ht Hst a b c d H1 H2 H3 H4 H5 H6. destruct (starts_eq k Hst) as (Ex & Ee).
  assert (O1 := op_of ri rj s Hi Hj Hs). assert (O2 := op_of rk rl t Hk Hl Ht). fold a b in O1. fold c d in O2.
  destruct (orbit_of ri s Hi Hs) as (Oa & Da & Ma), (orbit_of rj s Hj Hs) as (Ob & Db & Mb), (orbit_of rk t Hk Ht) as (Oc & Dc & Mc), (orbit_of rl t Hl Ht) as (Od & Dd & Md).
  fold a in Oa, Da, Ma. fold b in Ob, Db, Mb. fold c in Oc, Dc, Mc. fold d in Od, Dd, Md.
  assert (Z0 : forall v, string V [(a, b); (c, d)] (psi V) x = RtoC 0 -> v = Some (RtoC 0, k) -> good (local V [(a, b); (c, d)] x) v).
  { intros v E ->. exists k. split; [|exact Hst]. do 2 f_equal. symmetry. now apply local_0. }
  destruct (Z.eqb_spec (e a) 1) as [A1|A1]; [apply Z0; [now apply two_a1|reflexivity]|].
  destruct (Z.eqb_spec (e b) 0) as [B0|B0]; [apply Z0; [now apply two_b0; auto|reflexivity]|].
  destruct (Z.eqb_spec (e c) 1) as [C1|C1]; [apply Z0; [now apply two_0; auto|reflexivity]|].
  destruct (Z.eqb_spec (e d) 0) as [D0|D0]; [apply Z0; [now apply two_0; auto|reflexivity]|]. cbn [Datatypes.orb].
  assert (Ea : e a = 0) by (destruct (e01 V HN HNe w Hc _ Oa) as [H|H]; [exact H|now elim A1]).
  assert (Eb : e b = 1) by (destruct (e01 V HN HNe w Hc _ Ob) as [H|H]; [now elim B0|exact H]).
  assert (Ec : e c = 0) by (destruct (e01 V HN HNe w Hc _ Oc) as [H|H]; [exact H|now elim C1]).
  assert (Ed : e d = 1) by (destruct (e01 V HN HNe w Hc _ Od) as [H|H]; [now elim D0|exact H]).
  assert (Hcl := two_clean a b c d O1 O2 H1 H2 H3 H4 H5 Ea Eb Ec Ed).
  destruct (elec rj s Hj Hs Eb) as (Heb & Hlb & Hmb & Hxb). destruct (elec rl t Hl Ht Ed) as (Hed & Hld & Hmd & Hxd). fold b in Heb, Hlb, Hmb, Hxb. fold d in Hed, Hld, Hmd, Hxd.
  rewrite !rd_e by assumption. cbn [bind]. set (mj := Samp.Model.eleCfg w b) in *. set (ml := Samp.Model.eleCfg w d) in *.
  rewrite put_ok by assumption. cbn [bind Green.Model.eleIdx Green.Model.eleNum projNew rbmNew pfBuf].
  rewrite Ex, Ee. set (e1 := upd (upd e d 0) c 1). assert (Eh : e1 = hop N rl t rk t e) by reflexivity.
  destruct (wv_sites V HV) as (S1 & S2). fold N in S1, S2.
  assert (Hlh : legal_hop N rl t rk t e) by (repeat split; try lia; [exact Ed|left; exact Ec]).
  assert (Ho1 : occ01 N e) by (apply (e_01 V HV w Hc)).
  destruct (update_correct (vT V) (wv_T V HV) rl rk t false (projNew k) (eleProjCnt w) e) as (p & Ep & Hp & _); rewrite ?S1; try assumption; [apply (sa_cnt _ _ _ _ _ HS)|].
  rewrite S1 in Ep, Hp. rewrite <- Eh in Ep, Hp. change (gT G) with (vT V). rewrite Ep. cbn [bind].
  assert (Q : exists r, (if gFlagRBM G then update_rbm_cnt (gM G) (gRBM G) rl rk t false (rbmNew k) rcnt e1 else Some (rbmNew k)) = Some r /\ (vFlagRBM V = true -> is_rbm_cnt (vM V) (vRBM V) e1 r)).
  { change (gFlagRBM G) with (vFlagRBM V). change (gM G) with (vM V). change (gRBM G) with (vRBM V). destruct (vFlagRBM V) eqn:F.
    - destruct (hop_update (vM V) (wv_M V HV) (vRBM V) e rl t rk false (rbmNew k) rcnt e1) as (r & Er & Hr); [now apply (sa_rcnt _ _ _ _ _ HS)|rewrite S2; exact Hlh|].
      rewrite S2 in Hr. exists r. split; [exact Er|]. intros _. exact Hr.
    - exists (rbmNew k). split; [reflexivity|discriminate]. }
  destruct Q as (r & Er & Hr). rewrite Er. cbn [bind].
  rewrite put_ok by assumption. cbn [bind Green.Model.eleIdx Green.Model.eleNum projNew rbmNew pfBuf].
  set (e2 := upd (upd e1 b 0) a 1). assert (Eh2 : e2 = hop N rj s ri s e1) by reflexivity.
  assert (X1 : e1 b = 1) by (unfold e1; rewrite !upd_get; destruct (Z.eqb_spec b c), (Z.eqb_spec b d); congruence).
  assert (X2 : e1 a = 0) by (unfold e1; rewrite !upd_get; destruct (Z.eqb_spec a c), (Z.eqb_spec a d); congruence).
  assert (Hlh2 : legal_hop N rj s ri s e1) by (repeat split; try lia; [exact X1|left; exact X2]).
  assert (Hcl1 : clean V w [(c, d)]) by (apply Hcl).
  assert (Ho2 : occ01 N e1) by (apply (occs_01 V HV w Hc [(c, d)] Hcl1)).
  destruct (update_correct (vT V) (wv_T V HV) rj ri s true p p e1) as (p' & Ep' & Hp' & _); rewrite ?S1; try assumption.
  rewrite S1 in Ep', Hp'. rewrite <- Eh2 in Ep', Hp'. rewrite Ep'. cbn [bind].
  assert (Q : exists r', (if gFlagRBM G then update_rbm_cnt (gM G) (gRBM G) rj ri s true r r e2 else Some r) = Some r' /\ (vFlagRBM V = true -> is_rbm_cnt (vM V) (vRBM V) e2 r')).
  { change (gFlagRBM G) with (vFlagRBM V). change (gM G) with (vM V). change (gRBM G) with (vRBM V). destruct (vFlagRBM V) eqn:F.
    - destruct (hop_update (vM V) (wv_M V HV) (vRBM V) e1 rj s ri true r r e2) as (r' & Er' & Hr'); [now apply Hr|rewrite S2; exact Hlh2|].
      rewrite S2 in Hr'. exists r'. split; [exact Er'|]. intros _. exact Hr'.
    - exists r. split; [reflexivity|discriminate]. }
  destruct Q as (r' & Er' & Hr'). rewrite Er'. cbn [bind]. cbv zeta. rewrite mp_eq.
  rewrite put_ok by assumption. cbn [bind Green.Model.eleIdx Green.Model.eleNum projNew rbmNew pfBuf].
  rewrite put_ok by assumption. cbn [bind Green.Model.eleIdx Green.Model.eleNum projNew rbmNew pfBuf].
  eexists. split.
  - f_equal. f_equal. unfold local. f_equal. rewrite (clean_value V HN HNe w Hc _ _ Hcl).
    apply (ratio_moves V HV w Hc K rcnt ip HS [(a, b); (c, d)]); [exact Hcl|exact Hp'|exact Hr'|].
    intros q Hq. cbn [moves]. fold N. rewrite Ma, Mc, Hlb, Hld. fold x. rewrite <- (Z.add_0_r q) at 2.
    apply (calc_two N Ne HNe Sl x (gInvM G) (gPfM G) (pfBuf k) ml t rk mj s ri 0 (gNQPFull G)); [|exact Hed|exact Heb|exact Hk|exact Hi|exact lat|apply (sa_mat _ _ _ _ _ HS)|change (gNQPFull G) with (Slater.Model.NQPFull (vS V)); lia].
    intros q' Hq'. apply skew. change (gNQPFull G) with (Slater.Model.NQPFull (vS V)) in Hq'. lia.
  - assert (Lne : ml + t * Ne <> mj + s * Ne).
    { rewrite <- Hld, <- Hlb. intros E. apply H3. symmetry. apply (lab_inj V HN HNe w Hc); try assumption; fold e; lia. }
    split; cbn [Green.Model.eleIdx Green.Model.eleNum]; intros i.
    + rewrite !upd_get. fold x. destruct (Z.eqb_spec i (mj + s * Ne)) as [->|]; [now rewrite <- Hlb|]. destruct (Z.eqb_spec i (ml + t * Ne)) as [->|]; [now rewrite <- Hld|reflexivity].
    + unfold e2, e1. rewrite !upd_get. fold e. destruct (Z.eqb_spec i b) as [->|]; [now symmetry|]. destruct (Z.eqb_spec i a) as [->|]; [now symmetry|].
      destruct (Z.eqb_spec i d) as [->|]; [now symmetry|]. destruct (Z.eqb_spec i c) as [->|]; [now symmetry|reflexivity].
Qed.

Lemma good_eq ops ops' r : string V ops (psi V) x = string V ops' (psi V) x -> good (local V ops' x) r -> good (local V ops x) r.
Proof. intros E H. now rewrite (local_eq ops ops' E). Qed.
Lemma good_0 ops k : string V ops (psi V) x = RtoC 0 -> starts w k -> good (local V ops x) (Some (RtoC 0, k)).
Proof. intros E H. exists k. split; [|exact H]. do 2 f_equal. symmetry. now apply local_0. Qed.

Lemma green2_ok ri rj rk rl s t k : 0 <= ri < N -> 0 <= rj < N -> 0 <= rk < N -> 0 <= rl < N -> 0 <= s <= 1 -> 0 <= t <= 1 -> starts w k ->
  good (local V [(ri + s * N, rj + s * N); (rk + t * N, rl + t * N)] x) (green2 G ri rj rk rl s t ip (Samp.Model.eleCfg w) (eleProjCnt w) rcnt k).
Proof.
  intros Hi Hj Hk Hl Hs Ht Hst. assert (R := rest_ok ri rj rk rl s t k Hi Hj Hk Hl Hs Ht Hst). cbv zeta in R.
  assert (G1 : forall p q u, 0 <= p < N -> 0 <= q < N -> 0 <= u <= 1 -> good (local V [(p + u * N, q + u * N)] x) (green1 G p q u ip (Samp.Model.eleCfg w) (eleProjCnt w) rcnt k)) by (intros; now apply green1_ok).
  destruct (starts_eq k Hst) as (Ex & Ee).
  assert (O1 := op_of ri rj s Hi Hj Hs). assert (O2 := op_of rk rl t Hk Hl Ht).
  destruct (orbit_of ri s Hi Hs) as (Oa & Da & _), (orbit_of rj s Hj Hs) as (Ob & Db & _), (orbit_of rk t Hk Ht) as (Oc & Dc & _), (orbit_of rl t Hl Ht) as (Od & Dd & _).
  unfold green2. change (gNsite G) with N. change (gNe G) with Ne. rewrite Ee. rewrite (rd_e _ e (ri + s * N)), (rd_e _ e (rj + s * N)), (rd_e _ e (rk + t * N)), (rd_e _ e (rl + t * N)) by assumption. cbn [bind].
  assert (I01 : e (ri + s * N) = 0 \/ e (ri + s * N) = 1) by (apply (e01 V HN HNe w Hc); exact Oa).
  assert (J01 : e (rj + s * N) = 0 \/ e (rj + s * N) = 1) by (apply (e01 V HN HNe w Hc); exact Ob).
  assert (K01 : e (rk + t * N) = 0 \/ e (rk + t * N) = 1) by (apply (e01 V HN HNe w Hc); exact Oc).
  assert (L01 : e (rl + t * N) = 0 \/ e (rl + t * N) = 1) by (apply (e01 V HN HNe w Hc); exact Od).
  set (a := ri + s * N) in *. set (b := rj + s * N) in *. set (c := rk + t * N) in *. set (d := rl + t * N) in *.
  assert (Hab : ri = rj <-> a = b) by (unfold a, b; clear; lia). assert (Hcd : rk = rl <-> c = d) by (unfold c, d; clear; lia).
  destruct (Z.eqb_spec s t) as [Est|Hst'].
  - assert (Hbd : rj = rl <-> b = d) by (unfold b, d; rewrite Est; clear; lia). assert (Had : ri = rl <-> a = d) by (unfold a, d; rewrite Est; clear; lia).
    assert (Hbc : rj = rk <-> b = c) by (unfold b, c; rewrite Est; clear; lia). assert (Hac : ri = rk <-> a = c) by (unfold a, c; rewrite Est; clear; lia).
    assert (Eb' : rj + t * N = b) by (unfold b; now rewrite Est). assert (Ea' : ri + t * N = a) by (unfold a; now rewrite Est).
    assert (Ec' : rk + s * N = c) by (unfold c; now rewrite Est). assert (Ed' : rl + s * N = d) by (unfold d; now rewrite Est).
    destruct (Z.eqb_spec rk rl) as [E|E1].
    { apply Hcd in E. assert (T := two_diag2 a b c d O2 E). destruct (Z.eqb_spec (e c) 0); [now apply good_0|]. apply (good_eq _ [(a, b)] _ T). now apply G1. }
    assert (E1' : c <> d) by tauto.
    destruct (Z.eqb_spec rj rl) as [E|E2]; [apply good_0; [apply two_bd; tauto|exact Hst]|]. assert (E2' : b <> d) by tauto.
    destruct (Z.eqb_spec ri rl) as [E|E3].
    { apply Had in E. destruct (Z.eqb_spec (e a) 0) as [Z0|Z0].
      - apply good_0; [|exact Hst]. apply two_0; auto. left. now rewrite <- E.
      - assert (Ed1 : e d = 1) by (rewrite <- E; destruct I01; congruence).
        destruct (Z.eqb_spec rj rk) as [F|F].
        + apply Hbc in F. destruct J01 as [J|J]; rewrite J.
          * exists k. split; [|exact Hst]. do 2 f_equal. change (1 - 0) with 1. symmetry. apply local_1. rewrite (two_bc a b c d O1 O2 E1' F Ed1) by congruence. rewrite <- E. rewrite diag; [|split; [exact Oa|split; [exact Oa|reflexivity]]].
            rewrite E, Ed1. reflexivity.
          * change (1 - 1) with 0. apply good_0; [|exact Hst]. apply two_0; auto. right. congruence.
        + assert (F' : b <> c) by tauto. destruct (G1 rk rj s Hk Hj Hs) as (k' & Eg & Hk'). rewrite Ec' in Eg. fold b in Eg. rewrite Eg. cbn [bind fst snd]. exists k'. split; [|exact Hk']. do 2 f_equal. symmetry.
          apply local_opp. assert (Ocb : operator V (c, b)) by (split; [exact Oc|split; [exact Ob|]]; cbn [fst snd]; fold N; congruence).
          destruct (Z.eq_dec (e c) 1) as [Z1|Z1]; [|destruct (Z.eq_dec (e b) 0) as [Z2|Z2]].
          * rewrite (single_0 c b Ocb) by (auto || apply psi_anti). rewrite (two_0 a b c d O2 E1' (or_intror Z1)). ring.
          * rewrite (single_0 c b Ocb) by (auto || apply psi_anti). rewrite (two_b0 a b c d O1 O2) by auto. ring.
          * apply two_ad; auto; [destruct K01|destruct J01]; congruence. }
    assert (E3' : a <> d) by tauto.
    destruct (Z.eqb_spec rj rk) as [E|E4].
    { apply Hbc in E. destruct (Z.eqb_spec (e b) 1) as [Z0|Z0].
      - apply good_0; [|exact Hst]. apply two_0; auto. right. congruence.
      - destruct (Z.eqb_spec ri rl) as [X|_]; [now elim E3|]. assert (Oad : operator V (a, d)) by (split; [exact Oa|split; [exact Od|]]; cbn [fst snd]; fold N; congruence).
        apply (good_eq _ [(a, d)]); [|rewrite <- Ed'; now apply G1]. destruct L01 as [L|L].
        + rewrite (single_0 a d Oad) by (auto || apply psi_anti). apply two_0; auto.
        + apply (two_bc a b c d O1 O2); auto. destruct J01; congruence. }
    assert (E4' : b <> c) by tauto.
    destruct (Z.eqb_spec ri rk) as [E|E5].
    { apply good_0; [|exact Hst]. apply two_ac; auto; [|tauto]. apply Hac in E. congruence. }
    assert (E5' : a <> c) by tauto.
    destruct (Z.eqb_spec ri rj) as [E|E6].
    { apply Hab in E. assert (T := two_diag1 a b c d O1 O2 E1' E4' E2' E). destruct (Z.eqb_spec (e a) 0); [now apply good_0|]. apply (good_eq _ [(c, d)] _ T). rewrite <- Ec', <- Ed'. now apply G1. }
    apply R; tauto.
  - assert (X : forall u v, u / N = s -> v / N = t -> u <> v) by congruence.
    assert (E2' : b <> d) by now apply X. assert (E3' : a <> d) by now apply X. assert (E4' : b <> c) by now apply X. assert (E5' : a <> c) by now apply X.
    destruct (Z.eqb_spec rk rl) as [E|E1].
    { apply Hcd in E. assert (T := two_diag2 a b c d O2 E). destruct (Z.eqb_spec (e c) 0); [now apply good_0|]. apply (good_eq _ [(a, b)] _ T).
      destruct (Z.eqb_spec ri rj) as [F|F]; [|now apply G1]. exists k. split; [|exact Hst]. do 2 f_equal. apply Hab in F. rewrite <- F. symmetry.
      assert (Oaa : operator V (a, a)) by (split; [exact Oa|split; [exact Oa|reflexivity]]). assert (Tt := diag a (psi V) Oaa). destruct I01 as [I1|I1]; rewrite I1 in Tt |- *; [now apply local_0|now apply local_1]. }
    assert (E1' : c <> d) by tauto.
    destruct (Z.eqb_spec ri rj) as [E|E6].
    { apply Hab in E. assert (T := two_diag1 a b c d O1 O2 E1' E4' E2' E). destruct (Z.eqb_spec (e a) 0); [now apply good_0|]. apply (good_eq _ [(c, d)] _ T). now apply G1. }
    apply R; tauto.
Qed.
End Green.
