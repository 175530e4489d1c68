(** Each sample adds weight times local values, whatever the order of the iterations (general spins: if they do not overlap). *)
From Coq Require Import ZArith List Bool Lia Reals Lra Permutation.
From Coquelicot Require Import Complex.
From Verif Require Import Base.ZLoop Base.Checked Base.RSum Slater.Model Samp.Model Samp.Spec Green.Model Green.Spec Green.Core Green.Proofs Ham.Model Ham.ProofsExt Gfz.Model Gfz.Spec Gfz.Proofs Hfz.Model Hfz.Proofs Cgr.Model Cgr.Spec.
From Verif Require Ham.Proofs.
Import ListNotations.
Local Open Scope Z_scope.

Lemma all_cons {S E} (e : E) l (f : E -> S -> option S) s : all (e :: l) f s = bind (f e s) (all l f).
Proof. unfold all. cbn. destruct (f e s); cbn; [reflexivity|]. induction l as [|j l IH]; [reflexivity|exact IH]. Qed.
Lemma all_app {S E} (l l' : list E) (f : E -> S -> option S) s : all (l ++ l') f s = bind (all l f s) (all l' f).
Proof. revert s. induction l as [|e l IH]; intros s; [reflexivity|]. cbn [app]. rewrite !all_cons. destruct (f e s); cbn [bind]; [apply IH|reflexivity]. Qed.
Lemma addC_ok n a i v : 0 <= i < n -> addC n a i v = Some (upd a i (Cplus (a i) v)).
Proof. intros H. unfold addC. rewrite rd_ok by exact H. cbn [bind]. now rewrite wr_ok. Qed.

Section Rows.
Variable Q : requests.
Variable w : R.
(** ** accumulation *)
Definition get (k : Z) (m : meas) : Z -> C := if k =? 0 then mPh1 m else if k =? 1 then mPhDC m else mPhAlt m.
Definition part2 (k i : Z) (m : meas) : C :=
  if k =? 0 then Cmult (RtoC w) (mLoc1 m i) else if k =? 1 then Cmult (RtoC w) (mLocDC m i) else Cmult (Cmult (RtoC w) (mLoc1 m (AltIdx Q i 0))) (Cconj (mLoc1 m (AltIdx Q i 1))).
Definition valid2 (e : Z * Z) : Prop :=
  (fst e = 0 /\ 0 <= snd e < NCisAjs Q) \/ (fst e = 1 /\ 0 <= snd e < NDC Q) \/
  (fst e = 2 /\ 0 <= snd e < NAlt Q /\ 0 <= AltIdx Q (snd e) 0 < NCisAjs Q /\ 0 <= AltIdx Q (snd e) 1 < NCisAjs Q).
Definition same_loc (m m' : meas) : Prop := mLoc1 m' = mLoc1 m /\ mLocDC m' = mLocDC m.
Lemma accumulate_ok e m : valid2 e -> exists m', accumulate Q w e m = Some m' /\ same_loc m m' /\
  forall k i, 0 <= k <= 2 -> get k m' i = if (k =? fst e) && (i =? snd e) then Cplus (get k m i) (part2 k i m) else get k m i.
Proof.
  destruct e as (k0, i0). cbn [fst snd]. unfold accumulate. cbn [fst snd].
  intros [(E & H)|[(E & H)|(E & H & H0 & H1)]]; cbn [fst snd] in *; subst k0; cbn [Z.eqb Pos.eqb].
  - rewrite rd_ok by exact H. cbn [bind]. rewrite addC_ok by exact H. cbn [bind]. eexists. split; [reflexivity|]. split; [split; reflexivity|].
    intros k i Hk. assert (k = 0 \/ k = 1 \/ k = 2) as [-> |[-> | ->]] by lia; cbn [Z.eqb andb get part2 mPh1 mPhDC mPhAlt Pos.eqb]; try reflexivity.
    unfold get, part2. cbn [Z.eqb mPh1]. unfold upd. destruct (Z.eqb_spec i i0) as [->|]; reflexivity.
  - rewrite rd_ok by exact H. cbn [bind]. rewrite addC_ok by exact H. cbn [bind]. eexists. split; [reflexivity|]. split; [split; reflexivity|].
    intros k i Hk. assert (k = 0 \/ k = 1 \/ k = 2) as [-> |[-> | ->]] by lia; cbn [Z.eqb andb get part2 mPh1 mPhDC mPhAlt Pos.eqb]; try reflexivity.
    unfold get, part2. cbn [Z.eqb Pos.eqb mPhDC]. unfold upd. destruct (Z.eqb_spec i i0) as [->|]; reflexivity.
  - rewrite !rd_ok by assumption. cbn [bind]. rewrite addC_ok by exact H. cbn [bind]. eexists. split; [reflexivity|]. split; [split; reflexivity|].
    intros k i Hk. assert (k = 0 \/ k = 1 \/ k = 2) as [-> |[-> | ->]] by lia; cbn [Z.eqb andb get part2 mPh1 mPhDC mPhAlt Pos.eqb]; try reflexivity.
    unfold get, part2. cbn [Z.eqb Pos.eqb mPhAlt]. unfold upd. destruct (Z.eqb_spec i i0) as [->|]; reflexivity.
Qed.
Lemma part2_same m m' k i : same_loc m m' -> part2 k i m' = part2 k i m.
Proof. intros (A & B). unfold part2. now rewrite A, B. Qed.
Lemma phase2_ok l : forall m, NoDup l -> (forall e, In e l -> valid2 e) -> exists m', all l (accumulate Q w) m = Some m' /\ same_loc m m' /\
  forall k i, 0 <= k <= 2 -> (In (k, i) l -> get k m' i = Cplus (get k m i) (part2 k i m)) /\ (~ In (k, i) l -> get k m' i = get k m i).
Proof.
  induction l as [|e l IH]; intros m Hn Hl.
  - exists m. split; [reflexivity|]. split; [split; reflexivity|]. intros k i _. split; [intros []|reflexivity].
  - inversion_clear Hn as [|? ? Hni Hnl]. rewrite all_cons. destruct (accumulate_ok e m (Hl e (or_introl eq_refl))) as (m1 & -> & S1 & G1). cbn [bind].
    destruct (IH m1 Hnl (fun e' H => Hl e' (or_intror H))) as (m' & E & S2 & G2). exists m'. split; [exact E|]. split; [destruct S1, S2; split; congruence|].
    intros k i Hk. destruct (G2 k i Hk) as (A & B). rewrite (G1 k i Hk), (part2_same m m1 k i S1) in A. rewrite (G1 k i Hk) in B.
    destruct e as (k0, i0). cbn [fst snd] in A, B. destruct (Z.eqb_spec k k0) as [->|Nk]; [destruct (Z.eqb_spec i i0) as [->|Ni]|]; cbn [andb] in A, B; split; intros H.
    + now rewrite B. + exfalso. apply H. now left. + destruct H as [H|H]; [congruence|auto]. + apply B. intros H'. apply H. now right.
    + destruct H as [H|H]; [congruence|auto]. + apply B. intros H'. apply H. now right.
Qed.
Lemma pair_in {A} (b : A) l c i : In (c, i) (map (pair b) l) <-> c = b /\ In i (l : list Z).
Proof. rewrite in_map_iff. split; [intros (j & E & H); injection E as -> ->; auto|intros (-> & H); eauto]. Qed.
Lemma pair_nodup {A} (b : A) l : NoDup (l : list Z) -> NoDup (map (pair b) l).
Proof. induction 1 as [|i l H]; cbn; constructor; [|assumption]. intros H'. apply pair_in in H'. tauto. Qed.
Lemma app_nodup {A} (l l' : list A) : NoDup l -> NoDup l' -> (forall x, In x l -> ~ In x l') -> NoDup (l ++ l').
Proof. induction 1 as [|i l H Hl IH]; intros H' D; [exact H'|]. cbn. constructor; [|apply IH; [exact H'|intros; apply D; now right]]. intros B. apply in_app_or in B. destruct B as [B|B]; [exact (H B)|]. exact (D i (or_introl eq_refl) B). Qed.
Lemma rows1_nodup : NoDup (rows1 Q).
Proof. apply app_nodup; [apply pair_nodup, zrange_NoDup|apply pair_nodup, zrange_NoDup|]. intros (b, i) A B. apply pair_in in A, B. destruct A, B. congruence. Qed.
Lemma rows1_in b i : In (b, i) (rows1 Q) <-> 0 <= i < (if b : bool then NDC Q else NCisAjs Q).
Proof. unfold rows1. rewrite in_app_iff, !pair_in, !zrange_in. destruct b; intuition discriminate. Qed.
Lemma rows2_nodup : NoDup (rows2 Q).
Proof.
  apply app_nodup; [apply pair_nodup, zrange_NoDup|apply app_nodup; [apply pair_nodup, zrange_NoDup|apply pair_nodup, zrange_NoDup|]|].
  - intros (b, i) A B. apply pair_in in A, B. destruct A, B. congruence.
  - intros (b, i) A B. apply in_app_or in B. rewrite !pair_in in B. apply pair_in in A. destruct A. destruct B as [(B & _)|(B & _)]; congruence.
Qed.
Lemma rows2_fsz_nodup : NoDup (rows2_fsz Q).
Proof. apply app_nodup; [apply pair_nodup, zrange_NoDup|apply pair_nodup, zrange_NoDup|]. intros (b, i) A B. apply pair_in in A, B. destruct A, B. congruence. Qed.
Lemma rows2_in k i : In (k, i) (rows2 Q) <-> (k = 0 /\ 0 <= i < NCisAjs Q) \/ (k = 1 /\ 0 <= i < NDC Q) \/ (k = 2 /\ 0 <= i < NAlt Q).
Proof. unfold rows2. now rewrite !in_app_iff, !pair_in, !zrange_in. Qed.
Lemma rows2_fsz_in k i : In (k, i) (rows2_fsz Q) <-> (k = 0 /\ 0 <= i < NCisAjs Q) \/ (k = 2 /\ 0 <= i < NAlt Q).
Proof. unfold rows2_fsz. now rewrite !in_app_iff, !pair_in, !zrange_in. Qed.
End Rows.

(** ** fixed spins *)
Section Std.
Variable V : wave.
Hypothesis HV : wf_wave V.
Variables (K : setting) (wk : walker) (rcnt : Z -> C) (ip : C).
Hypothesis HS : sampled V K wk rcnt ip.
Let N := sites V.
Let Ne := Slater.Model.Ne (vS V).
Let x := Samp.Model.eleIdx wk.
Let G := env_of V K.
Variables (Q : requests) (w : R).
Hypothesis HQ : requests_ok N Q.
(** rows as the code reads them: one-body with the annihilator's spin, two-body with the creators' spins *)
Definition read1 (c : Z -> Z) : list (Z * Z) := [(c 0 + c 3 * N, c 2 + c 3 * N)].
Definition read2 (c : Z -> Z) : list (Z * Z) := [(c 0 + c 1 * N, c 2 + c 1 * N); (c 4 + c 5 * N, c 6 + c 5 * N)].
Variable P : gsched.
Hypothesis HP : g_execution Q P.
Let k0 t := copy_tables G (Samp.Model.eleNum wk) x (gspace P t).
Let I t k := starts (redone wk (Green.Model.eleIdx (k0 t)) (Green.Model.eleNum (k0 t))) k.
Let Hx t m : 0 <= m < 2 * Ne -> Green.Model.eleIdx (k0 t) m = x m.
Proof. intros Hm. unfold k0, copy_tables. cbn [Green.Model.eleIdx]. now apply fcopy_get. Qed.
Let He t m : 0 <= m < 2 * N -> Green.Model.eleNum (k0 t) m = Samp.Model.eleNum wk m.
Proof. intros Hm. unfold k0, copy_tables. cbn [Green.Model.eleNum]. now apply fcopy_get. Qed.
Let HS' t : sampled V K (redone wk (Green.Model.eleIdx (k0 t)) (Green.Model.eleNum (k0 t))) rcnt ip := redone_sampled V HV K wk rcnt ip HS _ _ (Hx t) (He t).
Let ev (e : Z * bool * Z) := if snd (fst e) then two_body Q G ip (Samp.Model.eleCfg wk) (eleProjCnt wk) rcnt (fst (fst e)) (snd e) else one_body Q G ip (Samp.Model.eleCfg wk) (eleProjCnt wk) rcnt (fst (fst e)) (snd e).
Let key (e : Z * bool * Z) := (snd (fst e), snd e).
Definition same_ph (m m' : meas) : Prop := mPh1 m' = mPh1 m /\ mPhDC m' = mPhDC m /\ mPhAlt m' = mPhAlt m.
Lemma step1 e st : (forall t, I t (fst st t)) -> In (key e) (rows1 Q) -> exists st', ev e st = Some st' /\ (forall t, I t (fst st' t)) /\ same_ph (snd st) (snd st') /\
  (if snd (fst e) then mLoc1 (snd st') = mLoc1 (snd st) /\ mLocDC (snd st') = upd (mLocDC (snd st)) (snd e) (local V (read2 (DCIdx Q (snd e))) x)
   else mLoc1 (snd st') = upd (mLoc1 (snd st)) (snd e) (local V (read1 (CisAjsIdx Q (snd e))) x) /\ mLocDC (snd st') = mLocDC (snd st)).
Proof.
  destruct e as ((t, b), i). unfold key, ev. cbn [fst snd]. intros HI Hi. apply rows1_in in Hi. destruct st as (sp, m). cbn [fst snd] in *. destruct b.
  - destruct (rq_two N Q HQ i Hi) as ((A1 & A2) & (B1 & B2) & (C1 & C2) & (D1 & D2)). unfold two_body. cbn [fst snd].
    destruct (green2_ok V HV _ K rcnt ip (HS' t) (DCIdx Q i 0) (DCIdx Q i 2) (DCIdx Q i 4) (DCIdx Q i 6) (DCIdx Q i 1) (DCIdx Q i 5) (sp t) A1 B1 C1 D1 A2 C2 (HI t)) as (k' & E & Hk').
    cbn [redone Samp.Model.eleCfg eleProjCnt Samp.Model.eleIdx] in E. rewrite (redone_local V wk _ (Hx t)) in E. fold G in E. rewrite E. cbn [bind fst snd]. rewrite wr_ok by exact Hi. cbn [bind]. eexists. split; [reflexivity|].
    cbn [fst snd]. split; [|split; [repeat split|split; reflexivity]]. intros t'. unfold upd. destruct (Z.eqb_spec t' t) as [->|]; [exact Hk'|apply HI].
  - destruct (rq_one N Q HQ i Hi) as ((A1 & A2) & (B1 & B2)). unfold one_body. cbn [fst snd].
    destruct (green1_ok V HV _ K rcnt ip (HS' t) (CisAjsIdx Q i 0) (CisAjsIdx Q i 2) (CisAjsIdx Q i 3) (sp t) A1 B1 B2 (HI t)) as (k' & E & Hk').
    cbn [redone Samp.Model.eleCfg eleProjCnt Samp.Model.eleIdx] in E. rewrite (redone_local V wk _ (Hx t)) in E. fold G in E. rewrite E. cbn [bind fst snd]. rewrite wr_ok by exact Hi. cbn [bind]. eexists. split; [reflexivity|].
    cbn [fst snd]. split; [|split; [repeat split|split; reflexivity]]. intros t'. unfold upd. destruct (Z.eqb_spec t' t) as [->|]; [exact Hk'|apply HI].
Qed.
Lemma phase1_ok l : forall st, (forall t, I t (fst st t)) -> (forall e, In e l -> In (key e) (rows1 Q)) -> exists st', all l ev st = Some st' /\ same_ph (snd st) (snd st') /\
  (forall i, In (false, i) (map key l) \/ mLoc1 (snd st) i = local V (read1 (CisAjsIdx Q i)) x -> mLoc1 (snd st') i = local V (read1 (CisAjsIdx Q i)) x) /\
  (forall i, In (true, i) (map key l) \/ mLocDC (snd st) i = local V (read2 (DCIdx Q i)) x -> mLocDC (snd st') i = local V (read2 (DCIdx Q i)) x).
Proof.
  induction l as [|e l IH]; intros st HI Hl.
  - exists st. split; [reflexivity|]. split; [repeat split|]. split; intros i [[]|H]; exact H.
  - rewrite all_cons. destruct (step1 e st HI (Hl e (or_introl eq_refl))) as (st1 & -> & I1 & (P1 & P2 & P3) & L1). cbn [bind].
    destruct (IH st1 I1 (fun e' H => Hl e' (or_intror H))) as (st' & E & (R1 & R2 & R3) & A & B). exists st'. split; [exact E|]. split; [repeat split; congruence|]. cbn [map]. change (key e) with (snd (fst e), snd e).
    destruct (snd (fst e)) eqn:Eb; destruct L1 as (L1 & L2); split; intros i H.
    + apply A. rewrite L1. destruct H as [[H|H]|H]; [discriminate|now left|now right].
    + apply B. rewrite L2. unfold upd. destruct (Z.eqb_spec i (snd e)) as [->|Ni]; [now right|]. destruct H as [[H|H]|H]; [injection H as H; congruence|now left|now right].
    + apply A. rewrite L1. unfold upd. destruct (Z.eqb_spec i (snd e)) as [->|Ni]; [now right|]. destruct H as [[H|H]|H]; [injection H as H; congruence|now left|now right].
    + apply B. rewrite L2. destruct H as [[H|H]|H]; [discriminate|now left|now right].
Qed.
Definition adds_read (m m' : meas) : Prop :=
  (forall i, 0 <= i < NCisAjs Q -> mPh1 m' i = Cplus (mPh1 m i) (Cmult (RtoC w) (local V (read1 (CisAjsIdx Q i)) x))) /\
  (forall i, 0 <= i < NDC Q -> mPhDC m' i = Cplus (mPhDC m i) (Cmult (RtoC w) (local V (read2 (DCIdx Q i)) x))) /\
  (forall i, 0 <= i < NAlt Q -> mPhAlt m' i = Cplus (mPhAlt m i)
    (Cmult (RtoC w) (Cmult (local V (read1 (CisAjsIdx Q (AltIdx Q i 0))) x) (Cconj (local V (read1 (CisAjsIdx Q (AltIdx Q i 1))) x))))).
Lemma green_read m : exists m', calculate_green Q w G ip (Samp.Model.eleCfg wk) (Samp.Model.eleNum wk) (eleProjCnt wk) rcnt P x m = Some m' /\ adds_read m m'.
Proof.
  destruct HP as (E1 & E2). unfold calculate_green.
  destruct (phase1_ok (phase1 P) (fun t => copy_tables G (Samp.Model.eleNum wk) x (gspace P t), m)) as (st & E0 & (P1 & P2 & P3) & A & B).
  { intros t. split; reflexivity. }
  { intros e He'. apply (Permutation_in _ E1). apply in_map_iff. exists e. split; [reflexivity|exact He']. }
  unfold ev in E0. rewrite E0. clear E0. cbn [bind fst snd] in *. destruct (phase2_ok Q w (phase2 P) (snd st)) as (m' & E & S' & R).
  { apply (Permutation_NoDup (Permutation_sym E2)). apply rows2_nodup. }
  { intros (k, i) H. apply (Permutation_in _ E2), rows2_in in H. destruct H as [(-> & H)|[(-> & H)|(-> & H)]]; [left; auto|right; left; auto|right; right]. cbn. split; [reflexivity|]. split; [exact H|]. exact (rq_alt N Q HQ i H). }
  assert (L1 : forall i, 0 <= i < NCisAjs Q -> mLoc1 (snd st) i = local V (read1 (CisAjsIdx Q i)) x) by (intros i Hi; apply A; left; apply (Permutation_in _ (Permutation_sym E1)); now apply rows1_in).
  assert (L2 : forall i, 0 <= i < NDC Q -> mLocDC (snd st) i = local V (read2 (DCIdx Q i)) x) by (intros i Hi; apply B; left; apply (Permutation_in _ (Permutation_sym E1)); now apply rows1_in).
  exists m'. split; [exact E|]. split; [|split]; intros i Hi.
  - destruct (R 0 i ltac:(lia)) as (R' & _). unfold get, part2 in R'. cbn [Z.eqb] in R'. rewrite R', P1, L1 by (try exact Hi; apply (Permutation_in _ (Permutation_sym E2)), rows2_in; auto). reflexivity.
  - destruct (R 1 i ltac:(lia)) as (R' & _). unfold get, part2 in R'. cbn [Z.eqb Pos.eqb] in R'. rewrite R', P2, L2 by (try exact Hi; apply (Permutation_in _ (Permutation_sym E2)), rows2_in; auto). reflexivity.
  - destruct (R 2 i ltac:(lia)) as (R' & _). unfold get, part2 in R'. cbn [Z.eqb Pos.eqb] in R'. destruct (rq_alt N Q HQ i Hi) as (H0 & H1).
    rewrite R', P3, !L1 by (try assumption; apply (Permutation_in _ (Permutation_sym E2)), rows2_in; auto). ring.
Qed.
Lemma green_ignored m : exists m', calculate_green Q w G ip (Samp.Model.eleCfg wk) (Samp.Model.eleNum wk) (eleProjCnt wk) rcnt P x m = Some m' /\ adds (spins_read Q) N w (fun ops => local V ops x) m m'.
Proof. exact (green_read m). Qed.
Hypothesis Hk : requests_kept Q.
Lemma green_std m : exists m', calculate_green Q w G ip (Samp.Model.eleCfg wk) (Samp.Model.eleNum wk) (eleProjCnt wk) rcnt P x m = Some m' /\ adds Q N w (fun ops => local V ops x) m m'.
Proof.
  destruct (green_read m) as (m' & E & A1 & A2 & A3). exists m'. split; [exact E|]. destruct Hk as (K1 & K2).
  assert (R1 : forall i, 0 <= i < NCisAjs Q -> row1 N (CisAjsIdx Q i) = read1 (CisAjsIdx Q i)) by (intros i Hi; unfold row1, read1; now rewrite (K1 i Hi)).
  split; [|split]; intros i Hi.
  - rewrite A1, R1 by exact Hi. reflexivity.
  - rewrite A2 by exact Hi. unfold row2, read2. destruct (K2 i Hi) as (<- & <-). reflexivity.
  - destruct (rq_alt N Q HQ i Hi). rewrite A3, !R1 by assumption. reflexivity.
Qed.
End Std.

(** ** general spins *)
Section Fsz.
Variable V : fwave.
Hypothesis HV : wf_fwave V.
Variables (G : env) (wk : walker) (ip : C).
Hypothesis HS : sampled_fsz V G wk ip.
Let N := fsites V.
Let Ne := Slater.Model.Ne (fS V).
Let X := config V wk.
Let HG : gNsite G = N := ld_N _ _ (sf_loaded _ _ _ _ HS).
Let HGe : gNe G = Ne := ld_Ne _ _ (sf_loaded _ _ _ _ HS).
Variables (Q : requests) (w : R).
Hypothesis HQ : requests_ok N Q.
Variable P : fgsched.
Let k0 t := fcopy_tables G (Samp.Model.eleNum wk) (Samp.Model.eleIdx wk) (Samp.Model.eleSpn wk) (fgspace P t).
Let w' t := fredone wk (fIdx (k0 t)) (fSpn (k0 t)) (fNum (k0 t)).
Let I t k := starts_fsz (w' t) k.
Let Hi' t m : 0 <= m < 2 * Ne -> fIdx (k0 t) m = Samp.Model.eleIdx wk m.
Proof. intros Hm; unfold k0, fcopy_tables; cbn [fIdx]; rewrite HGe; now apply fcopy_get. Qed.
Let Hs' t m : 0 <= m < 2 * Ne -> fSpn (k0 t) m = Samp.Model.eleSpn wk m.
Proof. intros Hm; unfold k0, fcopy_tables; cbn [fSpn]; rewrite HGe; now apply fcopy_get. Qed.
Let He' t m : 0 <= m < 2 * N -> fNum (k0 t) m = Samp.Model.eleNum wk m.
Proof. intros Hm; unfold k0, fcopy_tables; cbn [fNum]; rewrite HG; now apply fcopy_get. Qed.
Let HS' t : sampled_fsz V G (w' t) ip := fredone_sampled V HV G wk ip HS _ _ _ (Hi' t) (Hs' t) (He' t).
Let cfg := Samp.Model.eleCfg wk.
Let cnt := eleProjCnt wk.
Let ev e := match e with Assign th two idx => assign Q th two idx | Call th => call Q w G ip cfg cnt th end.
Let key (e : Z * bool * Z) := (snd (fst e), snd e).
Let split_ev (e : Z * bool * Z) := [Assign (fst (fst e)) (snd (fst e)) (snd e); Call (fst (fst e))].
Let T1 i := flocal V (row1 N (CisAjsIdx Q i)) X.
Let T2 i := flocal V (row2 N (DCIdx Q i)) X.
Lemma fstep1 e st : (forall t, I t (fg_sp st t)) -> In (key e) (rows1 Q) -> exists st', all (split_ev e) ev st = Some st' /\ (forall t, I t (fg_sp st' t)) /\
  mPh1 (fg_m st') = mPh1 (fg_m st) /\ mPhAlt (fg_m st') = mPhAlt (fg_m st) /\
  (if snd (fst e) then mLoc1 (fg_m st') = mLoc1 (fg_m st) /\ mPhDC (fg_m st') = upd (mPhDC (fg_m st)) (snd e) (Cplus (mPhDC (fg_m st) (snd e)) (Cmult (RtoC w) (T2 (snd e))))
   else mLoc1 (fg_m st') = upd (mLoc1 (fg_m st)) (snd e) (T1 (snd e)) /\ mPhDC (fg_m st') = mPhDC (fg_m st)).
Proof.
  destruct e as ((t, b), i). unfold key, split_ev. cbn [fst snd]. intros HI Hi. apply rows1_in in Hi. rewrite !all_cons. unfold ev at 1. destruct b; cbn [assign bind].
  - destruct (rq_two N Q HQ i Hi) as (A & B & C & D). unfold assign. cbn [bind]. rewrite all_cons. unfold ev at 1, call. cbn [fg_pv fg_sh fg_sp fg_m]. rewrite Base.ZLoop.upd_same. cbn [p_two p_s p_t p_ri p_rj p_rk p_rl p_idx sh_u sh_v].
    assert (Ek : exists k', (if (DCIdx Q i 1 =? DCIdx Q i 3) && (DCIdx Q i 5 =? DCIdx Q i 7) then green2_fsz G (DCIdx Q i 0) (DCIdx Q i 2) (DCIdx Q i 4) (DCIdx Q i 6) (DCIdx Q i 1) (DCIdx Q i 5) ip cfg cnt (fg_sp st t)
      else green2_fsz2 G (DCIdx Q i 0) (DCIdx Q i 2) (DCIdx Q i 4) (DCIdx Q i 6) (DCIdx Q i 1) (DCIdx Q i 3) (DCIdx Q i 5) (DCIdx Q i 7) ip cfg cnt (fg_sp st t)) = Some (T2 i, k') /\ I t k').
    { unfold T2. rewrite <- (fredone_local V wk (fIdx (k0 t)) (fSpn (k0 t)) (fNum (k0 t)) (Hi' t) (Hs' t)). destruct ((DCIdx Q i 1 =? DCIdx Q i 3) && (DCIdx Q i 5 =? DCIdx Q i 7)) eqn:Es.
      - apply andb_true_iff in Es. destruct Es as (Es & Eu). apply Z.eqb_eq in Es, Eu. unfold row2. rewrite <- Es in B |- *. rewrite <- Eu in D |- *. exact (green2_fsz_ok V HV G (w' t) ip (HS' t) _ _ _ _ _ _ _ A B C D (HI t)).
      - exact (green2_fsz2_ok V HV G (w' t) ip (HS' t) _ _ _ _ _ _ _ _ _ A B C D (HI t)). }
    destruct Ek as (k' & -> & Hk'). cbn [bind fst snd]. rewrite addC_ok by exact Hi. cbn [bind]. eexists. split; [reflexivity|]. cbn [fg_sp fg_m mPh1 mPhAlt mLoc1 mPhDC]. split; [|repeat split].
    intros t'. unfold upd. destruct (Z.eqb_spec t' t) as [->|]; [exact Hk'|apply HI].
  - destruct (rq_one N Q HQ i Hi) as (A & B). unfold assign. cbn [bind]. rewrite all_cons. unfold ev at 1, call. cbn [fg_pv fg_sh fg_sp fg_m]. rewrite Base.ZLoop.upd_same. cbn [p_two p_s p_ri p_rj p_idx sh_t].
    assert (Ek : exists k', (if CisAjsIdx Q i 1 =? CisAjsIdx Q i 3 then green1_fsz G (CisAjsIdx Q i 0) (CisAjsIdx Q i 2) (CisAjsIdx Q i 1) ip cfg cnt (fg_sp st t)
      else green1_fsz2 G (CisAjsIdx Q i 0) (CisAjsIdx Q i 2) (CisAjsIdx Q i 1) (CisAjsIdx Q i 3) ip cfg cnt (fg_sp st t)) = Some (T1 i, k') /\ I t k').
    { unfold T1. rewrite <- (fredone_local V wk (fIdx (k0 t)) (fSpn (k0 t)) (fNum (k0 t)) (Hi' t) (Hs' t)). destruct (Z.eqb_spec (CisAjsIdx Q i 1) (CisAjsIdx Q i 3)) as [Es|Ns].
      - unfold row1. rewrite <- Es in B |- *. exact (green1_fsz_ok V HV G (w' t) ip (HS' t) _ _ _ _ A B (HI t)).
      - refine (green1_fsz2_ok V HV G (w' t) ip (HS' t) _ _ _ _ _ A B _ (HI t)). intros E. apply Ns. exact (proj2 (same_of V wk _ _ _ _ A B E)). }
    destruct Ek as (k' & -> & Hk'). cbn [bind fst snd]. rewrite wr_ok by exact Hi. cbn [bind]. eexists. split; [reflexivity|]. cbn [fg_sp fg_m mPh1 mPhAlt mLoc1 mPhDC]. split; [|repeat split].
    intros t'. unfold upd. destruct (Z.eqb_spec t' t) as [->|]; [exact Hk'|apply HI].
Qed.
Lemma fphase1_ok l : forall st, (forall t, I t (fg_sp st t)) -> NoDup (map key l) -> (forall e, In e l -> In (key e) (rows1 Q)) -> exists st', all (flat_map split_ev l) ev st = Some st' /\
  mPh1 (fg_m st') = mPh1 (fg_m st) /\ mPhAlt (fg_m st') = mPhAlt (fg_m st) /\
  (forall i, In (false, i) (map key l) \/ mLoc1 (fg_m st) i = T1 i -> mLoc1 (fg_m st') i = T1 i) /\
  (forall i, In (true, i) (map key l) -> mPhDC (fg_m st') i = Cplus (mPhDC (fg_m st) i) (Cmult (RtoC w) (T2 i))) /\
  (forall i, ~ In (true, i) (map key l) -> mPhDC (fg_m st') i = mPhDC (fg_m st) i).
Proof.
  induction l as [|e l IH]; intros st HI Hn Hl.
  - exists st. split; [reflexivity|]. split; [reflexivity|]. split; [reflexivity|]. split; [intros i [[]|H]; exact H|]. split; [intros i []|reflexivity].
  - cbn [flat_map]. rewrite all_app. destruct (fstep1 e st HI (Hl e (or_introl eq_refl))) as (st1 & -> & I1 & P1 & P3 & L1). cbn [bind]. cbn [map] in Hn. inversion_clear Hn as [|? ? Hni Hnl].
    destruct (IH st1 I1 Hnl (fun e' H => Hl e' (or_intror H))) as (st' & E & R1 & R3 & A & B & C). exists st'. split; [exact E|]. split; [congruence|]. split; [congruence|]. cbn [map]. change (key e) with (snd (fst e), snd e) in Hni |- *.
    destruct (snd (fst e)) eqn:Eb; destruct L1 as (L1 & L2); (split; [|split]); intros i H.
    + apply A. rewrite L1. destruct H as [[H|H]|H]; [discriminate|now left|now right].
    + destruct (Z.eq_dec i (snd e)) as [->|Ni].
      * rewrite C, L2, Base.ZLoop.upd_same; [reflexivity|exact Hni].
      * destruct H as [H|H]; [injection H as H; congruence|]. rewrite B, L2, Base.ZLoop.upd_other by assumption. reflexivity.
    + rewrite C, L2, Base.ZLoop.upd_other; [reflexivity| |]; [intros ->; apply H; now left|intros H'; apply H; now right].
    + apply A. rewrite L1. unfold upd. destruct (Z.eqb_spec i (snd e)) as [->|Ni]; [now right|]. destruct H as [[H|H]|H]; [injection H as H; congruence|now left|now right].
    + rewrite <- L2. destruct H as [H|H]; [discriminate|]. now apply B.
    + rewrite <- L2. apply C. intros H'. apply H. now right.
Qed.
Lemma green_fsz m : no_overlap Q P -> exists m', calculate_green_fsz Q w G ip cfg (Samp.Model.eleNum wk) cnt P (Samp.Model.eleIdx wk) (Samp.Model.eleSpn wk) m = Some m' /\ adds Q N w (fun ops => flocal V ops X) m m'.
Proof.
  intros (l & El & E1 & E2). unfold calculate_green_fsz. rewrite El.
  destruct (fphase1_ok l (FG (fun t => fcopy_tables G (Samp.Model.eleNum wk) (Samp.Model.eleIdx wk) (Samp.Model.eleSpn wk) (fgspace P t)) (fpv0 P) (fsh0 P) m)) as (st & E0 & P1 & P3 & A & B & _).
  { intros t. repeat split. }
  { apply (Permutation_NoDup (Permutation_sym E1)). apply rows1_nodup. }
  { intros e He. apply (Permutation_in _ E1). apply in_map_iff. exists e. split; [reflexivity|exact He]. }
  unfold ev, split_ev in E0. rewrite E0. clear E0. cbn [bind fg_m] in *. destruct (phase2_ok Q w (fphase2 P) (fg_m st)) as (m' & E & S' & R).
  { apply (Permutation_NoDup (Permutation_sym E2)). apply rows2_fsz_nodup. }
  { intros (k, i) H. apply (Permutation_in _ E2), rows2_fsz_in in H. destruct H as [(-> & H)|(-> & H)]; [left; auto|right; right]. cbn. split; [reflexivity|]. split; [exact H|]. exact (rq_alt N Q HQ i H). }
  assert (L1 : forall i, 0 <= i < NCisAjs Q -> mLoc1 (fg_m st) i = T1 i) by (intros i Hi; apply A; left; apply (Permutation_in _ (Permutation_sym E1)); now apply rows1_in).
  exists m'. split; [exact E|]. split; [|split]; intros i Hi.
  - destruct (R 0 i ltac:(lia)) as (R' & _). unfold get, part2 in R'. cbn [Z.eqb] in R'. rewrite R', P1, L1 by (try exact Hi; apply (Permutation_in _ (Permutation_sym E2)), rows2_fsz_in; auto). reflexivity.
  - destruct (R 1 i ltac:(lia)) as (_ & R'). unfold get in R'. cbn [Z.eqb Pos.eqb] in R'. rewrite R'; [|intros H; apply (Permutation_in _ E2), rows2_fsz_in in H; lia]. rewrite B; [reflexivity|]. apply (Permutation_in _ (Permutation_sym E1)). now apply rows1_in.
  - destruct (R 2 i ltac:(lia)) as (R' & _). unfold get, part2 in R'. cbn [Z.eqb Pos.eqb] in R'. destruct (rq_alt N Q HQ i Hi) as (H0 & H1).
    rewrite R', P3, !L1 by (try assumption; apply (Permutation_in _ (Permutation_sym E2)), rows2_fsz_in; auto). unfold T1. ring.
Qed.
End Fsz.
