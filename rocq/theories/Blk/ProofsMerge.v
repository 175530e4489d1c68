(** Merging the pending hops, the safe pushes, and sequences of trials. *)
From Coq Require Import ZArith List Bool Lia Reals.
From Coquelicot Require Import Complex.
From Verif Require Import Base.ZLoop Base.Checked Base.RSum Pf.Pfaffian Pf.Spec Pf.Proofs Ltl.Model Ltl.Spec Ltl.Arr Ltl.Proofs Ltl.Frame Blk.Model Blk.Spec Blk.Alg Blk.Kernel Blk.Arr Blk.State Blk.Ratio Blk.Proofs.
Import ListNotations.
Local Open Scope Z_scope.

Lemma skew_zero (z : C) : z = Copp z -> z = RtoC 0.
Proof. intros E. destruct z as (x, y). injection E as E1 E2. unfold RtoC. f_equal; Lra.lra. Qed.
Lemma inverse_ext N M X Y : (forall i j, 0 <= i < N -> 0 <= j < N -> X i j = Y i j) -> is_inverse N X M -> is_inverse N Y M.
Proof.
  intros H (H1 & H2 & H3). split; [|split]; intros i j Hi Hj.
  - rewrite <- H1 by assumption. apply csum_ext. intros k Hk. apply zrange_in in Hk. now rewrite H.
  - rewrite <- H2 by assumption. apply csum_ext. intros k Hk. apply zrange_in in Hk. now rewrite H.
  - rewrite <- !H by assumption. now apply H3.
Qed.
Lemma inverse_ext_r N X M M' : (forall i j, 0 <= i < N -> 0 <= j < N -> M i j = M' i j) -> is_inverse N X M -> is_inverse N X M'.
Proof.
  intros H (H1 & H2 & H3). split; [|split; [|exact H3]]; intros i j Hi Hj.
  - rewrite <- H1 by assumption. apply csum_ext. intros k Hk. apply zrange_in in Hk. now rewrite H.
  - rewrite <- H2 by assumption. apply csum_ext. intros k Hk. apply zrange_in in Hk. now rewrite H.
Qed.
(** a skew function whose upper triangle an array holds *)
Lemma full_of n A (M : Z -> Z -> C) : (forall i j, 0 <= i < n -> 0 <= j < n -> M j i = Copp (M i j)) -> (forall i j, 0 <= i < j -> j < n -> at_ A n i j = M i j) ->
  forall i j, 0 <= i < n -> 0 <= j < n -> full A n i j = M i j.
Proof.
  intros Hs H i j Hi Hj. destruct (Z.lt_trichotomy i j) as [L|[<-|L]].
  - rewrite full_low by exact L. apply H; lia.
  - rewrite full_diag. symmetry. apply skew_zero. now apply Hs.
  - rewrite full_high by exact L. rewrite H by lia. symmetry. apply Hs; lia.
Qed.

Section Merge.
Variables (norbs n mmax : Z) (X junk : Z -> C).
Variable sktrf : Z -> Z -> (Z -> C) -> (Z -> C) * (Z -> Z).
Variable skpfa : Z -> Z -> (Z -> C) -> C * (Z -> C).
Variables (trtri : bool -> Z -> Z -> (Z -> C) -> Z -> C) (npanel : Z).
Hypothesis HX : skew_array norbs X.
Hypothesis Hn : 0 < n.
Hypothesis Heven : Z.Even n.
Hypothesis Htrf : factorises_upper sktrf.
Hypothesis Hpfa : pfaffian_of_upper skpfa.
Hypothesis Htri : inverts trtri.
Local Notation T := (at_ X norbs).
Local Notation amp := (amplitudes norbs X).
Local Notation shape := (shape norbs n mmax).
Local Notation tables := (tables norbs n mmax X).
Local Notation ratio_ok := (ratio_ok norbs n mmax X).
Local Notation good := (good norbs n mmax X).
Local Notation value c := (pf (amp c) (zrange 0 n)).
Local Notation merge_updates := (merge_updates n mmax junk sktrf trtri npanel).

(** ** the new inverse *)
Lemma inv_update_at s Ci Cm : shape s -> tables s -> tNq s = tK s -> 1 <= tK s -> is_inverse (2 * tK s) Ci (cen_of n mmax s) ->
  (forall a b, 0 <= a < 2 * tK s -> 0 <= b < 2 * tK s -> (tK s = 1 -> a = 0 /\ b = 1) -> at_ Cm (2 * mmax) a b = Ci a b) ->
  is_inverse n (full (tM (inv_update n mmax (tK s) Cm s)) n) (amp (cur s)).
Proof.
  intros Hs Ht Hq H1 HC HCm. pose proof (shK _ _ _ s Hs) as HK. pose proof (merge_law norbs n mmax X HX s Ci Hs Ht HC) as HI. revert HI. apply inverse_ext. intros i j Hi Hj. symmetry. revert i j Hi Hj.
  assert (HIs := merge_law norbs n mmax X HX s Ci Hs Ht HC).
  assert (Csk : forall a b, 0 <= a < 2 * tK s -> 0 <= b < 2 * tK s -> Ci b a = Copp (Ci a b)) by apply HC.
  set (cor := corrected n (2 * tK s) (full (tM s) n) (B_of n s) Ci) in *.
  assert (Mlo : forall i a, 0 <= i < n -> 0 <= a < tK s -> moved_by n (full (tM s) n) (B_of n s) i a = at_ (tQ s) n i a).
  { intros i a Hi Ha. unfold B_of. rewrite (moved_low (tK s) _ (full (tW s) mmax) (tFrom s) (fun l m _ _ => full_skew _ _ l m) n (shFr _ _ _ s Hs) (shInj _ _ _ s Hs)) by exact Ha. symmetry. apply (tbQ _ _ _ _ s Ht); lia. }
  assert (Mhi : forall i a, 0 <= i < n -> 0 <= a < tK s -> moved_by n (full (tM s) n) (B_of n s) i (tK s + a) = at_ (tQ s) n i (mmax + a)).
  { intros i a Hi Ha. unfold B_of. rewrite (moved_high (tK s) _ (full (tW s) mmax) (tFrom s) (fun l m _ _ => full_skew _ _ l m) n (shFr _ _ _ s Hs) (shInj _ _ _ s Hs)) by exact Ha. symmetry. apply (tbP _ _ _ _ s Ht); lia. }
  apply full_of; [exact (proj2 (proj2 HIs))|]. intros i j Hi Hj. unfold inv_update. destruct (Z.eqb_spec (tK s) 1) as [E1|N1].
  - cbn [tM]. rewrite gemmt_at by lia. rewrite gemmt_at by lia. destruct (Z.leb_spec 0 j), (Z.ltb_spec j n), (Z.leb_spec i j); try lia. cbn [andb].
    change (zrange 0 1) with [0]. cbn [csum fold_right]. rewrite (HCm 0 1) by lia.
    unfold cor, corrected. rewrite E1 in Csk, Mlo, Mhi |- *. change (zrange 0 (2 * 1)) with [0; 1]. cbn [csum fold_right].
    rewrite !(Mlo _ 0) by lia.
    pose proof (Mhi i 0 ltac:(lia) ltac:(lia)) as Mi. pose proof (Mhi j 0 ltac:(lia) ltac:(lia)) as Mj. change (1 + 0) with 1 in Mi, Mj. rewrite Mi, Mj. rewrite (Csk 0 1) by lia.
    rewrite (skew_zero (Ci 0 0)) by (apply Csk; lia). rewrite (skew_zero (Ci 1 1)) by (apply Csk; lia). rewrite full_low by lia. unfold at_. rewrite ?Z.add_0_l, ?Z.add_0_r. rewrite !(Z.add_comm (mmax * n)). ring.
  - cbv zeta. cbn [tM]. set (Q := if tK s =? mmax then tQ s else _).
    assert (HQ : forall i a, 0 <= i < n -> 0 <= a < 2 * tK s -> at_ Q n i a = moved_by n (full (tM s) n) (B_of n s) i a).
    { intros i0 a Hi0 Ha. assert (D : a < tK s \/ exists o, a = tK s + o /\ 0 <= o < tK s) by (destruct (Z.lt_ge_cases a (tK s)); [now left|right; exists (a - tK s); lia]).
      unfold Q. destruct (Z.eqb_spec (tK s) mmax) as [Em|Nm].
      - destruct D as [D|(o & -> & Ho)]; [symmetry; apply Mlo; lia|rewrite Mhi by assumption; now rewrite Em].
      - set (P := fun m V => (forall c, 0 <= c < tK s -> at_ V n i0 c = at_ (tQ s) n i0 c) /\ (forall c, 0 <= c < m -> at_ V n i0 (tK s + c) = at_ (tQ s) n i0 (mmax + c)) /\ forall c, tK s + m <= c -> at_ V n i0 c = at_ (tQ s) n i0 c).
        assert (G : P (tK s) (loop 0 (tK s) (fun j Q => loop 0 n (fun i Q => put Q n i (tK s + j) (at_ Q n i (mmax + j))) Q) (tQ s))).
        { apply (loop_inv P); [lia| |].
          - split; [reflexivity|]. split; [lia|reflexivity].
          - intros m V Hm (I1 & I2 & I3).
            assert (L : forall c, at_ (loop 0 n (fun i Q => put Q n i (tK s + m) (at_ Q n i (mmax + m))) V) n i0 c = if c =? tK s + m then at_ V n i0 (mmax + m) else at_ V n i0 c).
            { intros c. rewrite (loop_column n 0 n (tK s + m) _ (fun i B => at_ B n i (mmax + m))); [|lia|lia|reflexivity| |exact Hi0].
              - destruct (Z.leb_spec 0 i0), (Z.ltb_spec i0 n); try lia. now rewrite !andb_true_r.
              - intros i1 B B' Hi1 HB. apply HB; [lia|now left]. }
            split; [|split].
            + intros c Hc. rewrite L. destruct (Z.eqb_spec c (tK s + m)); [lia|now apply I1].
            + intros c Hc. rewrite L. destruct (Z.eqb_spec (tK s + c) (tK s + m)) as [E|N]; [replace c with m by lia; apply I3; lia|apply I2; lia].
            + intros c Hc. rewrite L. destruct (Z.eqb_spec c (tK s + m)); [lia|apply I3; lia]. }
        destruct G as (I1 & I2 & I3). destruct D as [D|(o & -> & Ho)]; [rewrite I1 by lia; symmetry; apply Mlo; lia|rewrite Mhi by assumption; now apply I2]. }
    clearbody Q. rewrite gemmt_at by lia. destruct (Z.leb_spec 0 j), (Z.ltb_spec j n), (Z.leb_spec i j); try lia. cbn [andb]. unfold cor, corrected. rewrite full_low by lia. rewrite Cmult_1_l. f_equal. apply csum_ext. intros b Hb. apply zrange_in in Hb.
    change (gemm n (2 * tK s) (2 * tK s) Q n Cm (2 * mmax) (tU s) n (0 + i + b * n)) with (at_ (gemm n (2 * tK s) (2 * tK s) Q n Cm (2 * mmax) (tU s) n) n i b). change (Q (0 + j + b * n)) with (at_ Q n j b).
    rewrite gemm_at by lia. destruct (Z.leb_spec 0 b), (Z.ltb_spec b (2 * tK s)); try lia. cbn [andb]. rewrite HQ by lia. f_equal. apply csum_ext. intros a Ha. apply zrange_in in Ha. rewrite HQ, HCm by lia. reflexivity.
Qed.
Definition finish (k : Z) (Cm : Z -> C) (s2 : tdi) : tdi :=
  let s := inv_update n mmax k Cm s2 in
  let cfg := loop 0 k (fun j cfg => upd cfg (tFrom s j) (tTo s j)) (tCfg s) in
  Tdi (tM s) (tU s) (tQ s) (tW s) (tUMU s) (tUMV s) (tVMV s) (tCp s) (Cmult (tPfa s) (tRatio s)) (RtoC 1) cfg (tFrom s) (tTo s) 0 0.
Lemma inv_update_same k Cm s : let s' := inv_update n mmax k Cm s in tCfg s' = tCfg s /\ tFrom s' = tFrom s /\ tTo s' = tTo s /\ tPfa s' = tPfa s /\ tRatio s' = tRatio s.
Proof. unfold inv_update. destruct (k =? 1); repeat split. Qed.
Lemma finish_ok s Ci Cm : shape s -> tables s -> tNq s = tK s -> 1 <= tK s -> is_inverse (2 * tK s) Ci (cen_of n mmax s) ->
  (forall a b, 0 <= a < 2 * tK s -> 0 <= b < 2 * tK s -> (tK s = 1 -> a = 0 /\ b = 1) -> at_ Cm (2 * mmax) a b = Ci a b) -> get_pfa s = value (cur s) ->
  let s' := finish (tK s) Cm s in good s' /\ tK s' = 0 /\ tCfg s' = cur s /\ get_pfa s' = value (cur s).
Proof.
  intros Hs Ht Hq H1 HC HCm HV s'. pose proof (shK _ _ _ s Hs) as HK. pose proof (inv_update_at s Ci Cm Hs Ht Hq H1 HC HCm) as HI.
  destruct (inv_update_same (tK s) Cm s) as (E1 & E2 & E3 & E4 & E5).
  assert (EC : tCfg s' = cur s) by (unfold s', finish; cbn [tCfg]; rewrite E1, E2, E3; reflexivity).
  assert (ECu : cur s' = cur s) by (unfold cur at 1; change (tK s') with 0; rewrite loop_nil by lia; exact EC).
  assert (EP : get_pfa s' = value (cur s)) by (unfold get_pfa, s', finish; cbn [tPfa tRatio]; rewrite E4, E5; unfold get_pfa in HV; rewrite HV; ring).
  split; [|split; [reflexivity|split; [exact EC|exact EP]]].
  split; [|split].
  - constructor; try (change (tK s') with 0; change (tNq s') with 0; lia). intros i Hi. rewrite EC. now apply (cur_range norbs n mmax).
  - constructor; try (change (tK s') with 0; change (tNq s') with 0; lia).
    + rewrite EC. exact HI. + rewrite EC. unfold s', finish. cbn [tPfa]. rewrite E4, E5. exact HV.
  - constructor; [intros _; rewrite ECu; exact EP|reflexivity|change (tK s') with 0; lia].
Qed.
Lemma two_inverse (A : Z -> Z -> C) (x v : C) : x <> RtoC 0 -> v = Cdiv (RtoC (-1)) x -> A 0 0 = RtoC 0 -> A 1 1 = RtoC 0 -> A 0 1 = x -> A 1 0 = Copp x ->
  is_inverse 2 (fun a b => if a =? b then RtoC 0 else if a =? 0 then v else Copp v) A.
Proof.
  intros Hx -> E00 E11 E01 E10. assert (Hv : Cmult (Cdiv (RtoC (-1)) x) x = Copp (RtoC 1)) by (unfold Cdiv; rewrite <- Cmult_assoc, Cinv_l by exact Hx; apply (f_equal2 (@pair R R)); cbn; Lra.lra). assert (Z2 : forall i, 0 <= i < 2 -> i = 0 \/ i = 1) by (intros; lia).
  split; [|split]; intros i j Hi Hj; try change (zrange 0 2) with [0; 1]; destruct (Z2 i Hi), (Z2 j Hj); subst i j; cbn -[Cmult Cplus Cdiv Copp]; rewrite ?E00, ?E11, ?E01, ?E10; unfold kron; cbn -[Cmult Cplus Cdiv Copp RtoC]; try ring; transitivity (Copp (Cmult (Cdiv (RtoC (-1)) x) x)); try ring; rewrite Hv; ring.
Qed.
Lemma merge_ok s : good s -> value (cur s) <> RtoC 0 ->
  exists s', merge_updates s = Some s' /\ good s' /\ tK s' = 0 /\ tCfg s' = cur s /\ get_pfa s' = value (cur s).
Proof.
  intros (Hs & Ht & Hr) HV. pose proof (shK _ _ _ s Hs) as HK. unfold Blk.Model.merge_updates. cbv zeta. destruct (Z.eqb_spec (tK s) 0) as [E0|N0].
  { exists s. split; [reflexivity|]. split; [split; [exact Hs|split; [exact Ht|exact Hr]]|]. split; [exact E0|]. split; [unfold cur; rewrite E0, loop_nil by lia; reflexivity|]. apply (raR _ _ _ _ s Hr). rewrite (ra0 _ _ _ _ s Hr E0). intros E. injection E as E. Lra.lra. }
  destruct (require_q_ok norbs n mmax X Hn true s Hs Ht) as (Q1 & Q2 & Q3 & Q4 & Q5 & Q6 & Q7 & Q8 & Q9 & _). cbv iota in Q3. set (s1 := require_q n true s) in *.
  assert (Hq : tNq s1 = tK s1) by (pose proof (shNq _ _ _ s1 Q1); lia).
  rewrite <- Q5 in HV. pose proof (ratio_law norbs n mmax X HX Hn s1 Q1 Q2) as RL.
  set (s2 := assemble mmax (require_umu n mmax s1)). pose proof (work_same n mmax s1) as W. fold s2 in W.
  assert (S2 : shape s2) by (now apply (same_shape norbs n mmax s1)). assert (T2 : tables s2) by (now apply (same_tables norbs n mmax X s1)). assert (C2 : cur s2 = cur s1) by (now apply same_cur).
  assert (A2 : forall a b, 0 <= a < 2 * tK s2 -> 0 <= b < 2 * tK s2 -> full (tCp s2) (2 * mmax) a b = cen_of n mmax s2 a b).
  { intros a b Ha Hb. rewrite (same_cen n mmax s1 s2 W). eapply (assembled_at norbs n mmax X); try eassumption. lia. }
  rewrite <- (same_cen n mmax s1 s2 W) in RL. change (tPfa s1) with (tPfa s2) in RL. change (tK s1) with (tK s2) in RL. rewrite <- C2 in RL, HV.
  assert (K2 : tK s2 = tK s) by exact Q4.
  assert (Ncen : pf (cen_of n mmax s2) (zrange 0 (2 * tK s2)) <> RtoC 0).
  { intros E. apply HV. rewrite <- RL, E. replace (RtoC 0) with (Cmult (RtoC 0) (RtoC 0)) at 1 by ring. rewrite alternate_mult. ring. }
  assert (Sk : forall a b, 0 <= a < 2 * tK s2 -> 0 <= b < 2 * tK s2 -> cen_of n mmax s2 b a = Copp (cen_of n mmax s2 a b)).
  { intros a b Ha Hb. rewrite <- !A2 by assumption. apply full_skew. }
  destruct (Z.eqb_spec (tK s) 1) as [EK|NK].
  - (* one hop *)
    assert (EK2 : tK s2 = 1) by (rewrite K2; exact EK). destruct (cp01 norbs n mmax X s2 S2 T2 EK2 A2) as (P1 & P2).
    set (x := Cminus (at_ (tUMV s2) mmax 0 0) (RtoC 1)) in *. rewrite P2 in Ncen, RL.
    set (s3 := if Ceq_dec (tRatio s1) (RtoC 0) then with_ratio (Copp (at_ (tCp s2) (2 * mmax) 0 1)) s2 else s1).
    assert (G3 : same_but_work s1 s3 /\ at_ (tCp s3) (2 * mmax) 0 1 = x /\ get_pfa s3 = value (cur s1)).
    { unfold s3. destruct (Ceq_dec (tRatio s1) (RtoC 0)) as [E|N].
      - split; [exact W|]. split; [exact P1|]. rewrite <- C2, <- RL, EK2. unfold get_pfa. cbn [with_ratio tPfa tRatio]. rewrite P1. reflexivity.
      - split; [repeat split|]. rewrite Q7 in N. split; [rewrite Q8; transitivity (Cminus (at_ (tUMV s) mmax 0 0) (RtoC 1)); [now apply (ra1 _ _ _ _ s Hr)|unfold x; change (tUMV s2) with (tUMV s1); now rewrite Q9]|].
        rewrite Q5. unfold get_pfa. rewrite Q6, Q7. now apply (raR _ _ _ _ s Hr). }
    destruct G3 as (W3 & P3 & V3). clearbody s3.
    assert (S3 : shape s3) by (now apply (same_shape norbs n mmax s1)). assert (T3 : tables s3) by (now apply (same_tables norbs n mmax X s1)). assert (C3 : cur s3 = cur s1) by (now apply same_cur). assert (N3 : cen_of n mmax s3 = cen_of n mmax s2) by (rewrite (same_cen n mmax s1 s2 W); now apply same_cen).
    assert (K3 : tK s3 = tK s) by (destruct W3 as (_ & _ & _ & _ & _ & _ & _ & _ & _ & _ & -> & _); exact Q4). assert (Nq3 : tNq s3 = tK s3) by (destruct W3 as (_ & _ & _ & _ & _ & _ & _ & _ & _ & _ & -> & ->); exact Hq).
    rewrite P3. unfold quotient. destruct (Ceq_dec x (RtoC 0)) as [E|Nx]; [contradiction|]. cbn [bind]. rewrite <- K3.
    change (exists s', Some (finish (tK s3) (put (tCp s3) (2 * mmax) 0 1 (Cdiv (RtoC (-1)) x)) s3) = Some s' /\ good s' /\ tK s' = 0 /\ tCfg s' = cur s /\ get_pfa s' = value (cur s)). eexists. split; [reflexivity|]. rewrite <- Q5, <- C3.
    apply (finish_ok s3 (fun a b => if a =? b then RtoC 0 else if a =? 0 then Cdiv (RtoC (-1)) x else Copp (Cdiv (RtoC (-1)) x))); try assumption; try lia.
    + rewrite N3. replace (2 * tK s3) with 2 by lia. assert (E01 : cen_of n mmax s2 0 1 = x) by (rewrite <- A2 by lia; rewrite full_low by lia; exact P1). apply (two_inverse _ x); [exact Nx|reflexivity| | |exact E01|].
      * apply skew_zero. apply Sk; lia. * apply skew_zero. apply Sk; lia. * rewrite <- E01. apply Sk; lia.
    + intros a b Ha Hb H. destruct (H ltac:(lia)) as (-> & ->). rewrite at_put_same by lia. reflexivity.
    + now rewrite C3.
  - (* more hops *)
    pose proof (Htrf (2 * tK s2) (2 * mmax) (tCp s2) (even2 _) ltac:(lia)) as HF. rewrite K2 in HF. change (tCp (assemble mmax (require_umu n mmax s1))) with (tCp s2).
    change (tCp (assemble mmax (require_umu n mmax s1))) with (tCp s2) in *. fold s2. destruct (sktrf (2 * tK s) (2 * mmax) (tCp s2)) as (R, piv). cbn [fst snd] in HF.
    assert (EP : pf (full (tCp s2) (2 * mmax)) (zrange 0 (2 * tK s)) = pf (cen_of n mmax s2) (zrange 0 (2 * tK s2))) by (rewrite <- K2; now apply (cen_pf norbs n mmax)).
    assert (NF : pf (full (tCp s2) (2 * mmax)) (zrange 0 (2 * tK s)) <> RtoC 0) by (rewrite EP; exact Ncen).
    destruct (inverse_when trtri npanel Htri true (2 * tK s) (full (tCp s2) (2 * mmax)) R (2 * mmax) piv junk (2 * mmax) (even2 _) ltac:(lia) ltac:(lia) ltac:(lia) HF NF) as (Y & EY & HY). unfold inverse_of in EY. rewrite EY. cbn [bind].
    set (s3 := if Ceq_dec (tRatio s2) (RtoC 0) then with_ratio (alternate (tK s) (utu2pfa (2 * tK s) R (2 * mmax) piv)) s2 else s2).
    assert (G3 : same_but_work s1 s3 /\ get_pfa s3 = value (cur s1)).
    { unfold s3. destruct (Ceq_dec (tRatio s2) (RtoC 0)) as [E|N].
      - split; [exact W|]. rewrite <- C2, <- RL. unfold get_pfa. cbn [with_ratio tPfa tRatio]. rewrite K2. f_equal. f_equal. pose proof (pfaffian_is true (2 * tK s) _ R (2 * mmax) piv (even2 _) ltac:(lia) HF) as EPf. unfold pfaffian_of in EPf. rewrite EPf, EP, K2. reflexivity.
      - split; [exact W|]. change (tRatio s2) with (tRatio s1) in N. rewrite Q7 in N. rewrite Q5. unfold get_pfa. change (tPfa s2) with (tPfa s1). change (tRatio s2) with (tRatio s1). rewrite Q6, Q7. now apply (raR _ _ _ _ s Hr). }
    destruct G3 as (W3 & V3). clearbody s3.
    assert (S3 : shape s3) by (now apply (same_shape norbs n mmax s1)). assert (T3 : tables s3) by (now apply (same_tables norbs n mmax X s1)). assert (C3 : cur s3 = cur s1) by (now apply same_cur). assert (N3 : cen_of n mmax s3 = cen_of n mmax s2) by (rewrite (same_cen n mmax s1 s2 W); now apply same_cen).
    assert (K3 : tK s3 = tK s) by (destruct W3 as (_ & _ & _ & _ & _ & _ & _ & _ & _ & _ & -> & _); exact Q4). assert (Nq3 : tNq s3 = tK s3) by (destruct W3 as (_ & _ & _ & _ & _ & _ & _ & _ & _ & _ & -> & ->); exact Hq).
    rewrite <- K3. change (exists s', Some (finish (tK s3) Y s3) = Some s' /\ good s' /\ tK s' = 0 /\ tCfg s' = cur s /\ get_pfa s' = value (cur s)). eexists. split; [reflexivity|]. rewrite <- Q5, <- C3.
    apply (finish_ok s3 (at_ Y (2 * mmax))); try assumption; try lia.
    + rewrite N3, K3. revert HY. apply inverse_ext_r. intros a b Ha Hb. apply A2; lia.
    + reflexivity.
    + now rewrite C3.
Qed.
End Merge.
