(** Every operation keeps the tables right. *)
From Coq Require Import ZArith List Bool Lia Reals.
From Coquelicot Require Import Complex.
From Verif Require Import Base.ZLoop Base.Checked Base.RSum Pf.Pfaffian Pf.Spec Pf.Proofs Ltl.Model Ltl.Spec Ltl.Arr Ltl.Proofs Blk.Model Blk.Spec Blk.Alg Blk.Kernel Blk.Arr Blk.State Blk.Ratio.
Import ListNotations.
Local Open Scope Z_scope.

Lemma push_cur (fr to cfg : Z -> Z) k msj osi : 0 <= k -> loop 0 (k + 1) (fun j c => upd c (upd fr k msj j) (upd to k osi j)) cfg = upd (loop 0 k (fun j c => upd c (fr j) (to j)) cfg) msj osi.
Proof.
  intros Hk. rewrite loop_last by lia. rewrite !upd_same. f_equal. apply loop_ext. intros i c Hi. now rewrite !upd_other by lia.
Qed.

Section Proofs.
Variables (norbs n mmax : Z) (X : Z -> C).
Variable skpfa : Z -> Z -> (Z -> C) -> C * (Z -> C).
Hypothesis HX : skew_array norbs X.
Hypothesis Hn : 0 < n.
Hypothesis Hpfa : pfaffian_of_upper skpfa.
Local Notation T := (at_ X norbs).
Local Notation amp := (amplitudes norbs X).
Local Notation shape := (shape norbs n mmax).
Local Notation tables := (tables norbs n mmax X).
Local Notation ratio_ok := (ratio_ok norbs n mmax X).
Local Notation good := (good norbs n mmax X).
Local Notation value c := (pf (amp c) (zrange 0 n)).

Definition computed (s : tdi) : tdi := assemble mmax (require_umu n mmax (require_q n false s)).
Lemma computed_ok s : shape s -> tables s -> let s' := computed s in
  shape s' /\ tables s' /\ cur s' = cur s /\ tK s' = tK s /\ (forall a b, 0 <= a < 2 * tK s -> 0 <= b < 2 * tK s -> full (tCp s') (2 * mmax) a b = cen_of n mmax s' a b).
Proof.
  intros Hs Ht s'. destruct (require_q_ok norbs n mmax X Hn false s Hs Ht) as (Q1 & Q2 & Q3 & Q4 & Q5 & Q6 & Q7 & Q8 & Q9 & _). cbv iota in Q3. set (s1 := require_q n false s) in *.
  pose proof (work_same n mmax s1) as W. fold (computed s) in W. change (assemble mmax (require_umu n mmax s1)) with s' in W.
  split; [now apply (same_shape norbs n mmax s1)|]. split; [now apply (same_tables norbs n mmax X s1)|]. split; [rewrite (same_cur s1 s' W); exact Q5|]. split; [exact Q4|].
  intros a b Ha Hb. rewrite (same_cen n mmax s1 s' W). eapply (assembled_at norbs n mmax X); try eassumption; rewrite Q4; assumption.
Qed.
Lemma cen_pf s Cp : shape s -> (forall a b, 0 <= a < 2 * tK s -> 0 <= b < 2 * tK s -> full Cp (2 * mmax) a b = cen_of n mmax s a b) ->
  pf (full Cp (2 * mmax)) (zrange 0 (2 * tK s)) = pf (cen_of n mmax s) (zrange 0 (2 * tK s)).
Proof. intros Hs H. apply (pf_ext _ _ (length (zrange 0 (2 * tK s)))); [lia|]. intros i j Hi Hj. apply zrange_in in Hi. apply zrange_in in Hj. now apply H. Qed.
Lemma even2 k : Z.Even (2 * k). Proof. now exists k. Qed.
Lemma cp01 s : shape s -> tables s -> tK s = 1 -> (forall a b, 0 <= a < 2 * tK s -> 0 <= b < 2 * tK s -> full (tCp s) (2 * mmax) a b = cen_of n mmax s a b) ->
  at_ (tCp s) (2 * mmax) 0 1 = Cminus (at_ (tUMV s) mmax 0 0) (RtoC 1) /\ pf (cen_of n mmax s) (zrange 0 (2 * tK s)) = Cminus (at_ (tUMV s) mmax 0 0) (RtoC 1).
Proof.
  intros Hs Ht EK H. assert (E : cen_of n mmax s 0 1 = Cminus (at_ (tUMV s) mmax 0 0) (RtoC 1)).
  { unfold cen_of, B_of, D_of. rewrite EK. change (central n (full (tM s) n) (wide 1 (at_ (tU s) n) (tFrom s)) (corner 1 (full (tW s) mmax)) 0 1) with (central n (full (tM s) n) (wide 1 (at_ (tU s) n) (tFrom s)) (corner 1 (full (tW s) mmax)) 0 (1 + 0)).
    rewrite (central_uv 1 _ _ _ (fun l m _ _ => full_skew _ _ l m) n) by (try (intros l Hl; apply (shFr _ _ _ s Hs); lia); try (intros l m Hl Hm; apply (shInj _ _ _ s Hs); lia); lia).
    change (kron 0 0) with (RtoC 1). f_equal. symmetry. apply (tbUMV _ _ _ _ s Ht); lia. }
  split.
  - rewrite <- E, <- H by lia. now rewrite full_low.
  - rewrite EK. change (zrange 0 (2 * 1)) with [0; 1]. rewrite pf_cons. cbn [psum]. rewrite pf_nil, E. ring.
Qed.
Lemma central_ok s : shape s -> tables s -> 1 <= tK s -> (forall a b, 0 <= a < 2 * tK s -> 0 <= b < 2 * tK s -> full (tCp s) (2 * mmax) a b = cen_of n mmax s a b) ->
  let s' := central_pfaffian mmax skpfa s in good s' /\ cur s' = cur s /\ tK s' = tK s /\ get_pfa s' = value (cur s).
Proof.
  intros Hs Ht H1 H s'. pose proof (shK _ _ _ s Hs) as HK. unfold s', central_pfaffian. pose proof (Hpfa (2 * tK s) (2 * mmax) (tCp s) (even2 _) ltac:(lia)) as (E1 & E2). destruct (skpfa (2 * tK s) (2 * mmax) (tCp s)) as (pfa, Cp). cbn [fst snd] in E1, E2.
  assert (E : get_pfa (Tdi (tM s) (tU s) (tQ s) (tW s) (tUMU s) (tUMV s) (tVMV s) Cp (tPfa s) (alternate (tK s) pfa) (tCfg s) (tFrom s) (tTo s) (tK s) (tNq s)) = value (cur s)).
  { unfold get_pfa. cbn [tPfa tRatio]. rewrite E1, cen_pf by assumption. now apply (ratio_law norbs n mmax X). }
  assert (W : same_but_work s (Tdi (tM s) (tU s) (tQ s) (tW s) (tUMU s) (tUMV s) (tVMV s) Cp (tPfa s) (alternate (tK s) pfa) (tCfg s) (tFrom s) (tTo s) (tK s) (tNq s))) by (repeat split).
  split; [|split; [reflexivity|split; [reflexivity|exact E]]]. split; [now apply (same_shape norbs n mmax s)|]. split; [now apply (same_tables norbs n mmax X s)|]. constructor.
  - intros _. exact E. - cbn [tK]. lia.
  - cbn [tK tCp tUMV]. intros EK _. rewrite E2 by lia. now apply cp01.
Qed.
Lemma clean_step s : shape s -> tables s -> 1 <= tK s ->
  let s1 := computed s in let s' := if tK s =? 1 then with_ratio (Cplus (Copp (at_ (tUMV s1) mmax 0 0)) (RtoC 1)) s1 else central_pfaffian mmax skpfa s1 in
  good s' /\ cur s' = cur s /\ tK s' = tK s /\ get_pfa s' = value (cur s).
Proof.
  intros Hs Ht H1 s1 s'. destruct (computed_ok s Hs Ht) as (S1 & S2 & S3 & S4 & S5). fold s1 in S1, S2, S3, S4, S5. rewrite <- S4 in S5. unfold s'. destruct (Z.eqb_spec (tK s) 1) as [EK|N].
  - rewrite <- S4 in EK. destruct (cp01 s1 S1 S2 EK S5) as (C1 & C2). set (s2 := with_ratio (Cplus (Copp (at_ (tUMV s1) mmax 0 0)) (RtoC 1)) s1).
    assert (W : same_but_work s1 s2) by (repeat split).
    assert (E : get_pfa s2 = value (cur s)).
    { rewrite <- S3, <- (ratio_law norbs n mmax X HX Hn s1 S1 S2), C2, EK. unfold get_pfa, s2. cbn [with_ratio tPfa tRatio]. f_equal. change (alternate 1 (Cminus (at_ (tUMV s1) mmax 0 0) (RtoC 1))) with (Copp (Cminus (at_ (tUMV s1) mmax 0 0) (RtoC 1))). ring. }
    split; [|split; [rewrite <- S3; exact (same_cur s1 s2 W)|split; [exact S4|exact E]]]. split; [now apply (same_shape norbs n mmax s1)|]. split; [now apply (same_tables norbs n mmax X s1)|]. constructor.
    + intros _. rewrite (same_cur s1 s2 W), S3. exact E. + cbn [s2 with_ratio tK]. lia. + intros _ _. exact C1.
  - destruct (central_ok s1 S1 S2 ltac:(lia) S5) as (G1 & G2 & G3 & G4). split; [exact G1|]. rewrite G2, G3, G4, S3, S4. tauto.
Qed.
Lemma dirty_ok s : shape s -> tables s -> 1 <= tK s -> good (with_ratio (RtoC 0) s).
Proof.
  intros Hs Ht H1. assert (W : same_but_work s (with_ratio (RtoC 0) s)) by (repeat split). split; [now apply (same_shape norbs n mmax s)|]. split; [now apply (same_tables norbs n mmax X s)|]. constructor; cbn [with_ratio tRatio tK]; [congruence|lia|congruence].
Qed.

(** ** one more hop *)
Lemma push_ok osi msj compute s : good s -> tK s < mmax -> 0 <= osi < norbs -> 0 <= msj < n -> (forall l, 0 <= l < tK s -> tFrom s l <> msj) ->
  exists s', push_update norbs n mmax X skpfa osi msj compute s = Some s' /\ good s' /\ cur s' = upd (cur s) msj osi /\ tK s' = tK s + 1 /\ tCfg s' = tCfg s /\ tFrom s' = upd (tFrom s) (tK s) msj /\ tTo s' = upd (tTo s) (tK s) osi /\ (compute = true -> get_pfa s' = value (upd (cur s) msj osi)).
Proof.
  intros (Hs & Ht & _) HK Hosi Hmsj Nmsj. pose proof (shK _ _ _ s Hs) as HK0. pose proof (shNq _ _ _ s Hs) as HNq. unfold push_update. cbv zeta. set (k := tK s) in *.
  destruct (Z.leb_spec mmax k); [lia|]. set (fr := upd (tFrom s) k msj). set (to := upd (tTo s) k osi).
  assert (Cf := shCfg _ _ _ s Hs). assert (Fr := shFr _ _ _ s Hs). assert (To := shTo _ _ _ s Hs). assert (Inj := shInj _ _ _ s Hs). fold k in Fr, To, Inj.
  assert (FrO : forall l, l < k -> fr l = tFrom s l) by (intros; unfold fr; rewrite upd_other by lia; reflexivity). assert (ToO : forall l, l < k -> to l = tTo s l) by (intros; unfold to; rewrite upd_other by lia; reflexivity).
  assert (FrK : fr k = msj) by apply upd_same. assert (ToK : to k = osi) by apply upd_same.
  assert (CI : forall i j, 0 <= i < n -> 0 <= j < n -> tCfg s i = tCfg s j -> i = j) by (intros i j Hi Hj; now apply (cfg_inj norbs n X _ _ i j (tbM _ _ _ _ s Ht))).
  set (U0 := loop 0 norbs _ (tU s)). set (Q0 := skslc n msj ((mmax + k) * n) (tM s) n (tQ s)).
  assert (HU0 : forall i c, 0 <= i < n -> at_ U0 n i c = if c =? k then Cminus (T (tCfg s i) osi) (T (tCfg s i) (tCfg s msj)) else at_ (tU s) n i c).
  { intros i c Hi. apply (new_column norbs n X Hn); [exact CI|exact Cf|lia|exact Hi]. }
  assert (HQ0 : forall i c, 0 <= i < n -> at_ Q0 n i c = if c =? mmax + k then full (tM s) n i msj else at_ (tQ s) n i c) by (intros; now apply skslc_at).
  set (e := fun l => Cminus (xij norbs X osi (to l)) (xij norbs X (tCfg s msj) (tCfg s (fr l)))). set (h := fun l => Cminus (xij norbs X (to l) osi) (xij norbs X (tCfg s (fr l)) (tCfg s msj))).
  pose proof (touches_at n mmax Hn k msj fr e h U0 Q0 (tUMV s) ltac:(lia) Hmsj) as TT.
  specialize (TT ltac:(intros l Hl; rewrite FrO by lia; split; [now apply Fr|now apply Nmsj]) ltac:(intros l m Hl Hm; rewrite !FrO by lia; now apply Inj)).
  match type of TT with (let '(_, _) := ?R in _) => change (loop 0 k _ (U0, Q0, tUMV s)) with R end. destruct (loop 0 k _ (U0, Q0, tUMV s)) as [[U Q] V]. destruct TT as (TU1 & TU2 & TU3 & TQ1 & TQ2 & TV).
  assert (eT : forall l, 0 <= l < k -> e l = Cminus (T osi (tTo s l)) (T (tCfg s msj) (tCfg s (tFrom s l)))).
  { intros l Hl. unfold e. rewrite FrO, ToO by lia. now rewrite !(xij_is norbs X HX) by auto. }
  assert (hT : forall l, 0 <= l < k -> h l = Cminus (T (tTo s l) osi) (T (tCfg s (tFrom s l)) (tCfg s msj))).
  { intros l Hl. unfold h. rewrite FrO, ToO by lia. now rewrite !(xij_is norbs X HX) by auto. }
  set (W := loop 0 k _ (tW s)). match goal with |- context [put (loop 0 k ?f V) mmax k k ?v] => set (V1 := loop 0 k f V); set (V2 := put V1 mmax k k v) end. set (VM := loop 0 k _ (tVMV s)).
  assert (HW : forall r c, 0 <= r < mmax -> at_ W mmax r c = if (c =? k) && (0 <=? r) && (r <? k) then Cplus (Copp (xij norbs X (to r) osi)) (xij norbs X (tCfg s (fr r)) (tCfg s msj)) else at_ (tW s) mmax r c).
  { intros r c Hr. unfold W. rewrite (loop_column mmax 0 k k _ (fun l _ => Cplus (Copp (xij norbs X (to l) osi)) (xij norbs X (tCfg s (fr l)) (tCfg s msj)))); [reflexivity|lia|lia|reflexivity|reflexivity|exact Hr]. }
  assert (HVM : forall r c, 0 <= r < mmax -> at_ VM mmax r c = if (c =? k) && (0 <=? r) && (r <? k) then Copp (at_ Q n msj (mmax + r)) else at_ (tVMV s) mmax r c).
  { intros r c Hr. unfold VM. rewrite (loop_column mmax 0 k k _ (fun l _ => Copp (at_ Q n msj (mmax + l)))); [reflexivity|lia|lia|reflexivity|reflexivity|exact Hr]. }
  assert (HV1 : forall l o, 0 <= l <= k -> 0 <= o <= k -> at_ V1 mmax l o = if (l <? k) && (o <? k) then at_ V mmax l o else if l <? k then dot n U (l * n) Q ((mmax + k) * n) else if o <? k then dot n U (k * n) Q ((mmax + o) * n) else at_ V mmax l o).
  { set (P := fun m B => forall l o, 0 <= l <= k -> 0 <= o <= k -> at_ B mmax l o = if (l <? m) && (o =? k) then dot n U (l * n) Q ((mmax + k) * n) else if (l =? k) && (o <? m) then dot n U (k * n) Q ((mmax + o) * n) else at_ V mmax l o).
    assert (G : P k V1).
    { apply (loop_inv P); [lia| |].
      - intros l o Hl Ho. destruct (Z.ltb_spec l 0), (Z.ltb_spec o 0); try lia. now rewrite andb_false_r.
      - intros m B Hm IH l o Hl Ho. rewrite !at_put by lia. rewrite IH by lia.
        repeat match goal with |- context [?x =? ?y] => destruct (Z.eqb_spec x y) | |- context [?x <? ?y] => destruct (Z.ltb_spec x y) end; cbn [andb]; try lia; try reflexivity; try subst l; try subst o; reflexivity. }
    intros l o Hl Ho. rewrite (G l o Hl Ho). destruct (Z.eqb_spec l k), (Z.eqb_spec o k), (Z.ltb_spec l k), (Z.ltb_spec o k); cbn [andb]; try lia; reflexivity. }
  set (s1 := Tdi (tM s) U Q W (tUMU s) V2 VM (tCp s) (tPfa s) (tRatio s) (tCfg s) fr to (k + 1) (tNq s)).
  assert (EC : cur s1 = upd (cur s) msj osi) by (unfold cur; cbn [s1 tK tFrom tTo tCfg]; unfold fr, to; apply push_cur; lia).
  assert (S1 : shape s1).
  { constructor; cbn [s1 tK tNq tFrom tTo tCfg]; [lia|lia|exact Cf| | |].
    - intros l Hl. destruct (Z.eq_dec l k) as [->|]; [rewrite FrK; exact Hmsj|rewrite FrO by lia; apply Fr; lia].
    - intros l Hl. destruct (Z.eq_dec l k) as [->|]; [rewrite ToK; exact Hosi|rewrite ToO by lia; apply To; lia].
    - intros l m Hl Hm. destruct (Z.eq_dec l k) as [->|], (Z.eq_dec m k) as [->|]; rewrite ?FrK, ?FrO by lia; intros E; [reflexivity|destruct (Nmsj m ltac:(lia)); now symmetry|destruct (Nmsj l ltac:(lia)); assumption|apply Inj; (assumption || lia)]. }
  assert (dU : forall i l, 0 <= i < n -> 0 <= l < k -> i <> msj -> at_ U n i l = at_ (tU s) n i l).
  { intros i l Hi Hl N. rewrite TU1 by lia. destruct (Z.eqb_spec i msj); [contradiction|]. rewrite HU0 by assumption. destruct (Z.eqb_spec l k); [lia|reflexivity]. }
  assert (dU2 : forall l, 0 <= l < k -> at_ U n msj l = e l) by (intros l Hl; rewrite TU1 by lia; now rewrite Z.eqb_refl).
  assert (dU0 : forall l, 0 <= l < k -> at_ U0 n msj l = at_ (tU s) n msj l) by (intros l Hl; rewrite HU0 by assumption; destruct (Z.eqb_spec l k); [lia|reflexivity]).
  assert (PO : forall i o, 0 <= i < n -> 0 <= o <= k -> at_ Q n i (mmax + o) = full (tM s) n i (fr o)).
  { intros i o Hi Ho. rewrite TQ2 by lia. rewrite HQ0 by assumption. destruct (Z.eq_dec o k) as [->|No]; [rewrite Z.eqb_refl, FrK; reflexivity|]. destruct (Z.eqb_spec (mmax + o) (mmax + k)); [lia|]. rewrite FrO by lia. apply (tbP _ _ _ _ s Ht); fold k; lia. }
  assert (PO0 : forall o, 0 <= o < k -> at_ Q0 n msj (mmax + o) = full (tM s) n msj (fr o)) by (intros o Ho; rewrite <- (PO msj o) by lia; now rewrite TQ2 by lia).
  assert (T1 : tables s1).
  { constructor; cbn [s1 tK tNq tM tPfa tCfg tFrom tTo tU tQ tUMV tVMV tW].
    - apply (tbM _ _ _ _ s Ht). - apply (tbPfa _ _ _ _ s Ht).
    - intros i l Hi Hl. unfold seen. rewrite EC. cbn [s1 tFrom tCfg]. destruct (Z.eq_dec l k) as [->|Nl].
      + rewrite FrK, ToK. destruct (hop_dec k (tFrom s) i) as [(m & Hm & <-)|N].
        * assert (tFrom s m <> msj) by now apply Nmsj. destruct (Z.eqb_spec (tFrom s m) msj); [contradiction|]. rewrite upd_other by assumption. rewrite (cur_pending norbs n mmax s m Hs Hm). rewrite <- (FrO m) at 1 by lia. rewrite TU2 by lia. now rewrite hT.
        * rewrite TU3 by (auto; intros l Hl'; rewrite FrO by lia; now apply N). rewrite HU0 by assumption. rewrite Z.eqb_refl. destruct (Z.eqb_spec i msj); [reflexivity|]. rewrite upd_other by assumption. now rewrite (cur_other norbs n mmax s i Hs N).
      + assert (Hl' : 0 <= l < k) by lia. rewrite FrO, ToO by lia. destruct (Z.eq_dec i msj) as [->|Ni].
        * rewrite dU2, eT by lia. destruct (Z.eqb_spec msj (tFrom s l)) as [E|]; [destruct (Nmsj l Hl'); now symmetry|]. now rewrite upd_same.
        * rewrite dU by lia. rewrite (tbU _ _ _ _ s Ht) by (assumption || lia). unfold seen. destruct (Z.eqb_spec i (tFrom s l)); [reflexivity|]. now rewrite upd_other.
    - intros i o Hi Ho. apply PO; lia.
    - intros i l Hi Hl. rewrite TQ1 by lia. rewrite !HQ0 by lia. rewrite Z.eqb_refl. destruct (Z.eqb_spec l (mmax + k)); [lia|]. rewrite (tbQ _ _ _ _ s Ht) by (assumption || lia).
      rewrite (csum_change n msj (full (tM s) n i) (fun j => at_ (tU s) n j l) (fun j => at_ U n j l) Hmsj) by (intros j Hj Nj; apply dU; lia). rewrite dU0, dU2 by lia. reflexivity.
    - intros l o Hl Ho. unfold V2. destruct (Z.eq_dec l k) as [->|Nl].
      + destruct (Z.eq_dec o k) as [->|No].
        * rewrite at_put_same by lia. rewrite dot_at. apply csum_ext. intros i Hi. apply zrange_in in Hi. rewrite PO by lia. reflexivity.
        * rewrite at_put_other by lia. rewrite HV1 by lia. destruct (Z.ltb_spec k k), (Z.ltb_spec o k); try lia. cbn [andb]. rewrite dot_at. apply csum_ext. intros i Hi. apply zrange_in in Hi. rewrite PO by lia. reflexivity.
      + rewrite at_put_other by lia. rewrite HV1 by lia. destruct (Z.ltb_spec l k); [|lia]. cbn [andb]. destruct (Z.ltb_spec o k).
        * rewrite TV by lia. rewrite PO0 by lia. rewrite dU0 by lia. rewrite (tbUMV _ _ _ _ s Ht) by (fold k; lia). rewrite (csum_change' n msj (fun i => full (tM s) n i (fr o)) (fun j => at_ (tU s) n j l) (fun j => at_ U n j l) Hmsj) by (intros j Hj Nj; apply dU; lia). rewrite dU2 by lia. now rewrite FrO by lia.
        * assert (o = k) as -> by lia. rewrite dot_at. apply csum_ext. intros i Hi. apply zrange_in in Hi. rewrite PO by lia. reflexivity.
    - intros l o Hl Ho. rewrite HVM by lia. destruct (Z.eqb_spec o k) as [->|No]; cbn [andb].
      + destruct (Z.leb_spec 0 l), (Z.ltb_spec l k); try lia. cbn [andb]. rewrite PO by lia. rewrite FrK. symmetry. rewrite (full_skew _ _ msj (fr l)). reflexivity.
      + rewrite !FrO by lia. apply (tbVMV _ _ _ _ s Ht); fold k; lia.
    - intros l o Hl Ho. rewrite HW by lia. destruct (Z.eqb_spec o k) as [->|No]; cbn [andb].
      + destruct (Z.leb_spec 0 l), (Z.ltb_spec l k); try lia. cbn [andb]. rewrite FrK, ToK. rewrite FrO, ToO by lia. assert (0 <= l < k) by lia. now rewrite !(xij_is norbs X HX) by auto.
      + rewrite !FrO, !ToO by lia. apply (tbW _ _ _ _ s Ht); fold k; lia. }
  exists (if compute then let s2 := computed s1 in if k + 1 =? 1 then with_ratio (Cplus (Copp (at_ (tUMV s2) mmax 0 0)) (RtoC 1)) s2 else central_pfaffian mmax skpfa s2 else with_ratio (RtoC 0) s1).
  split; [reflexivity|]. destruct compute.
  - destruct (clean_step s1 S1 T1 ltac:(cbn [s1 tK]; lia)) as (G1 & G2 & G3 & G4). cbv zeta in *. cbn [tK s1] in G1, G2, G3, G4. split; [exact G1|]. rewrite G2, EC. split; [reflexivity|]. split; [exact G3|].
    assert (RQ : tCfg (require_q n false s1) = tCfg s /\ tFrom (require_q n false s1) = fr /\ tTo (require_q n false s1) = to) by (unfold require_q; destruct (Z.leb _ _); repeat split).
    split; [|split; [|split]].
    + destruct (k + 1 =? 1); [exact (proj1 RQ)|]. unfold central_pfaffian. destruct (skpfa _ _ _). exact (proj1 RQ).
    + destruct (k + 1 =? 1); [exact (proj1 (proj2 RQ))|]. unfold central_pfaffian. destruct (skpfa _ _ _). exact (proj1 (proj2 RQ)).
    + destruct (k + 1 =? 1); [exact (proj2 (proj2 RQ))|]. unfold central_pfaffian. destruct (skpfa _ _ _). exact (proj2 (proj2 RQ)).
    + intros _. rewrite G4, EC. reflexivity.
  - split; [apply dirty_ok; [exact S1|exact T1|cbn [s1 tK]; lia]|]. split; [exact EC|]. repeat (split; [reflexivity|]). discriminate.
Qed.

(** ** one hop less *)
Lemma untouches_at k msj (e : Z -> C) M U Q UMV : 0 <= k < mmax -> 0 <= msj < n ->
  let '(U', Q', UMV') := loop 0 k (fun l a => let '(U, Q, UMV) := a in
      let old := at_ U n msj l in
      let U := put U n msj l (e l) in
      let d := Cminus (at_ U n msj l) old in
      let Q := loop 0 msj (fun i Q => put Q n i l (Cplus (at_ Q n i l) (Cmult (at_ M n i msj) d))) Q in
      let Q := loop (msj + 1) n (fun i Q => put Q n i l (Cminus (at_ Q n i l) (Cmult (at_ M n msj i) d))) Q in
      let UMV := loop 0 k (fun o UMV => put UMV mmax l o (Cplus (at_ UMV mmax l o) (Cmult d (at_ Q n msj (mmax + o))))) UMV in
      (U, Q, UMV)) (U, Q, UMV) in
  (forall i l, 0 <= i < n -> 0 <= l < k -> at_ U' n i l = if i =? msj then e l else at_ U n i l) /\
  (forall i l, 0 <= i < n -> 0 <= l < k -> at_ Q' n i l = Cplus (at_ Q n i l) (Cmult (Cminus (e l) (at_ U n msj l)) (full M n i msj))) /\
  (forall i c, 0 <= i < n -> k <= c -> at_ Q' n i c = at_ Q n i c) /\
  (forall l o, 0 <= l < k -> 0 <= o < k -> at_ UMV' mmax l o = Cplus (at_ UMV mmax l o) (Cmult (Cminus (e l) (at_ U n msj l)) (at_ Q n msj (mmax + o)))).
Proof.
  intros Hk Hm.
  set (P := fun m a => let '(U', Q', UMV') := a in
    (forall i c, 0 <= i < n -> 0 <= c -> at_ U' n i c = if (i =? msj) && (c <? m) then e c else at_ U n i c) /\
    (forall i c, 0 <= i < n -> 0 <= c -> at_ Q' n i c = if c <? m then Cplus (at_ Q n i c) (Cmult (Cminus (e c) (at_ U n msj c)) (full M n i msj)) else at_ Q n i c) /\
    (forall l o, 0 <= l < mmax -> 0 <= o < k -> at_ UMV' mmax l o = if l <? m then Cplus (at_ UMV mmax l o) (Cmult (Cminus (e l) (at_ U n msj l)) (at_ Q n msj (mmax + o))) else at_ UMV mmax l o)).
  match goal with |- context [loop 0 k ?f ?a] => set (R := loop 0 k f a); assert (G : P k R) end.
  { apply (loop_inv P 0 k); [lia| |].
    - unfold P. split; [|split].
      + intros i c Hi Hc. destruct (Z.ltb_spec c 0); [lia|]. now rewrite andb_false_r.
      + intros i c Hi Hc. destruct (Z.ltb_spec c 0); [lia|reflexivity].
      + intros l o Hl Ho. destruct (Z.ltb_spec l 0); [lia|reflexivity].
    - intros m [[U1 Q1] V1] Hmk (I1 & I2 & I3). cbv zeta. rewrite at_put_same by assumption. rewrite (I1 msj m) by lia. rewrite Z.eqb_refl. replace (m <? m) with false by (symmetry; apply Z.ltb_ge; lia). cbn [andb].
      set (d := Cminus (e m) (at_ U n msj m)). set (Q2 := loop 0 msj _ Q1). set (Q3 := loop (msj + 1) n _ Q2).
      assert (H2 : forall i c, 0 <= i < n -> at_ Q2 n i c = if (c =? m) && (0 <=? i) && (i <? msj) then Cplus (at_ Q1 n i m) (Cmult (at_ M n i msj) d) else at_ Q1 n i c).
      { intros i c Hi. unfold Q2. rewrite (loop_column n 0 msj m _ (fun i B => Cplus (at_ B n i m) (Cmult (at_ M n i msj) d))); [reflexivity|lia|lia|reflexivity| |exact Hi]. intros i0 B B' Hi0 HB. f_equal. apply HB; [lia|now left]. }
      assert (H3 : forall i c, 0 <= i < n -> at_ Q3 n i c = if c =? m then Cplus (at_ Q1 n i m) (Cmult d (full M n i msj)) else at_ Q1 n i c).
      { intros i c Hi. unfold Q3. rewrite (loop_column n (msj + 1) n m _ (fun i B => Cminus (at_ B n i m) (Cmult (at_ M n msj i) d))); [|lia|lia|reflexivity| |exact Hi].
        - rewrite !H2 by assumption. rewrite Z.eqb_refl. destruct (Z.eqb_spec c m) as [->|]; cbn [andb]; [|reflexivity]. destruct (Z.leb_spec 0 i), (Z.ltb_spec i msj), (Z.leb_spec (msj + 1) i), (Z.ltb_spec i n); cbn [andb]; try lia.
          + rewrite full_low by lia. ring. + rewrite full_high by lia. ring. + assert (i = msj) as -> by lia. rewrite full_diag. ring.
        - intros i0 B B' Hi0 HB. f_equal. apply HB; [lia|now left]. }
      unfold P. split; [|split].
      + intros i c Hi Hc. rewrite at_put by assumption. rewrite I1 by assumption. destruct (Z.eqb_spec i msj), (Z.eqb_spec c m), (Z.ltb_spec c m), (Z.ltb_spec c (m + 1)); cbn [andb]; try lia; try reflexivity. now subst c.
      + intros i c Hi Hc. rewrite H3 by assumption. destruct (Z.eqb_spec c m) as [->|Nc].
        * rewrite I2 by lia. destruct (Z.ltb_spec m m), (Z.ltb_spec m (m + 1)); try lia. reflexivity.
        * rewrite I2 by assumption. destruct (Z.ltb_spec c m), (Z.ltb_spec c (m + 1)); try lia; reflexivity.
      + intros l o Hl Ho. rewrite (loop_row mmax 0 k m _ (fun o x => Cplus x (Cmult d (at_ Q3 n msj (mmax + o))))); [|lia|lia|reflexivity|exact Hl]. destruct (Z.leb_spec 0 o), (Z.ltb_spec o k); try lia. rewrite !andb_true_r. destruct (Z.eqb_spec l m) as [->|Nl].
        * rewrite H3 by assumption. destruct (Z.eqb_spec (mmax + o) m); [lia|]. rewrite I2, I3 by lia. destruct (Z.ltb_spec m m), (Z.ltb_spec m (m + 1)), (Z.ltb_spec (mmax + o) m); try lia. reflexivity.
        * rewrite I3 by assumption. destruct (Z.ltb_spec l m), (Z.ltb_spec l (m + 1)); try lia; reflexivity. }
  clearbody R. destruct R as [[U' Q'] V']. destruct G as (I1 & I2 & I3). split; [|split; [|split]].
  - intros i l Hi Hl. rewrite I1 by lia. destruct (Z.ltb_spec l k); [now rewrite andb_true_r|lia].
  - intros i l Hi Hl. rewrite I2 by lia. destruct (Z.ltb_spec l k); [reflexivity|lia].
  - intros i c Hi Hc. rewrite I2 by lia. destruct (Z.ltb_spec c k); [lia|reflexivity].
  - intros l o Hl Ho. rewrite I3 by lia. destruct (Z.ltb_spec l k); [reflexivity|lia].
Qed.
Lemma pop_ok compute s : good s -> 1 <= tK s ->
  exists s', pop_update norbs n mmax X skpfa compute s = Some s' /\ good s' /\ tK s' = tK s - 1 /\ tCfg s' = tCfg s /\ tFrom s' = tFrom s /\ tTo s' = tTo s /\ (compute = true -> get_pfa s' = value (cur s')).
Proof.
  intros (Hs & Ht & _) HK1. pose proof (shK _ _ _ s Hs) as HK0. pose proof (shNq _ _ _ s Hs) as HNq. unfold pop_update. cbv zeta. destruct (Z.leb_spec (tK s) 0); [lia|].
  assert (Cf := shCfg _ _ _ s Hs). assert (Fr := shFr _ _ _ s Hs). assert (To := shTo _ _ _ s Hs). assert (Inj := shInj _ _ _ s Hs).
  set (k := tK s - 1). set (msj := tFrom s k). assert (Hmsj : 0 <= msj < n) by (apply Fr; lia).
  set (e := fun l => Cminus (xij norbs X (tCfg s msj) (tTo s l)) (xij norbs X (tCfg s msj) (tCfg s (tFrom s l)))).
  pose proof (untouches_at k msj e (tM s) (tU s) (tQ s) (tUMV s) ltac:(lia) Hmsj) as TT. cbv zeta in TT.
  match type of TT with (let '(_, _) := ?R in _) => change (loop 0 k _ (tU s, tQ s, tUMV s)) with R end. destruct (loop 0 k _ (tU s, tQ s, tUMV s)) as [[U Q] V]. destruct TT as (TU & TQ1 & TQ2 & TV).
  assert (Nm : forall l, 0 <= l < k -> tFrom s l <> msj) by (intros l Hl E; apply Inj in E; lia).
  assert (eT : forall l, 0 <= l < k -> e l = Cminus (T (tCfg s msj) (tTo s l)) (T (tCfg s msj) (tCfg s (tFrom s l)))).
  { intros l Hl. unfold e. assert (0 <= l < tK s) by lia. now rewrite !(xij_is norbs X HX) by auto. }
  set (nq := if k <? tNq s then k else tNq s). assert (Hnq : 0 <= nq <= k /\ nq <= tNq s) by (unfold nq; destruct (Z.ltb_spec k (tNq s)); lia).
  set (s1 := Tdi (tM s) U Q (tW s) (tUMU s) V (tVMV s) (tCp s) (tPfa s) (tRatio s) (tCfg s) (tFrom s) (tTo s) k nq).
  assert (S1 : shape s1).
  { constructor; cbn [s1 tK tNq tFrom tTo tCfg]; [lia|lia|exact Cf|intros; apply Fr; lia|intros; apply To; lia|intros l m Hl Hm; apply Inj; lia]. }
  assert (EC : forall i, 0 <= i < n -> cur s1 i = if i =? msj then tCfg s i else cur s i).
  { intros i Hi. destruct (Z.eqb_spec i msj) as [->|N].
    - apply (cur_other norbs n mmax s1 msj S1). intros l Hl. now apply Nm.
    - destruct (hop_dec k (tFrom s) i) as [(l & Hl & <-)|Ni].
      + rewrite (cur_pending norbs n mmax s l Hs) by lia. exact (cur_pending norbs n mmax s1 l S1 Hl).
      + rewrite (cur_other norbs n mmax s1 i S1 Ni). symmetry. apply (cur_other norbs n mmax s i Hs). intros l Hl. destruct (Z.eq_dec l k) as [->|]; [intros E; apply N; now symmetry|apply Ni; lia]. }
  assert (dU : forall i l, 0 <= i < n -> 0 <= l < k -> i <> msj -> at_ U n i l = at_ (tU s) n i l).
  { intros i l Hi Hl N. rewrite TU by lia. destruct (Z.eqb_spec i msj); [contradiction|reflexivity]. }
  assert (dU2 : forall l, 0 <= l < k -> at_ U n msj l = e l) by (intros l Hl; rewrite TU by lia; now rewrite Z.eqb_refl).
  assert (T1 : tables s1).
  { constructor; cbn [s1 tK tNq tM tPfa tCfg tFrom tTo tU tQ tUMV tVMV tW].
    - apply (tbM _ _ _ _ s Ht). - apply (tbPfa _ _ _ _ s Ht).
    - intros i l Hi Hl. unfold seen. cbn [s1 tFrom tCfg]. rewrite EC by assumption. destruct (Z.eqb_spec i msj) as [->|N].
      + rewrite dU2, eT by assumption. destruct (Z.eqb _ _); reflexivity.
      + rewrite dU by assumption. rewrite (tbU _ _ _ _ s Ht) by lia. reflexivity.
    - intros i o Hi Ho. rewrite TQ2 by lia. apply (tbP _ _ _ _ s Ht); lia.
    - intros i l Hi Hl. rewrite TQ1 by lia. rewrite (tbQ _ _ _ _ s Ht) by lia.
      rewrite (csum_change n msj (full (tM s) n i) (fun j => at_ (tU s) n j l) (fun j => at_ U n j l) Hmsj) by (intros j Hj Nj; apply dU; lia). rewrite dU2 by lia. reflexivity.
    - intros l o Hl Ho. rewrite TV by lia. rewrite (tbP _ _ _ _ s Ht) by lia. rewrite (tbUMV _ _ _ _ s Ht) by lia.
      rewrite (csum_change' n msj (fun i => full (tM s) n i (tFrom s o)) (fun j => at_ (tU s) n j l) (fun j => at_ U n j l) Hmsj) by (intros j Hj Nj; apply dU; lia). rewrite dU2 by lia. reflexivity.
    - intros l o Hl Ho. apply (tbVMV _ _ _ _ s Ht); lia.
    - intros l o Hl Ho. apply (tbW _ _ _ _ s Ht); lia. }
  exists (if k =? 0 then with_ratio (RtoC 1) s1 else if compute then central_pfaffian mmax skpfa (computed s1) else with_ratio (RtoC 0) s1). split; [reflexivity|].
  destruct (Z.eqb_spec k 0) as [E0|N0].
  - assert (W : same_but_work s1 (with_ratio (RtoC 1) s1)) by (repeat split).
    assert (E : get_pfa (with_ratio (RtoC 1) s1) = value (cur (with_ratio (RtoC 1) s1))).
    { unfold get_pfa, cur. cbn [with_ratio tPfa tRatio tK s1 tFrom tTo tCfg]. rewrite E0, loop_nil by lia. rewrite (tbPfa _ _ _ _ s Ht). ring. }
    split; [|repeat (split; [reflexivity|]); intros _; exact E]. split; [now apply (same_shape norbs n mmax s1)|]. split; [now apply (same_tables norbs n mmax X s1)|]. constructor; [intros _; exact E|reflexivity|cbn [with_ratio tK s1]; lia].
  - destruct compute.
    + destruct (computed_ok s1 S1 T1) as (C1 & C2 & C3 & C4 & C5). rewrite <- C4 in C5. cbn [s1 tK] in C4. destruct (central_ok (computed s1) C1 C2 ltac:(lia) C5) as (G1 & G2 & G3 & G4).
      split; [exact G1|]. split; [rewrite G3; exact C4|]. rewrite G2, G4.
      assert (RQ : tCfg (require_q n false s1) = tCfg s /\ tFrom (require_q n false s1) = tFrom s /\ tTo (require_q n false s1) = tTo s) by (unfold require_q; destruct (Z.leb _ _); repeat split).
      unfold central_pfaffian. destruct (skpfa _ _ _). repeat split; apply RQ.
    + split; [apply dirty_ok; [exact S1|exact T1|cbn [s1 tK]; lia]|]. repeat (split; [reflexivity|]). discriminate.
Qed.
End Proofs.
