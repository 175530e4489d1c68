From Coq Require Import ZArith List Bool Reals Lia Lra.
From Coquelicot Require Import Complex.
From Verif Require Import Base.ZLoop Base.RSum Pf.Pfaffian Pf.Algebra Pf.Model Pf.Spec Pf.Proofs.
Import ListNotations.
Local Open Scope Z_scope.

Lemma loop_fst {S T} a b (F : Z -> S * T -> S * T) f st : (forall i st, fst (F i st) = f i (fst st)) -> fst (loop a b F st) = loop a b f (fst st).
Proof. intros H. unfold loop. generalize (zrange a b). intros l. revert st. induction l as [|x l IH]; intros st; cbn [fold_left]; [reflexivity|]. now rewrite IH, H. Qed.
Lemma loop_snd {S T} a b (F : Z -> S * T -> S * T) f st : (forall i st, snd (F i st) = f i (snd st)) -> snd (loop a b F st) = loop a b f (snd st).
Proof. intros H. unfold loop. generalize (zrange a b). intros l. revert st. induction l as [|x l IH]; intros st; cbn [fold_left]; [reflexivity|]. now rewrite IH, H. Qed.
Lemma matvec_loop n (x : Z -> Z -> C) (v : Z -> C) c i : 0 <= i < n ->
  loop 0 n (fun k c => loop 0 n (fun j c => cadd c k (Cmult (x k j) (v j))) c) c i = Cplus (c i) (csum (zrange 0 n) (fun j => Cmult (x i j) (v j))).
Proof.
  intros Hi. rewrite (loop_cadditive 0 n _ (fun k => if true && (i =? k) then csum (zrange 0 n) (fun j => Cmult (x k j) (v j)) else RtoC 0)); [|lia|].
  - rewrite csum_pick; [reflexivity|apply zrange_NoDup|apply zrange_in; lia].
  - intros k c' Hk. cbn [andb]. rewrite (loop_cadditive 0 n _ (fun j => if i =? k then Cmult (x k j) (v j) else RtoC 0)); [|lia|].
    + f_equal. destruct (i =? k); [reflexivity|apply csum_zero; reflexivity].
    + intros j c'' Hj. now rewrite cadd_at.
Qed.

(** the four groups of additions to the inverse *)
Lemma tail N q a b (F : Z -> Z -> C) (ga gb ha hb : Z -> C) (fi : C) c q' i j : 0 <= a < N -> 0 <= b < N -> 0 <= i < N -> 0 <= j < N ->
  cadd (cadd (loop 0 N (fun msj c => cadd (cadd c (q * N * N + a * N + msj) (ha msj)) (q * N * N + b * N + msj) (hb msj))
    (loop 0 N (fun msi c => cadd (cadd (loop 0 N (fun msj c => cadd c (q * N * N + msi * N + msj) (F msi msj)) c)
        (q * N * N + msi * N + a) (ga msi)) (q * N * N + msi * N + b) (gb msi)) c))
    (q * N * N + a * N + b) fi) (q * N * N + b * N + a) (Copp fi) (pos N q' i j) =
  Cplus (c (pos N q' i j)) (if q' =? q then
     (F i j + delta j a * ga i + delta j b * gb i + delta i a * ha j + delta i b * hb j + delta i a * delta j b * fi - delta i b * delta j a * fi)%C
     else RtoC 0).
Proof.
  intros Ha Hb Hi Hj. rewrite !one_add by assumption.
  rewrite (loop_cadditive 0 N _ (fun k => Cplus (if ((q' =? q) && (i =? a)) && (j =? k) then ha k else RtoC 0) (if ((q' =? q) && (i =? b)) && (j =? k) then hb k else RtoC 0))); [|lia|].
  2:{ intros k c' Hk. rewrite !one_add by assumption. ring. }
  rewrite csum_add, !csum_pick by (apply zrange_NoDup || apply zrange_in; assumption).
  rewrite (loop_cadditive 0 N _ (fun k => if (q' =? q) && (i =? k) then Cplus (Cplus (F k j) (if j =? a then ga k else RtoC 0)) (if j =? b then gb k else RtoC 0) else RtoC 0)); [|lia|].
  2:{ intros k c' Hk. rewrite !one_add, row_add by assumption. destruct (q' =? q), (i =? k), (j =? a), (j =? b); cbn [andb]; ring. }
  rewrite csum_pick by (apply zrange_NoDup || apply zrange_in; assumption).
  unfold delta. destruct (q' =? q), (i =? a), (i =? b), (j =? a), (j =? b); cbn [andb]; ring.
Qed.

Section Two.
Variables (Nsite Ne : Z).
Hypothesis HNe : 0 < Ne.
Variable Sl : Z -> C.
Notation N := (2 * Ne).
Notation L := (zrange 0 N).
Notation PM := (pair_matrix Nsite Ne Sl).

Lemma pvec_ext X (v v' : Z -> C) i : (forall j, 0 <= j < N -> v j = v' j) -> pvec L X v i = pvec L X v' i.
Proof. intros H. unfold pvec. apply csum_ext. intros j Hj. apply zrange_in in Hj. now rewrite H. Qed.

Lemma PM_two eleIdx q a ra b rb v i j : skew_table Nsite Sl q -> in_table Nsite Ne eleIdx ->
  0 <= ra + a / Ne * Nsite < 2 * Nsite -> 0 <= rb + b / Ne * Nsite < 2 * Nsite -> 0 <= a < N -> 0 <= b < N -> a <> b ->
  (forall j, 0 <= j < N -> j <> a -> j <> b -> v j = PM q (upd (upd eleIdx a ra) b rb) a j) ->
  0 <= i < N -> 0 <= j < N ->
  PM q (upd (upd eleIdx a ra) b rb) i j = two (PM q eleIdx) a b v (PM q (upd (upd eleIdx a ra) b rb) b) i j.
Proof.
  intros Hs Hl Hra Hrb Ha Hb Hab Hv Hi Hj.
  pose proof (PM_skew Nsite Ne Sl _ q Hs (in_table_upd Nsite Ne _ b rb (in_table_upd Nsite Ne _ a ra Hl Hra) Hrb)) as Hsk. rewrite skew_spec in Hsk.
  unfold two, setrow. destruct (Z.eqb_spec i b) as [->|Hib], (Z.eqb_spec j b) as [->|Hjb].
  - apply C_self_opp. now apply Hsk.
  - reflexivity.
  - now apply Hsk.
  - destruct (Z.eqb_spec i a) as [->|Hia], (Z.eqb_spec j a) as [->|Hja].
    + apply C_self_opp. now apply Hsk.
    + symmetry. now apply Hv.
    + rewrite Hv by assumption. now apply Hsk.
    + unfold pair_matrix, orbital. rewrite !upd_other by congruence. reflexivity.
Qed.

(** *** ratio *)
Lemma ratio_two eleIdx InvM PfM pfN ma s mb t qpStart q : electron Ne ma s -> electron Ne mb t ->
  let a := ma + s * Ne in let b := mb + t * Ne in
  let X := stored N InvM q in let v := PM (q + qpStart) eleIdx a in let w := PM (q + qpStart) eleIdx b in
  forall q', calculate_new_pfm_two_child Nsite Ne N Sl ma s mb t eleIdx qpStart q InvM PfM pfN q' =
    if q' =? q then Cmult (ratio2 L X a b v w) (PfM q) else pfN q'.
Proof.
  intros Hea Heb a b X v w q'. destruct (spin_of_label Ne HNe Sl ma s Hea) as (Hsa & Hra). destruct (spin_of_label Ne HNe Sl mb t Heb) as (Hsb & Hrb).
  fold a in Hsa, Hra. fold b in Hsb, Hrb.
  unfold calculate_new_pfm_two_child. cbv zeta. fold a b.
  set (va := loop 0 N (fun msi v => upd v msi (Sl ((q + qpStart) * Nsite2 Nsite * Nsite2 Nsite + ((eleIdx a + s * Nsite) * Nsite2 Nsite + (eleIdx msi + msi / Ne * Nsite))))) (fun _ => czero)).
  set (vb := loop 0 N (fun msi v => upd v msi (Sl ((q + qpStart) * Nsite2 Nsite * Nsite2 Nsite + ((eleIdx b + t * Nsite) * Nsite2 Nsite + (eleIdx msi + msi / Ne * Nsite))))) (fun _ => czero)).
  assert (Ea : forall i, 0 <= i < N -> va i = v i).
  { intros i Hi. unfold va. rewrite loop_set by lia. destruct (Z.leb_spec 0 i), (Z.ltb_spec i N); try lia. cbn [andb].
    unfold v, pair_matrix, orbital, Nsite2. rewrite Hsa. f_equal. lia. }
  assert (Eb : forall i, 0 <= i < N -> vb i = w i).
  { intros i Hi. unfold vb. rewrite loop_set by lia. destruct (Z.leb_spec 0 i), (Z.ltb_spec i N); try lia. cbn [andb].
    unfold w, pair_matrix, orbital, Nsite2. rewrite Hsb. f_equal. lia. }
  clearbody va vb.
  set (lp := loop 0 N (fun msi (st : C * C * C * C) => let '(p_a, p_b, q_a, q_b) := st in _) _).
  assert (El : lp = (pvec L X v a, pvec L X v b, pvec L X w a, pvec L X w b)).
  { unfold lp. unfold pvec.
    apply (loop_inv (fun e st => st = (csum (zrange 0 e) (fun j => Cmult (X a j) (v j)), csum (zrange 0 e) (fun j => Cmult (X b j) (v j)),
                                       csum (zrange 0 e) (fun j => Cmult (X a j) (w j)), csum (zrange 0 e) (fun j => Cmult (X b j) (w j))))); [lia|now rewrite zrange_nil by lia|].
    intros e st He ->. rewrite !csum_snoc' by lia. rewrite Ea, Eb by assumption.
    change (InvM (q * N * N + (a * N + e))) with (InvM (q * N * N + (a * N + e))).
    replace (q * N * N + (a * N + e)) with (q * N * N + a * N + e) by lia. replace (q * N * N + (b * N + e)) with (q * N * N + b * N + e) by lia. reflexivity. }
  rewrite El. rewrite upd_get. destruct (Z.eqb_spec q' q) as [->|]; [|reflexivity]. f_equal.
  assert (Eab : InvM (q * N * N + (a * N + b)) = X a b) by (unfold X, stored; f_equal; lia). rewrite !Eab, Eb by assumption.
  unfold ratio2. do 3 f_equal. f_equal. unfold bMa.
  rewrite (loop_csum 0 N (fun i => Cmult (vb i) (loop 0 N (fun j tmp => Cplus tmp (Cmult (InvM (q * N * N + (i * N + j))) (va j))) czero))) by lia.
  unfold czero. rewrite Cplus_0_l. apply csum_ext. intros i Hi. apply zrange_in in Hi. rewrite Eb by assumption. f_equal.
  rewrite loop_csum by lia. rewrite Cplus_0_l. unfold pvec. apply csum_ext. intros j Hj. apply zrange_in in Hj. rewrite Ea by assumption. f_equal. unfold X, stored. f_equal. lia.
Qed.
Lemma calc_two_table eleIdx InvM PfM pfN ma s ra mb t rb qpStart qpEnd :
  (forall q, 0 <= q < qpEnd - qpStart -> skew_table Nsite Sl (q + qpStart)) ->
  electron Ne ma s -> electron Ne mb t -> 0 <= ra + s * Nsite < 2 * Nsite -> 0 <= rb + t * Nsite < 2 * Nsite -> in_table Nsite Ne eleIdx ->
  current Nsite Ne Sl qpStart qpEnd eleIdx InvM PfM ->
  forall q, 0 <= q < qpEnd - qpStart ->
    calculate_new_pfm_two Nsite Ne N Sl ma s mb t (upd (upd eleIdx (ma + s * Ne) ra) (mb + t * Ne) rb) qpStart qpEnd InvM PfM pfN q =
    pf (PM (q + qpStart) (upd (upd eleIdx (ma + s * Ne) ra) (mb + t * Ne) rb)) L.
Proof.
  intros Hsl Hea Heb Hra Hrb Hlat Hcur q Hq.
  destruct (spin_of_label Ne HNe Sl ma s Hea) as (Hsa & Ha). destruct (spin_of_label Ne HNe Sl mb t Heb) as (Hsb & Hb).
  assert (Hra' : 0 <= ra + (ma + s * Ne) / Ne * Nsite < 2 * Nsite) by (rewrite Hsa; exact Hra).
  assert (Hrb' : 0 <= rb + (mb + t * Ne) / Ne * Nsite < 2 * Nsite) by (rewrite Hsb; exact Hrb).
  unfold calculate_new_pfm_two. destruct (Z.eqb_spec (ma + s * Ne) (mb + t * Ne)) as [E|E].
  - (* the same electron twice *)
    assert (X : forall k, upd (upd eleIdx (ma + s * Ne) ra) (mb + t * Ne) rb k = upd eleIdx (mb + t * Ne) rb k).
    { intros k. rewrite E, !upd_get. destruct (k =? mb + t * Ne); reflexivity. }
    assert (XP : forall q i j, PM q (upd (upd eleIdx (ma + s * Ne) ra) (mb + t * Ne) rb) i j = PM q (upd eleIdx (mb + t * Ne) rb) i j).
    { intros. unfold pair_matrix, orbital. now rewrite !X. }
    rewrite (pf_ext _ (PM (q + qpStart) (upd eleIdx (mb + t * Ne) rb)) (length L)) by (auto).
    rewrite <- (calc_one_table Nsite Ne HNe Sl eleIdx InvM PfM pfN mb t rb qpStart qpEnd) by assumption.
    rewrite !(ratio_one Nsite Ne HNe Sl) by assumption. do 2 f_equal. apply csum_ext. intros j _. now rewrite XP.
  - set (a := ma + s * Ne) in *. set (b := mb + t * Ne) in *. set (ele' := upd (upd eleIdx a ra) b rb) in *.
    destruct (Hcur q Hq) as (HP & HI). destruct (is_inverse_elim _ _ _ HI) as (Hli & Hskx).
    set (X := stored N InvM q) in *. set (v := PM (q + qpStart) ele' a). set (w := PM (q + qpStart) ele' b).
    assert (El : loop 0 (qpEnd - qpStart) (fun qpidx => calculate_new_pfm_two_child Nsite Ne N Sl ma s mb t ele' qpStart qpidx InvM PfM) pfN q =
                 Cmult (ratio2 L X a b v w) (PfM q)).
    { assert (G : (fun e f => f q = if q <? e then Cmult (ratio2 L X a b v w) (PfM q) else pfN q) (qpEnd - qpStart)
         (loop 0 (qpEnd - qpStart) (fun qpidx => calculate_new_pfm_two_child Nsite Ne N Sl ma s mb t ele' qpStart qpidx InvM PfM) pfN)).
      { apply (loop_inv (fun e f => f q = if q <? e then Cmult (ratio2 L X a b v w) (PfM q) else pfN q)); [lia| |].
        - destruct (Z.ltb_spec q 0); [lia|reflexivity].
        - intros e f He IH. rewrite ratio_two by assumption. fold a b. destruct (Z.eqb_spec q e) as [->|].
          + destruct (Z.ltb_spec e (e + 1)); [reflexivity|lia].
          + rewrite IH. destruct (Z.ltb_spec q e), (Z.ltb_spec q (e + 1)); try lia; reflexivity. }
      cbv beta in G. rewrite G. destruct (Z.ltb_spec q (qpEnd - qpStart)); [reflexivity|lia]. }
    rewrite El, HP.
    assert (Hv : v a = RtoC 0). { apply (PM_diag Nsite Ne); [auto| |assumption]. repeat apply in_table_upd; assumption. }
    rewrite <- (pf2 L (PM (q + qpStart) eleIdx) X a b v w); try assumption; try apply zrange_NoDup; try (now apply zrange_in).
    + apply (pf_ext _ _ (length L)); [apply le_n|]. intros i j Hi Hj. apply zrange_in in Hi, Hj. symmetry. apply PM_two; auto.
    + apply (PM_skew Nsite Ne); auto.
Qed.
Lemma calc_two eleIdx InvM PfM pfN ma s ra mb t rb qpStart qpEnd :
  (forall q, 0 <= q < qpEnd - qpStart -> skew_table Nsite Sl (q + qpStart)) ->
  electron Ne ma s -> electron Ne mb t -> 0 <= ra < Nsite -> 0 <= rb < Nsite -> on_lattice Nsite N eleIdx ->
  current Nsite Ne Sl qpStart qpEnd eleIdx InvM PfM ->
  forall q, 0 <= q < qpEnd - qpStart ->
    calculate_new_pfm_two Nsite Ne N Sl ma s mb t (upd (upd eleIdx (ma + s * Ne) ra) (mb + t * Ne) rb) qpStart qpEnd InvM PfM pfN q =
    pf (PM (q + qpStart) (upd (upd eleIdx (ma + s * Ne) ra) (mb + t * Ne) rb)) L.
Proof.
  intros Hsl Hea Heb Hra Hrb Hlat. apply calc_two_table; [assumption..| | |now apply lattice_table].
  - destruct (spin_of_label Ne HNe Sl ma s Hea) as (Hs & Ha). pose proof (lattice_site Nsite Ne HNe Sl _ ra Ha Hra) as K. rewrite Hs in K. exact K.
  - destruct (spin_of_label Ne HNe Sl mb t Heb) as (Hs & Ha). pose proof (lattice_site Nsite Ne HNe Sl _ rb Ha Hrb) as K. rewrite Hs in K. exact K.
Qed.

(** *** update *)
Lemma two_body eleIdx InvM PfM ma s mb t mOld qpStart q : electron Ne ma s -> electron Ne mb t -> ma + s * Ne <> mb + t * Ne ->
  let a := ma + s * Ne in let b := mb + t * Ne in
  let X := stored N InvM q in
  let w := PM (q + qpStart) eleIdx b in
  let st := update_mall_two_body Nsite N Sl a b (eleIdx a + s * Nsite) (eleIdx b + t * Nsite) mOld (fun k => eleIdx k + k / Ne * Nsite) qpStart q InvM PfM in
  exists v, (forall j, 0 <= j < N -> j <> b -> v j = PM (q + qpStart) eleIdx a j) /\
  (forall q' i j, 0 <= i < N -> 0 <= j < N -> stored N (fst st) q' i j = if q' =? q then inv2 L X a b v w i j else stored N InvM q' i j) /\
  (forall q', snd st q' = if q' =? q then Cmult (PfM q) (ratio2 L X a b v w) else PfM q').
Proof.
  intros Hea Heb Hne a b X w st. destruct (spin_of_label Ne HNe Sl ma s Hea) as (Hsa & Hra). destruct (spin_of_label Ne HNe Sl mb t Heb) as (Hsb & Hrb).
  fold a in Hsa, Hra, Hne. fold b in Hsb, Hrb, Hne.
  unfold update_mall_two_body in st. cbv zeta in st.
  set (va0 := loop 0 N (fun msi v => upd v msi (Sl ((q + qpStart) * Nsite2 Nsite * Nsite2 Nsite + ((eleIdx a + s * Nsite) * Nsite2 Nsite + (eleIdx msi + msi / Ne * Nsite))))) (fun _ => czero)) in st.
  set (vb := loop 0 N (fun msi v => upd v msi (Sl ((q + qpStart) * Nsite2 Nsite * Nsite2 Nsite + ((eleIdx b + t * Nsite) * Nsite2 Nsite + (eleIdx msi + msi / Ne * Nsite))))) (fun _ => czero)) in st.
  assert (Ea : forall i, 0 <= i < N -> va0 i = PM (q + qpStart) eleIdx a i).
  { intros i Hi. unfold va0. rewrite loop_set by lia. destruct (Z.leb_spec 0 i), (Z.ltb_spec i N); try lia. cbn [andb].
    unfold pair_matrix, orbital, Nsite2. rewrite Hsa. f_equal. lia. }
  assert (Eb : forall i, 0 <= i < N -> vb i = w i).
  { intros i Hi. unfold vb. rewrite loop_set by lia. destruct (Z.leb_spec 0 i), (Z.ltb_spec i N); try lia. cbn [andb].
    unfold w, pair_matrix, orbital, Nsite2. rewrite Hsb. f_equal. lia. }
  clearbody va0 vb. set (v := upd va0 b mOld) in st. exists v. split.
  { intros j Hj Hjb. unfold v. rewrite upd_other by assumption. now apply Ea. }
  clearbody v.
  set (pq := loop 0 N (fun msi st => loop 0 N (fun msj (st : (Z -> C) * (Z -> C)) =>
      (cadd (fst st) msi (Cmult (InvM (q * N * N + msi * N + msj)) (v msj)), cadd (snd st) msi (Cmult (InvM (q * N * N + msi * N + msj)) (vb msj)))) st) ((fun _ => czero), (fun _ => czero))) in st.
  destruct pq as (vP, vQ) eqn:Epq. unfold pq in Epq. clear pq.
  assert (EP : forall i, 0 <= i < N -> vP i = pvec L X v i).
  { intros i Hi. change vP with (fst (vP, vQ)). rewrite <- Epq.
    rewrite (loop_fst 0 N _ (fun k c => loop 0 N (fun j c => cadd c k (Cmult (X k j) (v j))) c)).
    - cbn [fst]. rewrite (matvec_loop N X v) by assumption. unfold czero. rewrite Cplus_0_l. reflexivity.
    - intros k st'. rewrite (loop_fst 0 N _ (fun j c => cadd c k (Cmult (X k j) (v j)))); reflexivity. }
  assert (EQ : forall i, 0 <= i < N -> vQ i = pvec L X w i).
  { intros i Hi. change vQ with (snd (vP, vQ)). rewrite <- Epq.
    rewrite (loop_snd 0 N _ (fun k c => loop 0 N (fun j c => cadd c k (Cmult (X k j) (vb j))) c)).
    - cbn [snd]. rewrite (matvec_loop N X vb) by assumption. unfold czero. rewrite Cplus_0_l. unfold pvec. apply csum_ext. intros j Hj. apply zrange_in in Hj. now rewrite Eb.
    - intros k st'. rewrite (loop_snd 0 N _ (fun j c => cadd c k (Cmult (X k j) (vb j)))); reflexivity. }
  clear Epq.
  set (bm := loop 0 N (fun msi bMa => Cplus bMa (Cmult (vb msi) (vP msi))) czero) in st.
  assert (Ebm : bm = bMa L X v w).
  { unfold bm. rewrite loop_csum by lia. unfold czero. rewrite Cplus_0_l. unfold bMa. apply csum_ext. intros i Hi. apply zrange_in in Hi. now rewrite Eb, EP. }
  clearbody bm. split.
  - intros q' i j Hi Hj. unfold st, stored at 1. cbn [fst]. change (q' * N * N + i * N + j) with (pos N q' i j).
    rewrite tail by assumption. rewrite !loop_set by lia.
    destruct (Z.leb_spec 0 i), (Z.ltb_spec i N), (Z.leb_spec 0 j), (Z.ltb_spec j N); try lia. cbn [andb].
    destruct (Z.eqb_spec q' q) as [->|]; [|change (InvM (pos N q' i j)) with (stored N InvM q' i j); ring].
    rewrite !EP, !EQ, Eb, Ebm by assumption.
    change (InvM (pos N q i j)) with (X i j).
    repeat match goal with |- context [InvM (q * N * N + ?x * N + ?y)] => change (InvM (q * N * N + x * N + y)) with (X x y) end.
    rewrite (det_is_ratio L X a b v w). unfold inv2. ring.
  - intros q'. unfold st. cbn [snd]. rewrite upd_get. destruct (Z.eqb_spec q' q) as [->|]; [|reflexivity].
    rewrite !EP, !EQ, Eb, Ebm by assumption. reflexivity.
Qed.
Lemma update_two_table eleIdx InvM PfM ma s ra mb t rb (mOld : Z -> C) qpStart qpEnd :
  (forall q, 0 <= q < qpEnd - qpStart -> skew_table Nsite Sl (q + qpStart)) ->
  electron Ne ma s -> electron Ne mb t -> ma + s * Ne <> mb + t * Ne -> 0 <= ra + s * Nsite < 2 * Nsite -> 0 <= rb + t * Nsite < 2 * Nsite -> in_table Nsite Ne eleIdx ->
  current Nsite Ne Sl qpStart qpEnd eleIdx InvM PfM ->
  let ele' := upd (upd eleIdx (ma + s * Ne) ra) (mb + t * Ne) rb in
  regular Nsite Ne Sl qpStart qpEnd ele' ->
  let a := ma + s * Ne in let b := mb + t * Ne in
  let st := loop 0 (qpEnd - qpStart) (fun q st => update_mall_two_body Nsite N Sl a b (ele' a + s * Nsite) (ele' b + t * Nsite) (mOld q)
      (fun k => ele' k + k / Ne * Nsite) qpStart q (fst st) (snd st)) (InvM, PfM) in
  current Nsite Ne Sl qpStart qpEnd ele' (fst st) (snd st).
Proof.
  intros Hsl Hea Heb Hab Hra Hrb Hlat Hcur. cbv zeta. intros Hreg.
  destruct (spin_of_label Ne HNe Sl ma s Hea) as (Hsa & Ha). destruct (spin_of_label Ne HNe Sl mb t Heb) as (Hsb & Hb).
  assert (Hra' : 0 <= ra + (ma + s * Ne) / Ne * Nsite < 2 * Nsite) by (rewrite Hsa; exact Hra).
  assert (Hrb' : 0 <= rb + (mb + t * Ne) / Ne * Nsite < 2 * Nsite) by (rewrite Hsb; exact Hrb).
  set (a := ma + s * Ne) in *. set (b := mb + t * Ne) in *. set (ele' := upd (upd eleIdx a ra) b rb) in *.
  apply (slices Nsite Ne Sl _ eleIdx); [assumption|].
  intros e I P He' HI HP. cbn [fst snd].
  destruct (is_inverse_elim _ _ _ HI) as (LiI & SkI).
  destruct (two_body ele' I P ma s mb t (mOld e) qpStart e Hea Heb Hab) as (v & Hv & RI & RP). fold a b in Hv, RI, RP.
  set (st := update_mall_two_body _ _ _ _ _ _ _ _ _ _ _ _ _) in *. cbv zeta.
  set (w := PM (e + qpStart) ele' b) in *. set (X := stored N I e) in *.
  assert (Hlat' : in_table Nsite Ne ele') by (repeat apply in_table_upd; assumption).
  assert (Esk : skewsym (PM (e + qpStart) eleIdx) L) by (apply (PM_skew Nsite Ne); auto).
  assert (Esk' : skewsym (PM (e + qpStart) ele') L) by (apply (PM_skew Nsite Ne); auto).
  assert (Hva : v a = RtoC 0). { rewrite Hv by assumption. apply (PM_diag Nsite Ne); auto. }
  assert (Hwb : w b = RtoC 0) by (apply (PM_diag Nsite Ne); auto).
  assert (EM : forall i j, 0 <= i < N -> 0 <= j < N -> PM (e + qpStart) ele' i j = two (PM (e + qpStart) eleIdx) a b v w i j).
  { intros i j Hi Hj. apply PM_two; auto. }
  assert (Epf : pf (PM (e + qpStart) ele') L = Cmult (ratio2 L X a b v w) (P e)).
  { rewrite HP, <- (pf2 L (PM (e + qpStart) eleIdx) X a b v w); try assumption; try apply zrange_NoDup; try (now apply zrange_in).
    apply (pf_ext _ _ (length L)); [apply le_n|]. intros i j Hi Hj. apply zrange_in in Hi, Hj. now apply EM. }
  assert (Hp : ratio2 L X a b v w <> RtoC 0). { intros E. apply (Hreg e He'). rewrite Epf, E. ring. }
  split; [|split].
  - rewrite RP, Z.eqb_refl, Epf. ring.
  - apply is_inverse_intro; [|assumption|].
    + apply skew_spec. intros i j Hi Hj. rewrite !RI, Z.eqb_refl by assumption.
      pose proof (inv2_skew L X a b v w SkI) as K. rewrite skew_spec in K. now apply K.
    + apply left_inverse_spec. intros i k Hi Hk.
      rewrite (csum_ext L _ (fun j => Cmult (inv2 L X a b v w i j) (two (PM (e + qpStart) eleIdx) a b v w j k))).
      * apply (inv2_row L (PM (e + qpStart) eleIdx) X a b v w); try assumption; try apply zrange_NoDup; now apply zrange_in.
      * intros j Hj. apply zrange_in in Hj. rewrite RI, Z.eqb_refl by assumption. f_equal. now apply EM.
  - intros q Hne. assert (Hqe : (q =? e) = false) by now apply Z.eqb_neq. split; [now rewrite RP, Hqe|]. intros i j Hi Hj. now rewrite RI, Hqe.
Qed.
Lemma update_two eleIdx InvM PfM ma s ra mb t rb raOld rbOld qpStart qpEnd :
  (forall q, 0 <= q < qpEnd - qpStart -> skew_table Nsite Sl (q + qpStart)) ->
  electron Ne ma s -> electron Ne mb t -> ma + s * Ne <> mb + t * Ne -> 0 <= ra < Nsite -> 0 <= rb < Nsite -> on_lattice Nsite N eleIdx ->
  current Nsite Ne Sl qpStart qpEnd eleIdx InvM PfM ->
  let ele' := upd (upd eleIdx (ma + s * Ne) ra) (mb + t * Ne) rb in
  regular Nsite Ne Sl qpStart qpEnd ele' ->
  let st := update_mall_two Nsite Ne N Sl ma s mb t raOld rbOld ele' qpStart qpEnd (InvM, PfM) in
  current Nsite Ne Sl qpStart qpEnd ele' (fst st) (snd st).
Proof.
  intros Hsl Hea Heb Hab Hra Hrb Hlat Hcur. cbv zeta. intros Hreg.
  apply (update_two_table eleIdx InvM PfM ma s ra mb t rb (fun q => Sl ((q + qpStart) * Nsite2 Nsite * Nsite2 Nsite + ((raOld + s * Nsite) * Nsite2 Nsite + (raOld + t * Nsite))))); [assumption|assumption|assumption|assumption| | |now apply lattice_table|assumption|assumption].
  - destruct (spin_of_label Ne HNe Sl ma s Hea) as (Hs & Ha). pose proof (lattice_site Nsite Ne HNe Sl _ ra Ha Hra) as K. rewrite Hs in K. exact K.
  - destruct (spin_of_label Ne HNe Sl mb t Heb) as (Hs & Ha). pose proof (lattice_site Nsite Ne HNe Sl _ rb Ha Hrb) as K. rewrite Hs in K. exact K.
Qed.

(** *** from scratch *)
Definition oracle_correct (skpf : Z -> (Z -> C) -> option (C * (Z -> C))) : Prop :=
  forall n buf pfaff inv, 0 <= n -> skpf n buf = Some (pfaff, inv) ->
    let A := fun i j => buf (i + j * n) in
    (forall i j, 0 <= i < n -> 0 <= j < n -> A j i = Copp (A i j)) ->
    pfaff = pf A (zrange 0 n) /\ is_inverse n (fun i j => inv (i + j * n)) A.
Lemma scratch_table skpf eleIdx qpStart q InvM PfM I P : oracle_correct skpf -> skew_table Nsite Sl (q + qpStart) -> in_table Nsite Ne eleIdx ->
  calculate_mall_child Nsite Ne N Sl skpf eleIdx qpStart q InvM PfM = Some (I, P) ->
  P q = pf (PM (q + qpStart) eleIdx) L /\ is_inverse N (stored N I q) (PM (q + qpStart) eleIdx) /\
  forall q', q' <> q -> P q' = PfM q' /\ forall i j, 0 <= i < N -> 0 <= j < N -> stored N I q' i j = stored N InvM q' i j.
Proof.
  intros Ho Hsl Hlat. unfold calculate_mall_child. cbv zeta.
  set (I1 := loop 0 N _ InvM).
  assert (E1 : forall q' i j, 0 <= i < N -> 0 <= j < N -> I1 (pos N q' i j) = if q' =? q then Copp (PM (q + qpStart) eleIdx i j) else InvM (pos N q' i j)).
  { intros q' i j Hi Hj. unfold I1.
    assert (G : (fun e f => f (pos N q' i j) = if (q' =? q) && (i <? e) then Copp (PM (q + qpStart) eleIdx i j) else InvM (pos N q' i j)) N (loop 0 N
      (fun msi InvM => loop 0 N (fun msj InvM => upd InvM (q * N * N + msi * N + msj)
        (Copp (Sl ((q + qpStart) * Nsite2 Nsite * Nsite2 Nsite + (eleIdx msi + msi / Ne * Nsite) * Nsite2 Nsite + (eleIdx msj + msj / Ne * Nsite))))) InvM) InvM)).
    { apply (loop_inv (fun e f => f (pos N q' i j) = if (q' =? q) && (i <? e) then Copp (PM (q + qpStart) eleIdx i j) else InvM (pos N q' i j))); [lia| |].
      - destruct (Z.ltb_spec i 0); [lia|]. now rewrite andb_false_r.
      - intros e f He IH.
        assert (G2 : (fun d g => g (pos N q' i j) = if (q' =? q) && (i =? e) && (j <? d) then Copp (PM (q + qpStart) eleIdx i j) else f (pos N q' i j)) N (loop 0 N (fun msj InvM => upd InvM (q * N * N + e * N + msj)
           (Copp (Sl ((q + qpStart) * Nsite2 Nsite * Nsite2 Nsite + (eleIdx e + e / Ne * Nsite) * Nsite2 Nsite + (eleIdx msj + msj / Ne * Nsite))))) f)).
        { apply (loop_inv (fun d g => g (pos N q' i j) = if (q' =? q) && (i =? e) && (j <? d) then Copp (PM (q + qpStart) eleIdx i j) else f (pos N q' i j))); [lia| |].
          - destruct (Z.ltb_spec j 0); [lia|]. now rewrite andb_false_r.
          - intros d g Hd IHd. rewrite upd_get. change (q * N * N + e * N + d) with (pos N q e d). rewrite pos_eqb by assumption.
            rewrite IHd. destruct (Z.eqb_spec q' q), (Z.eqb_spec i e), (Z.eqb_spec j d), (Z.ltb_spec j d), (Z.ltb_spec j (d + 1)); try lia; subst; reflexivity. }
        cbv beta in G2. rewrite G2, IH. destruct (Z.ltb_spec j N); [|lia].
        destruct (q' =? q), (Z.eqb_spec i e), (Z.ltb_spec i e), (Z.ltb_spec i (e + 1)); try lia; reflexivity. }
    cbv beta in G. rewrite G. destruct (Z.ltb_spec i N); [|lia]. now rewrite andb_true_r. }
  clearbody I1. destruct (skpf N (fun k => I1 (q * N * N + k))) as [(pfaff, inv)|] eqn:Es; [|discriminate].
  set (I2 := loop 0 (N * N) _ I1). intros E. assert (I = I2) as -> by congruence. assert (P = upd PfM q pfaff) as -> by congruence. clear E.
  assert (Hsk : skewsym (PM (q + qpStart) eleIdx) L) by (apply (PM_skew Nsite Ne); auto). pose proof Hsk as Hsk'. rewrite skew_spec in Hsk'.
  assert (EA : forall i j, 0 <= i < N -> 0 <= j < N -> I1 (q * N * N + (i + j * N)) = PM (q + qpStart) eleIdx i j).
  { intros i j Hi Hj. replace (q * N * N + (i + j * N)) with (pos N q j i) by (unfold pos; lia). rewrite E1, Z.eqb_refl by assumption. rewrite (Hsk' i j) by assumption. ring. }
  destruct (Ho N (fun k => I1 (q * N * N + k)) pfaff inv) as (Hp & Hi); [lia|assumption| |].
  { intros i j Hi Hj. rewrite !EA by assumption. now apply Hsk'. }
  assert (E2 : forall q' i j, 0 <= i < N -> 0 <= j < N -> I2 (pos N q' i j) = if q' =? q then Copp (inv (i * N + j)) else I1 (pos N q' i j)).
  { intros q' i j Hi' Hj. unfold I2.
    assert (Hr : 0 <= i * N + j < N * N) by nia.
    assert (G : (fun e f => f (pos N q' i j) = if (q' =? q) && (i * N + j <? e) then Copp (inv (i * N + j)) else I1 (pos N q' i j)) (N * N) (loop 0 (N * N) (fun k InvM => upd InvM (q * N * N + k) (Copp (inv k))) I1)).
    { apply (loop_inv (fun e f => f (pos N q' i j) = if (q' =? q) && (i * N + j <? e) then Copp (inv (i * N + j)) else I1 (pos N q' i j))); [nia| |].
      - destruct (Z.ltb_spec (i * N + j) 0); [lia|]. now rewrite andb_false_r.
      - intros e f He IH. rewrite upd_get. destruct (Z.eqb_spec (pos N q' i j) (q * N * N + e)) as [Eq|Nq].
        + assert (q' = q /\ i * N + j = e) as (-> & <-). { unfold pos in Eq. destruct (Z.div_mod_unique (N * N) q' q (i * N + j) e); [left; lia|left; lia|lia|lia]. }
          rewrite Z.eqb_refl. destruct (Z.ltb_spec (i * N + j) (i * N + j + 1)); [reflexivity|lia].
        + rewrite IH. destruct (Z.eqb_spec q' q) as [->|]; cbn [andb]; [|reflexivity].
          assert (i * N + j <> e). { intros <-. apply Nq. unfold pos. lia. }
          destruct (Z.ltb_spec (i * N + j) e), (Z.ltb_spec (i * N + j) (e + 1)); try lia; reflexivity. }
    cbv beta in G. rewrite G. destruct (Z.ltb_spec (i * N + j) (N * N)); [|lia]. now rewrite andb_true_r. }
  split; [|split].
  - rewrite upd_same, Hp. apply (pf_ext _ _ (length L)); [apply le_n|]. intros i j Hi' Hj. apply zrange_in in Hi', Hj. now apply EA.
  - destruct (is_inverse_elim _ _ _ Hi) as (K1 & K2). rewrite left_inverse_spec in K1. rewrite skew_spec in K2.
    assert (E3 : forall i j, 0 <= i < N -> 0 <= j < N -> stored N I2 q i j = inv (i + j * N)).
    { intros i j Hi' Hj. unfold stored. fold (pos N q i j). rewrite E2, Z.eqb_refl by assumption. replace (i * N + j) with (j + i * N) by lia. rewrite (K2 i j) by assumption. ring. }
    apply is_inverse_intro; [| assumption |].
    + apply skew_spec. intros i j Hi' Hj. rewrite !E3 by assumption. now apply K2.
    + apply left_inverse_spec. intros i j Hi' Hj. rewrite <- K1 by assumption. apply csum_ext. intros k Hk. apply zrange_in in Hk. rewrite E3, EA by assumption. reflexivity.
  - intros q' Hne. split; [now rewrite upd_other|]. intros i j Hi' Hj. unfold stored. fold (pos N q' i j). rewrite E2, E1 by assumption. destruct (Z.eqb_spec q' q); [tauto|reflexivity].
Qed.
Lemma scratch skpf eleIdx qpStart q InvM PfM I P : oracle_correct skpf -> skew_table Nsite Sl (q + qpStart) -> on_lattice Nsite N eleIdx ->
  calculate_mall_child Nsite Ne N Sl skpf eleIdx qpStart q InvM PfM = Some (I, P) ->
  P q = pf (PM (q + qpStart) eleIdx) L /\ is_inverse N (stored N I q) (PM (q + qpStart) eleIdx) /\
  forall q', q' <> q -> P q' = PfM q' /\ forall i j, 0 <= i < N -> 0 <= j < N -> stored N I q' i j = stored N InvM q' i j.
Proof. intros Ho Hsl Hlat. apply scratch_table; [assumption..|now apply lattice_table]. Qed.
End Two.
