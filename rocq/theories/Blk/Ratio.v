(** The ratio of Pfaffians and the merged inverse from the tables. *)
From Coq Require Import ZArith List Bool Lia Reals.
From Coquelicot Require Import Complex.
From Verif Require Import Base.ZLoop Base.Checked Base.RSum Pf.Pfaffian Pf.Spec Pf.Proofs Ltl.Model Ltl.Spec Ltl.Arr Ltl.Proofs Blk.Model Blk.Spec Blk.Alg Blk.Kernel Blk.Arr Blk.State.
Import ListNotations.
Local Open Scope Z_scope.

Section Ratio.
Variables (norbs n mmax : Z) (X : Z -> C).
Hypothesis HX : skew_array norbs X.
Hypothesis Hn : 0 < n.
Local Notation T := (at_ X norbs).
Local Notation amp := (amplitudes norbs X).
Local Notation shape := (shape norbs n mmax).
Local Notation tables := (tables norbs n mmax X).
Definition B_of (s : tdi) := wide (tK s) (at_ (tU s) n) (tFrom s).
Definition D_of (s : tdi) := corner (tK s) (full (tW s) mmax).
Definition E_of (s : tdi) := uncorner (tK s) (full (tW s) mmax).
Definition cen_of (s : tdi) := central n (full (tM s) n) (B_of s) (D_of s).

Lemma amp_skew c : (forall i, 0 <= i < n -> 0 <= c i < norbs) -> forall i j, 0 <= i < n -> 0 <= j < n -> amp c j i = Copp (amp c i j).
Proof. intros Hc i j Hi Hj. apply HX; now apply Hc. Qed.
Lemma changed_is s i j : shape s -> tables s -> 0 <= i < n -> 0 <= j < n -> changed (2 * tK s) (amp (tCfg s)) (B_of s) (E_of s) i j = amp (cur s) i j.
Proof.
  intros Hs Ht Hi Hj. pose proof (shK _ _ _ s Hs) as HK.
  assert (Fr : forall l, 0 <= l < tK s -> 0 <= tFrom s l < n) by (apply (shFr _ _ _ s Hs)). assert (To : forall l, 0 <= l < tK s -> 0 <= tTo s l < norbs) by (apply (shTo _ _ _ s Hs)).
  assert (Cf : forall i, 0 <= i < n -> 0 <= tCfg s i < norbs) by (apply (shCfg _ _ _ s Hs)). assert (Inj := shInj _ _ _ s Hs).
  change (changed (2 * tK s) (amp (tCfg s)) (B_of s) (E_of s) i j) with (Cplus (amp (tCfg s) i j) (change (tK s) (at_ (tU s) n) (full (tW s) mmax) (tFrom s) i j)).
  assert (Us : forall i l, 0 <= i < n -> 0 <= l < tK s -> i <> tFrom s l -> at_ (tU s) n i l = Cminus (T (cur s i) (tTo s l)) (T (tCfg s i) (tCfg s (tFrom s l)))).
  { intros i0 l Hi0 Hl N. rewrite (tbU _ _ _ _ s Ht) by assumption. unfold seen. destruct (Z.eqb_spec i0 (tFrom s l)); [contradiction|reflexivity]. }
  destruct (hop_dec (tK s) (tFrom s) i) as [(l & Hl & El)|Ni], (hop_dec (tK s) (tFrom s) j) as [(m & Hm & Em)|Nj].
  - subst i j. rewrite (change_both (tK s) _ _ (tFrom s) (proj1 HK) (fun l m _ _ => full_skew _ _ l m) n Fr Inj l m Hl Hm). unfold amplitudes. rewrite !(cur_pending norbs n mmax) by assumption. destruct (Z.eq_dec l m) as [->|N].
    + rewrite full_diag. rewrite !(T_diag norbs X HX) by auto. ring.
    + assert (tFrom s l <> tFrom s m) by (intros E; apply N; now apply Inj). rewrite !Us by auto. rewrite !(cur_pending norbs n mmax) by assumption.
      assert (EW : full (tW s) mmax l m = Cplus (Copp (T (tTo s l) (tTo s m))) (T (tCfg s (tFrom s l)) (tCfg s (tFrom s m)))).
      { destruct (Z.lt_ge_cases l m) as [L|L].
        - rewrite full_low by exact L. apply (tbW _ _ _ _ s Ht); lia.
        - rewrite full_high by lia. rewrite (tbW _ _ _ _ s Ht) by lia. rewrite (T_skew norbs X HX (tTo s l) (tTo s m)), (T_skew norbs X HX (tCfg s (tFrom s l)) (tCfg s (tFrom s m))) by auto. ring. }
      rewrite EW. rewrite (T_skew norbs X HX (tTo s l) (tTo s m)), (T_skew norbs X HX (tCfg s (tFrom s l)) (tCfg s (tFrom s m))) by auto. ring.
  - subst i. rewrite (change_left (tK s) _ _ (tFrom s) (proj1 HK) (fun l m _ _ => full_skew _ _ l m) n Fr Inj l j Hl Nj). rewrite Us by (auto; intros E; apply (Nj l Hl); now symmetry). unfold amplitudes. rewrite (cur_pending norbs n mmax s l Hs Hl).
    rewrite (cur_other norbs n mmax s j Hs Nj). rewrite (T_skew norbs X HX (tTo s l) (tCfg s j)), (T_skew norbs X HX (tCfg s (tFrom s l)) (tCfg s j)) by auto. ring.
  - subst j. rewrite (change_right (tK s) _ _ (tFrom s) (proj1 HK) (fun l m _ _ => full_skew _ _ l m) n Fr Inj i m Ni Hm). rewrite Us by (auto; intros E; apply (Ni m Hm); now symmetry). unfold amplitudes. rewrite (cur_pending norbs n mmax s m Hs Hm). ring.
  - rewrite (change_none (tK s) _ _ (tFrom s) (proj1 HK) (fun l m _ _ => full_skew _ _ l m) n Fr Inj i j Ni Nj). unfold amplitudes. rewrite !(cur_other norbs n mmax) by assumption. ring.
Qed.

Lemma W_skew s l m : full (tW s) mmax m l = Copp (full (tW s) mmax l m). Proof. apply full_skew. Qed.
(** with the central matrix, the Pfaffian of the current configuration *)
Lemma ratio_law s : shape s -> tables s -> Cmult (tPfa s) (alternate (tK s) (pf (cen_of s) (zrange 0 (2 * tK s)))) = pf (amp (cur s)) (zrange 0 n).
Proof.
  intros Hs Ht. pose proof (shK _ _ _ s Hs) as HK.
  pose proof (low_rank n (2 * tK s) (amp (tCfg s)) (full (tM s) n) (B_of s) (D_of s) (E_of s) ltac:(lia) ltac:(lia) (amp_skew _ (shCfg _ _ _ s Hs))
    (corner_skew (tK s) (fun _ _ => RtoC 0) _ (fun _ => 0) (fun l m _ _ => W_skew s l m)) (tbM _ _ _ _ s Ht) (corner_inv (tK s) (fun _ _ => RtoC 0) _ (fun _ => 0) ltac:(lia) (fun l m _ _ => W_skew s l m)) (uncorner_inv (tK s) (fun _ _ => RtoC 0) _ (fun _ => 0) ltac:(lia) (fun l m _ _ => W_skew s l m))) as E.
  unfold D_of in E at 1. rewrite (pf_corner (tK s) (fun _ _ => RtoC 0) _ (fun _ => 0) ltac:(lia) (fun l m _ _ => W_skew s l m)) in E. fold (cen_of s) in E. rewrite <- (tbPfa _ _ _ _ s Ht) in E.
  assert (E' : pf (changed (2 * tK s) (amp (tCfg s)) (B_of s) (E_of s)) (zrange 0 n) = pf (amp (cur s)) (zrange 0 n)).
  { apply (pf_ext _ _ (length (zrange 0 n))); [lia|]. intros i j Hi Hj. apply zrange_in in Hi. apply zrange_in in Hj. now apply changed_is. }
  rewrite E' in E. rewrite <- (Cmult_1_l (pf (cen_of s) _)), alternate_mult. rewrite (Cmult_comm (alternate _ _)), Cmult_assoc, <- E, <- Cmult_assoc.
  rewrite <- alternate_mult, Cmult_1_l, alternate_sq. ring.
Qed.
(** with its inverse, the inverse for the current configuration *)
Lemma merge_law s Ci : shape s -> tables s -> is_inverse (2 * tK s) Ci (cen_of s) ->
  is_inverse n (corrected n (2 * tK s) (full (tM s) n) (B_of s) Ci) (amp (cur s)).
Proof.
  intros Hs Ht HC. pose proof (shK _ _ _ s Hs) as HK.
  pose proof (woodbury n (2 * tK s) (amp (tCfg s)) (full (tM s) n) (B_of s) (D_of s) (E_of s) (amp_skew _ (shCfg _ _ _ s Hs))
    (corner_skew (tK s) (fun _ _ => RtoC 0) _ (fun _ => 0) (fun l m _ _ => W_skew s l m)) (tbM _ _ _ _ s Ht) (corner_inv (tK s) (fun _ _ => RtoC 0) _ (fun _ => 0) ltac:(lia) (fun l m _ _ => W_skew s l m)) Ci HC
    (uncorner_skew (tK s) (fun _ _ => RtoC 0) _ (fun _ => 0) (fun l m _ _ => W_skew s l m))) as (E1 & E2 & E3).
  split; [|split; [|exact E3]].
  - intros i j Hi Hj. rewrite <- (E1 i j Hi Hj). apply csum_ext. intros k Hk. apply zrange_in in Hk. now rewrite changed_is.
  - intros i j Hi Hj. rewrite <- (E2 i j Hi Hj). apply csum_ext. intros k Hk. apply zrange_in in Hk. now rewrite changed_is.
Qed.

(** ** require_q, require_umu, assemble *)
Lemma require_q_ok all s : shape s -> tables s -> let s' := require_q n all s in
  shape s' /\ tables s' /\ (if all : bool then tK s else tK s - 1) <= tNq s' /\ tK s' = tK s /\ cur s' = cur s /\ tPfa s' = tPfa s /\ tRatio s' = tRatio s /\ tCp s' = tCp s /\ tUMV s' = tUMV s /\
  tM s' = tM s /\ tFrom s' = tFrom s /\ tTo s' = tTo s /\ tCfg s' = tCfg s.
Proof.
  intros Hs Ht. unfold require_q. cbv zeta. set (kcal := if all then tK s else tK s - 1). pose proof (shK _ _ _ s Hs) as HK. pose proof (shNq _ _ _ s Hs) as HNq. assert (Hkc : kcal <= tK s) by (unfold kcal; destruct all; lia).
  destruct (Z.leb_spec kcal (tNq s)) as [L|L]; [tauto|]. set (Q := loop (tNq s) kcal _ (tQ s)).
  assert (HQ : forall i c, 0 <= i < n -> 0 <= c -> at_ Q n i c = if (tNq s <=? c) && (c <? kcal) then csum (zrange 0 n) (fun j => Cmult (full (tM s) n i j) (at_ (tU s) n j c)) else at_ (tQ s) n i c).
  { set (P := fun m Q => forall i c, 0 <= i < n -> 0 <= c -> at_ Q n i c = if (tNq s <=? c) && (c <? m) then csum (zrange 0 n) (fun j => Cmult (full (tM s) n i j) (at_ (tU s) n j c)) else at_ (tQ s) n i c).
    apply (loop_inv P (tNq s) kcal); [lia| |].
    - intros i c Hi Hc. destruct (Z.leb_spec (tNq s) c), (Z.ltb_spec c (tNq s)); cbn [andb]; (reflexivity || lia).
    - intros m Q0 Hm IH i c Hi Hc. rewrite skmv_at by (assumption || lia). rewrite IH by assumption. destruct (Z.eqb_spec c m) as [->|N].
      + destruct (Z.leb_spec (tNq s) m), (Z.ltb_spec m (m + 1)); try lia. reflexivity.
      + destruct (Z.ltb_spec c m), (Z.ltb_spec c (m + 1)); try lia; reflexivity. }
  split; [|split; [|repeat split; cbn [tNq]; lia]].
  - constructor; cbn [tK tNq tFrom tTo tCfg]; [lia|lia|apply (shCfg _ _ _ s Hs)|apply (shFr _ _ _ s Hs)|apply (shTo _ _ _ s Hs)|apply (shInj _ _ _ s Hs)].
  - constructor; cbn [tK tNq tPfa tRatio tCp tUMV tM tFrom tTo tCfg tU tQ tVMV tW].
    + apply (tbM _ _ _ _ s Ht). + apply (tbPfa _ _ _ _ s Ht).
    + intros i l Hi Hl. exact (tbU _ _ _ _ s Ht i l Hi Hl).
    + intros i o Hi Ho. rewrite HQ by lia. destruct (Z.leb_spec (tNq s) (mmax + o)), (Z.ltb_spec (mmax + o) kcal); cbn [andb]; try lia; now apply (tbP _ _ _ _ s Ht).
    + intros i l Hi Hl. rewrite HQ by lia. destruct (Z.leb_spec (tNq s) l), (Z.ltb_spec l kcal); cbn [andb]; try lia; [reflexivity|]. apply (tbQ _ _ _ _ s Ht); lia.
    + apply (tbUMV _ _ _ _ s Ht). + apply (tbVMV _ _ _ _ s Ht). + apply (tbW _ _ _ _ s Ht).
Qed.
(** require_umu, assemble and the computation of the ratio change nothing but UMU, Cp and the ratio *)
Definition same_but_work (s s' : tdi) : Prop :=
  tM s' = tM s /\ tU s' = tU s /\ tQ s' = tQ s /\ tW s' = tW s /\ tUMV s' = tUMV s /\ tVMV s' = tVMV s /\ tPfa s' = tPfa s /\
  tCfg s' = tCfg s /\ tFrom s' = tFrom s /\ tTo s' = tTo s /\ tK s' = tK s /\ tNq s' = tNq s.
Lemma same_shape s s' : same_but_work s s' -> shape s -> shape s'.
Proof. intros (E1 & E2 & E3 & E4 & E5 & E6 & E7 & E9 & E10 & E11 & E12 & E13) [H1 H2 H3 H4 H5 H6]. constructor; rewrite ?E9, ?E10, ?E11, ?E12, ?E13; assumption. Qed.
Lemma same_cur s s' : same_but_work s s' -> cur s' = cur s.
Proof. intros (E1 & E2 & E3 & E4 & E5 & E6 & E7 & E9 & E10 & E11 & E12 & E13). unfold cur. now rewrite E9, E10, E11, E12. Qed.
Lemma same_tables s s' : same_but_work s s' -> tables s -> tables s'.
Proof.
  intros HH [H1 H2 H3 H4 H5 H6 H7 H8]. pose proof (same_cur s s' HH) as EC. destruct HH as (E1 & E2 & E3 & E4 & E5 & E6 & E7 & E9 & E10 & E11 & E12 & E13).
  constructor; unfold seen; rewrite ?EC, ?E1, ?E2, ?E3, ?E4, ?E5, ?E6, ?E7, ?E9, ?E10, ?E11, ?E12, ?E13; assumption.
Qed.
Lemma same_cen s s' : same_but_work s s' -> cen_of s' = cen_of s.
Proof. intros (E1 & E2 & E3 & E4 & E5 & E6 & E7 & E9 & E10 & E11 & E12 & E13). unfold cen_of, B_of, D_of. now rewrite E1, E2, E4, E10, E12. Qed.
Lemma work_same s : same_but_work s (assemble mmax (require_umu n mmax s)). Proof. repeat split. Qed.

Lemma umu_at s l o : shape s -> tables s -> tK s - 1 <= tNq s -> 0 <= l < o -> o < tK s ->
  at_ (tUMU (require_umu n mmax s)) mmax l o = csum (zrange 0 n) (fun i => Cmult (at_ (tU s) n i l) (csum (zrange 0 n) (fun j => Cmult (full (tM s) n i j) (at_ (tU s) n j o)))).
Proof.
  intros Hs Ht HNq Hl Ho. pose proof (shK _ _ _ s Hs) as HK. unfold require_umu. cbv zeta. cbn [tUMU].
  rewrite (loop_cells2 mmax 0 0 (tK s) (fun _ => 0) (fun o => o) _ (fun l o _ => Copp (dot n (tU s) (o * n) (tQ s) (l * n)))); [|lia|lia|lia|intros i j B0 _ _; now rewrite !Z.add_0_r|lia].
  rewrite !Z.sub_0_r. destruct (Z.leb_spec 0 o), (Z.ltb_spec o (tK s)), (Z.leb_spec 0 l), (Z.ltb_spec l o); cbn [andb]; try lia. rewrite dot_at.
  rewrite <- csum_opp. rewrite (csum_ext _ _ (fun i => csum (zrange 0 n) (fun j => Cmult (Cmult (at_ (tU s) n j l) (full (tM s) n j i)) (at_ (tU s) n i o)))).
  - rewrite csum_swap. apply csum_ext. intros j _. rewrite <- csum_scal. apply csum_ext. intros i _. ring.
  - intros i Hi. apply zrange_in in Hi. rewrite (tbQ _ _ _ _ s Ht) by lia.
    transitivity (csum (zrange 0 n) (fun j => Cmult (Copp (at_ (tU s) n i o)) (Cmult (full (tM s) n i j) (at_ (tU s) n j l)))); [rewrite csum_scal; ring|].
    apply csum_ext. intros j _. rewrite (full_skew _ _ j i). ring.
Qed.
(** the central matrix *)
Lemma assembled_at s a b : shape s -> tables s -> tK s - 1 <= tNq s -> 0 <= a < 2 * tK s -> 0 <= b < 2 * tK s ->
  full (tCp (assemble mmax (require_umu n mmax s))) (2 * mmax) a b = cen_of s a b.
Proof.
  intros Hs Ht HNq Ha Hb. pose proof (shK _ _ _ s Hs) as HK. set (k := tK s) in *. set (s1 := require_umu n mmax s). assert (E1 : tK s1 = k) by reflexivity.
  set (Cp := tCp (assemble mmax s1)).
  assert (R : forall r c, 0 <= r < 2 * mmax -> at_ Cp (2 * mmax) r c =
    if (0 <=? c - k) && (c - k <? k) && (0 <=? r - k) && (r - k <? c - k) then at_ (tVMV s) mmax (r - k) (c - k)
    else if (0 <=? c - k) && (c - k <? k) && (0 <=? r) && (r <? k) then Cminus (at_ (tUMV s) mmax r (c - k)) (kron r (c - k))
    else if (0 <=? c) && (c <? k) && (0 <=? r) && (r <? c) then Cplus (at_ (tW s) mmax r c) (at_ (tUMU s1) mmax r c) else at_ (tCp s) (2 * mmax) r c).
  { intros r c Hr. unfold Cp, assemble. cbv zeta. cbn [tCp]. fold k. rewrite E1.
    rewrite (loop_cells2 (2 * mmax) k k k (fun _ => 0) (fun j => j) _ (fun i j _ => at_ (tVMV s1) mmax i j)); [|lia|lia|lia|reflexivity|lia].
    match goal with |- (if ?b then _ else _) = _ => destruct b; [reflexivity|] end.
    set (C1 := loop 0 k (fun j Cp => loop 0 j _ Cp) (tCp s1)).
    assert (G : at_ (loop 0 k (fun j Cp0 => let Cp1 := loop 0 k (fun i Cp1 => put Cp1 (2 * mmax) i (j + k) (at_ (tUMV s1) mmax i j)) Cp0 in put Cp1 (2 * mmax) j (j + k) (Cminus (at_ Cp1 (2 * mmax) j (j + k)) (RtoC 1))) C1) (2 * mmax) r c =
      if (0 <=? c - k) && (c - k <? k) && (0 <=? r) && (r <? k) then Cminus (at_ (tUMV s) mmax r (c - k)) (kron r (c - k)) else at_ C1 (2 * mmax) r c).
    { set (P := fun m B => forall r c, 0 <= r < 2 * mmax -> at_ B (2 * mmax) r c = if (0 <=? c - k) && (c - k <? m) && (0 <=? r) && (r <? k) then Cminus (at_ (tUMV s) mmax r (c - k)) (kron r (c - k)) else at_ C1 (2 * mmax) r c).
      match goal with |- at_ (loop 0 k ?f C1) _ _ _ = _ => assert (G : P k (loop 0 k f C1)) end; [|now apply G]. apply (loop_inv P); [lia| |].
      - intros r0 c0 Hr0. destruct (Z.leb_spec 0 (c0 - k)), (Z.ltb_spec (c0 - k) 0); cbn [andb]; (reflexivity || lia).
      - intros j B Hj IH r0 c0 Hr0. cbv zeta. set (B1 := loop 0 k (fun i Cp1 => put Cp1 (2 * mmax) i (j + k) (at_ (tUMV s1) mmax i j)) B).
        assert (H1 : forall r c, 0 <= r < 2 * mmax -> at_ B1 (2 * mmax) r c = if (c =? j + k) && (0 <=? r) && (r <? k) then at_ (tUMV s) mmax r j else at_ B (2 * mmax) r c).
        { intros r1 c1 Hr1. unfold B1. rewrite (loop_column (2 * mmax) 0 k (j + k) _ (fun i _ => at_ (tUMV s1) mmax i j)); [reflexivity|lia|lia|reflexivity|reflexivity|lia]. }
        rewrite at_put by lia. rewrite !H1 by lia. rewrite Z.eqb_refl. rewrite (IH r0 c0) by lia. destruct (Z.leb_spec 0 j), (Z.ltb_spec j k), (Z.leb_spec 0 r0); try lia. cbn [andb].
        destruct (Z.eqb_spec c0 (j + k)) as [->|Nc].
        + replace (j + k - k) with j by lia. destruct (Z.leb_spec 0 j), (Z.ltb_spec j (j + 1)), (Z.ltb_spec j j); try lia. cbn [andb]. unfold kron. rewrite andb_true_r. destruct (Z.eqb_spec r0 j) as [->|].
          * destruct (Z.ltb_spec j k); [reflexivity|lia]. * destruct (Z.ltb_spec r0 k); [unfold Cminus; rewrite Copp_0, Cplus_0_r; reflexivity|reflexivity].
        + rewrite andb_false_r. cbn [andb]. destruct (Z.ltb_spec (c0 - k) j), (Z.ltb_spec (c0 - k) (j + 1)); try lia; reflexivity. }
    cbv zeta in G. rewrite G. match goal with |- (if ?b then _ else _) = _ => destruct b; [reflexivity|] end.
    unfold C1. rewrite (loop_cells2 (2 * mmax) 0 0 k (fun _ => 0) (fun j => j) _ (fun i j _ => Cplus (at_ (tW s1) mmax i j) (at_ (tUMU s1) mmax i j))); [|lia|lia|lia|intros i j B0 _ _; now rewrite !Z.add_0_r|lia].
    rewrite !Z.sub_0_r. reflexivity. }
  assert (Low : forall a b, 0 <= a < b -> b < 2 * k -> at_ Cp (2 * mmax) a b = cen_of s a b).
  { clear a b Ha Hb. intros a b Ha Hb. rewrite R by lia. unfold cen_of, B_of, D_of. pose proof (shFr _ _ _ s Hs) as Fr. pose proof (shInj _ _ _ s Hs) as Inj. fold k in Fr, Inj. fold k.
    destruct (halves k (at_ (tU s) n) (full (tW s) mmax) (tFrom s) (fun l m _ _ => full_skew _ _ l m) b ltac:(lia)) as [(B1 & B2)|(b' & -> & Hb')].
    - destruct (Z.leb_spec 0 (b - k)); [lia|]. cbn [andb]. destruct (Z.leb_spec 0 b), (Z.ltb_spec b k), (Z.leb_spec 0 a), (Z.ltb_spec a b); try lia. cbn [andb].
      rewrite (central_uu k _ _ _ (fun l m _ _ => full_skew _ _ l m) n Fr Inj) by lia. rewrite full_low by lia. f_equal. apply umu_at; try assumption; lia.
    - replace (k + b' - k) with b' by lia. destruct (Z.leb_spec 0 b'), (Z.ltb_spec b' k); try lia. cbn [andb].
      destruct (halves k (at_ (tU s) n) (full (tW s) mmax) (tFrom s) (fun l m _ _ => full_skew _ _ l m) a ltac:(lia)) as [(A1 & A2)|(a' & -> & Ha')].
      + destruct (Z.leb_spec 0 (a - k)); [lia|]. cbn [andb]. destruct (Z.leb_spec 0 a), (Z.ltb_spec a k); try lia. cbn [andb].
        rewrite (central_uv k _ _ _ (fun l m _ _ => full_skew _ _ l m) n Fr Inj) by lia. f_equal. apply (tbUMV _ _ _ _ s Ht); lia.
      + replace (k + a' - k) with a' by lia. destruct (Z.leb_spec 0 a'), (Z.ltb_spec a' b'); try lia. cbn [andb].
        rewrite (central_vv k _ _ _ (fun l m _ _ => full_skew _ _ l m) n Fr Inj) by lia. apply (tbVMV _ _ _ _ s Ht); lia. }
  assert (Sk : forall a b, 0 <= a < 2 * k -> 0 <= b < 2 * k -> cen_of s b a = Copp (cen_of s a b)).
  { intros a0 b0 Ha0 Hb0. apply (central_skew n (2 * k) (amp (tCfg s))); [|apply (tbM _ _ _ _ s Ht)|assumption..]. apply (corner_skew k (fun _ _ => RtoC 0) _ (fun _ => 0)). intros; apply full_skew. }
  destruct (Z.lt_trichotomy a b) as [L|[<-|L]].
  - rewrite full_low by exact L. apply Low; lia.
  - rewrite full_diag. pose proof (Sk a a Ha Ha) as E. symmetry. assert (D : Cplus (cen_of s a a) (cen_of s a a) = RtoC 0) by (rewrite E at 1; ring). destruct (cen_of s a a) as (x, y). unfold Cplus, RtoC in *. cbn in D. injection D as D1 D2. f_equal; Lra.lra.
  - rewrite full_high by exact L. rewrite (Sk b a) by assumption. f_equal. apply Low; lia.
Qed.
End Ratio.
