From Coq Require Import ZArith List Bool Reals Lia.
From Verif Require Import Base.ZLoop Orb.Model Orb.Spec.
Import ListNotations.
Local Open Scope Z_scope.

Definition put1 (e : entry) (t : tables) : tables := let '(a, b, k, s) := e in set_cell a b k (sign_value s) t.
Definition put2 (e : entry) (t : tables) : tables := let '(a, b, k, s) := e in set_both a b k (sign_value s) t.
Definition cells1 (E : list entry) (t : tables) : tables := fold_left (fun t e => put1 e t) E t.
Definition cells2 (E : list entry) (t : tables) : tables := fold_left (fun t e => put2 e t) E t.
Definition ordered (E : list entry) : Prop := forall x y k s, In (x, y, k, s) E -> x < y.

Lemma cells1_is E t x y : (exists k s, In (x, y, k, s) E /\ Idx (cells1 E t) x y = k /\ Sgn (cells1 E t) x y = sign_value s) \/
  ((forall k s, ~ In (x, y, k, s) E) /\ Idx (cells1 E t) x y = Idx t x y /\ Sgn (cells1 E t) x y = Sgn t x y).
Proof.
  induction E as [|e E IH] using rev_ind; [right; cbn; tauto|]. unfold cells1 in *. rewrite fold_left_app. cbn [fold_left].
  set (t' := fold_left _ E t) in *. destruct e as (((a, b), k), s). cbn [put1 set_cell Idx Sgn].
  destruct (Z.eqb_spec x a) as [->|Hx]; [destruct (Z.eqb_spec y b) as [->|Hy]|]; cbn [andb].
  - left. exists k, s. split; [apply in_or_app; right; now left|]. split; reflexivity.
  - destruct IH as [(k' & s' & I & E1 & E2)|(I & E1 & E2)]; [left; exists k', s'; split; [apply in_or_app; now left|tauto]|right].
    split; [|tauto]. intros k' s' J. apply in_app_or in J. destruct J as [J|[J|[]]]; [exact (I _ _ J)|]. injection J as -> _ _. tauto.
  - destruct IH as [(k' & s' & I & E1 & E2)|(I & E1 & E2)]; [left; exists k', s'; split; [apply in_or_app; now left|tauto]|right].
    split; [|tauto]. intros k' s' J. apply in_app_or in J. destruct J as [J|[J|[]]]; [exact (I _ _ J)|]. injection J as -> _ _ _. tauto.
Qed.
(** both kinds of tables hold the same at x < y, the second also the opposite at (y, x) *)
Lemma cells2_is E t t' x y : ordered E -> x < y ->
  let c := cells1 E t in let d := cells2 E t' in
  (exists k s, In (x, y, k, s) E) -> Idx d x y = Idx c x y /\ Sgn d x y = Sgn c x y /\ Idx d y x = Idx c x y /\ Sgn d y x = - Sgn c x y.
Proof.
  intros HO Hxy c d. subst c d. induction E as [|e E IH] using rev_ind; [intros (? & ? & [])|].
  assert (HO' : ordered E) by (intros ? ? ? ? I; apply (HO _ _ _ _ (in_or_app _ _ _ (or_introl I)))).
  intros (k0 & s0 & I0). unfold cells1, cells2 in *. rewrite !fold_left_app. cbn [fold_left].
  set (c := fold_left _ E t) in *. set (d := fold_left _ E t') in *. destruct e as (((a, b), k), s).
  assert (Hab : a < b) by (apply (HO a b k s); apply in_or_app; right; now left).
  cbn [put1 put2]. unfold set_both. cbn [set_cell Idx Sgn].
  destruct (Z.eqb_spec x a) as [->|Hx]; [destruct (Z.eqb_spec y b) as [->|Hy]|].
  - rewrite ?Z.eqb_refl. cbn [andb]. destruct (Z.eqb_spec a b); [lia|]. cbn [andb]. repeat split; reflexivity.
  - destruct (Z.eqb_spec a b); [lia|]. destruct (Z.eqb_spec y a); [lia|]. cbn [andb].
    replace ((y =? b) && (a =? a)) with false by (destruct (Z.eqb_spec y b); [tauto|reflexivity]).
    apply (IH HO'). apply in_app_or in I0. destruct I0 as [I0|[I0|[]]]; [now exists k0, s0|]. injection I0 as <- _ _. tauto.
  - cbn [andb]. replace ((x =? b) && (y =? a)) with false by (destruct (Z.eqb_spec x b); destruct (Z.eqb_spec y a); try reflexivity; lia).
    rewrite ?andb_false_r.
    replace ((y =? a) && (x =? b)) with false by (destruct (Z.eqb_spec x b); destruct (Z.eqb_spec y a); try reflexivity; lia).
    apply (IH HO'). apply in_app_or in I0. destruct I0 as [I0|[I0|[]]]; [now exists k0, s0|]. injection I0 as <- _ _ _. tauto.
Qed.

Lemma cells2_other E t x y : (forall k s, ~ In (x, y, k, s) E /\ ~ In (y, x, k, s) E) -> Idx (cells2 E t) x y = Idx t x y /\ Sgn (cells2 E t) x y = Sgn t x y.
Proof.
  induction E as [|e E IH] using rev_ind; intros H; [split; reflexivity|]. unfold cells2 in *. rewrite !fold_left_app. cbn [fold_left]. set (d := fold_left _ E t) in *.
  destruct e as (((a, b), k), s). cbn [put2]. unfold set_both. cbn [set_cell Idx Sgn]. destruct (H k s) as (H1 & H2).
  replace ((x =? b) && (y =? a)) with false.
  2:{ destruct (Z.eqb_spec x b) as [->|]; [destruct (Z.eqb_spec y a) as [->|]; [|reflexivity]|reflexivity]. destruct H2. apply in_or_app. right. now left. }
  replace ((x =? a) && (y =? b)) with false.
  2:{ destruct (Z.eqb_spec x a) as [->|]; [destruct (Z.eqb_spec y b) as [->|]; [|reflexivity]|reflexivity]. destruct H1. apply in_or_app. right. now left. }
  apply IH. intros k' s'. destruct (H k' s') as (G1 & G2). split; intros I; [apply G1|apply G2]; apply in_or_app; now left.
Qed.
(** signs *)
Lemma sticky_is {A} (put : A -> Z -> tables -> tables) (f : A -> option Z) (ap : bool) rows :
  (ap = true /\ forall r, In r rows -> f r = Some 1 \/ f r = Some (-1)) \/ (forall r, In r rows -> f r = Some 1 \/ f r = None) ->
  forall t, sticky put f rows t = fold_left (fun t r => put r (sign_value (f r)) t) rows t.
Proof.
  intros H t. unfold sticky.
  assert (G : forall rows last t, ((ap = true /\ forall r, In r rows -> f r = Some 1 \/ f r = Some (-1)) \/ (last = 1 /\ forall r, In r rows -> f r = Some 1 \/ f r = None)) ->
    fst (fold_left (fun (st : tables * Z) r => let '(t, last) := st in let s := with_default last (f r) in (put r s t, s)) rows (t, last)) = fold_left (fun t r => put r (sign_value (f r)) t) rows t).
  { clear. induction rows as [|r rows IH]; intros last t H; cbn [fold_left]; [reflexivity|].
    destruct H as [(Ha & H)|(-> & H)].
    - replace (with_default last (f r)) with (sign_value (f r)) by (destruct (H r (or_introl eq_refl)) as [-> | ->]; reflexivity).
      apply IH. left. split; [exact Ha|]. intros r' I. apply H. now right.
    - replace (with_default 1 (f r)) with (sign_value (f r)) by reflexivity. apply IH. right.
      split; [destruct (H r (or_introl eq_refl)) as [-> | ->]; reflexivity|]. intros r' I. apply H. now right. }
  apply G. destruct H as [H|H]; [now left|right; now split].
Qed.
Lemma fold_left_map {A B C} (f : C -> B -> C) (g : A -> B) l c : fold_left (fun c a => f c (g a)) l c = fold_left f (map g l) c.
Proof. revert c. induction l as [|a l IH]; intros c; cbn; [reflexivity|apply IH]. Qed.
Lemma fold_left_flat_map {A B C} (f : C -> B -> C) (g : A -> list B) l c : fold_left (fun c a => fold_left f (g a) c) l c = fold_left f (flat_map g l) c.
Proof. revert c. induction l as [|a l IH]; intros c; cbn; [reflexivity|]. rewrite fold_left_app. apply IH. Qed.
Lemma fold_left_ext_in {A C} (f g : C -> A -> C) l : (forall a c, In a l -> f c a = g c a) -> forall c, fold_left f l c = fold_left g l c.
Proof. induction l as [|a l IH]; intros H c; cbn; [reflexivity|]. rewrite H by now left. apply IH. intros; apply H; now right. Qed.

(** ** the tables of the two programs agree on the pairs x < y *)
Definition agree (n m : Z) (l : list entry) (U M : tables) : Prop :=
  forall x y, 0 <= x < y -> y < n ->
    (exists s, In (x, y, Idx U x y, s) l /\ Sgn U x y = sign_value s) /\ 0 <= Idx U x y < m /\
    Idx M x y = Idx U x y /\ Sgn M x y = Sgn U x y /\ Idx M y x = Idx U x y /\ Sgn M y x = - Sgn U x y.

Lemma agree_reset n m l U M ap inside : agree n m l U M -> signs_ok ap l -> (forall x y, inside x y = true -> x < y) -> agree n m l U (reset ap inside M).
Proof.
  intros H HS HI x y Hx Hy. destruct (H x y Hx Hy) as ((s & I & Es) & Hk & E1 & E2 & E3 & E4).
  split; [now exists s|]. split; [exact Hk|]. unfold reset. destruct ap; [tauto|]. cbn [Idx Sgn].
  destruct HS as [(Ef & _)|HS]; [discriminate|]. assert (Es1 : Sgn U x y = 1) by (rewrite Es; destruct (HS _ I) as [Q|Q]; cbn [snd] in Q; rewrite Q; reflexivity).
  assert (Iyx : inside y x = false) by (destruct (inside y x) eqn:Q; [apply HI in Q; lia|reflexivity]). rewrite Iyx.
  repeat split; try assumption; destruct (inside x y); lia.
Qed.

Lemma check_site_ok Ns i : site Ns i -> check_site i Ns = true.
Proof. unfold site, check_site. intros. destruct (Z.leb_spec Ns i), (Z.ltb_spec i 0); try lia; reflexivity. Qed.
Lemma check_pair_ok Ns i j : site Ns i -> site Ns j -> check_pair_site i j Ns = true.
Proof. intros. unfold check_pair_site. now rewrite !check_site_ok. Qed.
Lemma firstn_exact {A} n (l : list A) : Z.of_nat (length l) = n -> firstn (Z.to_nat n) l = l.
Proof. intros <-. rewrite Nat2Z.id. apply firstn_all. Qed.

Lemma general_tables Ns n ap rows : general_file Ns n rows -> signs_ok ap (map (general_entry Ns) rows) -> exists U M,
  uhf_general Ns rows = Some U /\ main_general Ns ap rows = Some M /\ agree (2 * Ns) n (map (general_entry Ns) rows) U M /\
  (forall x y, y <= x -> Idx U x y = -1).
Proof.
  intros (HL & HR & HC) HS. set (E := map (general_entry Ns) rows) in *.
  assert (HO : ordered E).
  { intros x y k s I. apply in_map_iff in I. destruct I as ((((((i, si), j), sj), k'), s') & Q & I). cbn in Q. injection Q as <- <- <- <-. destruct (HR _ _ _ _ _ _ I) as (_ & _ & _ & _ & H & _). exact H. }
  assert (HK : forall x y k s, In (x, y, k, s) E -> 0 <= k < n).
  { intros x y k s I. apply in_map_iff in I. destruct I as ((((((i, si), j), sj), k'), s') & Q & I). cbn in Q. injection Q as <- <- <- <-. destruct (HR _ _ _ _ _ _ I) as (_ & _ & _ & _ & _ & H). exact H. }
  exists (cells1 E (uhf_fresh Ns true)), (reset ap (fun x y => (0 <=? x) && (x <? y) && (y <? 2 * Ns)) (cells2 E main_fresh)).
  split; [|split; [|split]].
  - unfold uhf_general. rewrite (firstn_exact _ rows HL), HL, Z.eqb_refl. f_equal. unfold cells1, E.
    rewrite <- (fold_left_map (fun t e => put1 e t) (general_entry Ns)). apply fold_left_ext_in. intros (((((i, si), j), sj), k), s) t _. cbn. now rewrite !(Z.mul_comm Ns).
  - unfold main_general. rewrite (firstn_exact (2 * Ns * Ns - Ns) rows) by lia.
    replace (forallb _ rows) with true.
    2:{ symmetry. apply forallb_forall. intros (((((i, si), j), sj), k), s) I. destruct (HR _ _ _ _ _ _ I) as (H1 & H2 & _ & _ & H3 & _).
        rewrite check_pair_ok by assumption. destruct (Z.ltb_spec (i + si * Ns) (j + sj * Ns)); [reflexivity|lia]. }
    replace (Z.of_nat (length rows) =? 2 * Ns * Ns - Ns) with true by (symmetry; apply Z.eqb_eq; lia). cbn [andb]. f_equal. f_equal.
    rewrite (sticky_is _ _ ap).
    + unfold cells2, E. rewrite <- (fold_left_map (fun t e => put2 e t) (general_entry Ns)). apply fold_left_ext_in. intros (((((i, si), j), sj), k), s) t _. reflexivity.
    + assert (Q : forall (p : option Z -> Prop), (forall e, In e E -> p (snd e)) -> forall r : grow, In r rows -> p (snd r)).
      { intros p Hp r I. specialize (Hp (general_entry Ns r) (in_map _ _ _ I)). destruct r as (((((i, si), j), sj), k), s). exact Hp. }
      destruct HS as [(Ha & HS)|HS]; [left; split; [exact Ha|]|right]; [exact (Q (fun s => s = Some 1 \/ s = Some (-1)) HS)|exact (Q (fun s => s = Some 1 \/ s = None) HS)].
  - apply agree_reset; [|exact HS|].
    + intros x y Hx Hy. destruct (HC x y Hx Hy) as (k0 & s0 & I0).
      destruct (cells2_is E (uhf_fresh Ns true) main_fresh x y HO ltac:(lia) ltac:(now exists k0, s0)) as (E1 & E2 & E3 & E4).
      destruct (cells1_is E (uhf_fresh Ns true) x y) as [(k & s & I & Q1 & Q2)|(Q & _)]; [|destruct (Q _ _ I0)].
      rewrite Q1 in *. rewrite Q2 in *. split; [now exists s|]. split; [exact (HK _ _ _ _ I)|]. tauto.
    + intros x y Q. destruct (Z.ltb_spec x y); [assumption|]. rewrite andb_false_r in Q. discriminate.
  - intros x y Hxy. destruct (cells1_is E (uhf_fresh Ns true) x y) as [(k & s & I & _)|(_ & Q & _)]; [apply HO in I; lia|]. rewrite Q. reflexivity.
Qed.

Lemma half_pairs m Ns : 2 * m = Ns * (Ns - 1) -> Ns * (Ns - 1) / 2 = m.
Proof. intros H. rewrite <- H. rewrite Z.mul_comm. now rewrite Z.div_mul. Qed.
Lemma ap_p_tables Ns nap np flag ap p : 0 <= Ns -> 0 <= nap -> 0 <= np -> ap_file Ns nap ap -> p_file Ns np p -> signs_ok flag (ap_p_entries Ns nap ap p) -> exists U M,
  uhf_ap_p Ns nap ap p = Some U /\ main_ap_p Ns flag nap ap p = Some M /\ agree (2 * Ns) (nap + 2 * np) (ap_p_entries Ns nap ap p) U M /\
  (forall i j, site Ns i -> site Ns j -> 0 <= Idx U i (j + Ns) < nap) /\
  (forall i j s, 0 <= i < j -> j < Ns -> s = 0 \/ s = 1 -> nap <= Idx U (i + s * Ns) (j + s * Ns)).
Proof.
  intros HN Hn Hp (AL & AR & AC) (PL & PR & PC) HS. set (E := ap_p_entries Ns nap ap p) in *. set (EA := map (ap_entry Ns) ap). set (EP := flat_map (p_entries Ns nap) p).
  assert (IA : forall x y k s, In (x, y, k, s) EA -> exists i j, x = i /\ y = j + Ns /\ In (i, j, k, s) ap).
  { intros x y k s I. apply in_map_iff in I. destruct I as ((((i, j), k'), s') & Q & I). cbn in Q. injection Q as <- <- <- <-. now exists i, j. }
  assert (IP : forall x y k s, In (x, y, k, s) EP -> exists i j k' sp, (sp = 0 \/ sp = 1) /\ x = i + sp * Ns /\ y = j + sp * Ns /\ k = nap + 2 * k' + sp /\ In (i, j, k', s) p).
  { intros x y k s I. apply in_flat_map in I. destruct I as ((((i, j), k'), s') & I & [Q|[Q|[]]]); injection Q as <- <- <- <-; exists i, j, k'; [exists 0|exists 1]; (split; [lia|]; split; [lia|]; split; [lia|]; split; [destruct k'; lia|exact I]). }
  assert (HO : ordered E).
  { intros x y k s I. apply in_app_or in I. destruct I as [I|I].
    - destruct (IA _ _ _ _ I) as (i & j & -> & -> & J). destruct (AR _ _ _ _ J) as (H1 & H2 & _). unfold site in *. lia.
    - destruct (IP _ _ _ _ I) as (i & j & k' & sp & Hsp & -> & -> & _ & J). destruct (PR _ _ _ _ J) as (H1 & H2 & _). lia. }
  assert (HK : forall x y k s, In (x, y, k, s) E -> 0 <= k < nap + 2 * np).
  { intros x y k s I. apply in_app_or in I. destruct I as [I|I].
    - destruct (IA _ _ _ _ I) as (i & j & -> & -> & J). destruct (AR _ _ _ _ J) as (_ & _ & H). lia.
    - destruct (IP _ _ _ _ I) as (i & j & k' & sp & Hsp & -> & -> & -> & J). destruct (PR _ _ _ _ J) as (_ & _ & H). lia. }
  assert (HC : forall x y, 0 <= x < y -> y < 2 * Ns -> exists k s, In (x, y, k, s) E).
  { intros x y Hx Hy. destruct (Z_lt_ge_dec y Ns); [|destruct (Z_lt_ge_dec x Ns)].
    - destruct (PC x y Hx ltac:(lia)) as (k & s & I). exists (nap + 2 * k), s. apply in_or_app. right. apply in_flat_map. exists (x, y, k, s). split; [exact I|now left].
    - destruct (AC x (y - Ns) ltac:(unfold site; lia) ltac:(unfold site; lia)) as (k & s & I). exists k, s. apply in_or_app. left. apply in_map_iff. exists (x, y - Ns, k, s). split; [cbn; f_equal; f_equal; f_equal; lia|exact I].
    - destruct (PC (x - Ns) (y - Ns) ltac:(lia) ltac:(lia)) as (k & s & I). exists (nap + 2 * k + 1), s. apply in_or_app. right. apply in_flat_map. exists (x - Ns, y - Ns, k, s). split; [exact I|right; left; cbn; f_equal; f_equal; f_equal; lia]. }
  assert (SA : signs_ok flag EA) by (destruct HS as [(Ha & HS)|HS]; [left; split; [exact Ha|]|right]; intros e I; apply HS; apply in_or_app; now left).
  assert (SP : signs_ok flag EP) by (destruct HS as [(Ha & HS)|HS]; [left; split; [exact Ha|]|right]; intros e I; apply HS; apply in_or_app; now right).
  assert (CA : forallb (fun r : row => let '(i, j, _, _) := r in check_pair_site i j Ns) ap = true).
  { apply forallb_forall. intros (((i, j), k), s) I. destruct (AR _ _ _ _ I) as (H1 & H2 & _). now apply check_pair_ok. }
  assert (CP : forallb (fun r : row => let '(i, j, _, _) := r in check_pair_site i j Ns) p = true).
  { apply forallb_forall. intros (((i, j), k), s) I. destruct (PR _ _ _ _ I) as (H1 & H2 & _). apply check_pair_ok; unfold site; lia. }
  set (in1 := fun x y => check_site x Ns && (Ns <=? y) && (y <? 2 * Ns)).
  set (in2 := fun x y => ((0 <=? x) && (x <? y) && (y <? Ns)) || ((Ns <=? x) && (x <? y) && (y <? 2 * Ns))).
  exists (cells2 E (uhf_fresh Ns true)), (reset flag in2 (cells2 EP (reset flag in1 (cells2 EA main_fresh)))).
  assert (FP : forall t, fold_left (fun t (r : row) => let '(i, j, k, s) := r in loop 0 2 (fun sp t => set_both (i + sp * Ns) (j + sp * Ns) (nap + 2 * k + sp) (sign_value s) t) t) p t = cells2 EP t).
  { intros t. unfold cells2, EP. rewrite <- (fold_left_flat_map (fun t e => put2 e t) (p_entries Ns nap)). apply fold_left_ext_in. intros (((i, j), k), s) t' _.
    unfold loop. change (zrange 0 2) with [0; 1]. cbn [fold_left p_entries put2]. rewrite !Z.mul_0_l, !Z.mul_1_l, !Z.add_0_r. reflexivity. }
  assert (FA : forall t, fold_left (fun t (r : row) => let '(i, j, k, s) := r in set_both (i + 0 * Ns) (j + 1 * Ns) k (sign_value s) t) ap t = cells2 EA t).
  { intros t. unfold cells2, EA. rewrite <- (fold_left_map (fun t e => put2 e t) (ap_entry Ns)). apply fold_left_ext_in. intros (((i, j), k), s) t' _.
    cbn [ap_entry put2]. rewrite !Z.mul_0_l, !Z.mul_1_l, !Z.add_0_r. reflexivity. }
  assert (UA : forall x y, 0 <= x < y -> y < 2 * Ns -> exists s, In (x, y, Idx (cells2 E (uhf_fresh Ns true)) x y, s) E /\ Sgn (cells2 E (uhf_fresh Ns true)) x y = sign_value s).
  { intros x y Hx Hy. destruct (HC x y Hx Hy) as (k0 & s0 & I0).
    destruct (cells2_is E (uhf_fresh Ns true) (uhf_fresh Ns true) x y HO ltac:(lia) ltac:(now exists k0, s0)) as (E1 & E2 & _).
    destruct (cells1_is E (uhf_fresh Ns true) x y) as [(k & s & I & Q1 & Q2)|(Q & _)]; [|destruct (Q _ _ I0)].
    rewrite E1, E2, Q1, Q2. now exists s. }
  split; [|split; [|split; [|split]]].
  - unfold uhf_ap_p, uhf_ap_general, uhf_p. rewrite (firstn_exact (Ns * Ns) ap AL), (half_pairs _ _ PL), (firstn_exact _ p eq_refl), CA, CP. f_equal.
    etransitivity; [exact (FP _)|]. unfold E, ap_p_entries, cells2 at 1. fold EA EP. unfold cells2. rewrite fold_left_app. f_equal. exact (FA _).
  - unfold main_ap_p, main_ap_general, main_p. rewrite (firstn_exact (Ns * Ns) ap AL), (half_pairs _ _ PL), (firstn_exact _ p eq_refl), CA, CP, AL, PL, !Z.eqb_refl.
    replace (forallb (fun r : row => let '(i, j, _, _) := r in i + 0 * Ns <? j + 1 * Ns) ap) with true.
    2:{ symmetry. apply forallb_forall. intros (((i, j), k), s) I. destruct (AR _ _ _ _ I) as (H1 & H2 & _). unfold site in *. apply Z.ltb_lt. lia. }
    replace (forallb (fun r : row => let '(i, j, _, _) := r in i <? j) p) with true.
    2:{ symmetry. apply forallb_forall. intros (((i, j), k), s) I. destruct (PR _ _ _ _ I) as (H1 & H2 & _). apply Z.ltb_lt. lia. }
    cbn [andb]. fold in1 in2. f_equal. f_equal.
    rewrite (sticky_is _ _ flag).
    2:{ assert (Q : forall (q : option Z -> Prop), (forall e, In e EP -> q (snd e)) -> forall r : row, In r p -> q (row_sign r)).
        { intros q Hq (((i, j), k), s) I. apply (Hq (i, j, nap + 2 * k, s)). apply in_flat_map. exists (i, j, k, s). split; [exact I|now left]. }
        destruct SP as [(Ha & SP)|SP]; [left; split; [exact Ha|]|right]; [exact (Q (fun s => s = Some 1 \/ s = Some (-1)) SP)|exact (Q (fun s => s = Some 1 \/ s = None) SP)]. }
    rewrite (sticky_is _ _ flag).
    2:{ assert (Q : forall (q : option Z -> Prop), (forall e, In e EA -> q (snd e)) -> forall r : row, In r ap -> q (row_sign r)).
        { intros q Hq (((i, j), k), s) I. apply (Hq (i, j + Ns, k, s)). apply in_map_iff. exists (i, j, k, s). now split. }
        destruct SA as [(Ha & SA)|SA]; [left; split; [exact Ha|]|right]; [exact (Q (fun s => s = Some 1 \/ s = Some (-1)) SA)|exact (Q (fun s => s = Some 1 \/ s = None) SA)]. }
    rewrite <- FP, <- FA.
    match goal with |- fold_left _ p (reset flag in1 ?a) = fold_left _ p (reset flag in1 ?b) => replace a with b by (apply fold_left_ext_in; intros (((? & ?) & ?) & ?) ? _; reflexivity) end.
    apply fold_left_ext_in. intros (((i, j), k), s) t' _. reflexivity.
  - assert (U2 : cells2 E (uhf_fresh Ns true) = cells2 EP (cells2 EA (uhf_fresh Ns true))) by (unfold E, ap_p_entries, cells2; now rewrite fold_left_app).
    assert (HOA : ordered EA) by (intros ? ? ? ? I; apply (HO _ _ _ _ (in_or_app EA EP _ (or_introl I)))).
    assert (HOP : ordered EP) by (intros ? ? ? ? I; apply (HO _ _ _ _ (in_or_app EA EP _ (or_intror I)))).
    apply agree_reset; [|exact HS|].
    + intros x y Hx Hy. destruct (UA x y Hx Hy) as (s & I & Es). split; [now exists s|]. split; [exact (HK _ _ _ _ I)|]. rewrite U2 in *.
      apply in_app_or in I. fold EA EP in I. destruct I as [I|I].
      * assert (X : x < Ns <= y) by (destruct (IA _ _ _ _ I) as (i & j & -> & -> & J); destruct (AR _ _ _ _ J) as (H1 & H2 & _); unfold site in *; lia).
        assert (Z1 : forall k s, ~ In (x, y, k, s) EP /\ ~ In (y, x, k, s) EP).
        { intros k' s'. split; intros J; destruct (IP _ _ _ _ J) as (i & j & k'' & sp & Hsp & Q1 & Q2 & _ & J'); destruct (PR _ _ _ _ J') as (G1 & G2 & _); destruct Hsp as [-> | ->]; lia. }
        assert (Z2 : forall k s, ~ In (y, x, k, s) EP /\ ~ In (x, y, k, s) EP) by (intros k' s'; destruct (Z1 k' s'); tauto).
        destruct (cells2_other EP (cells2 EA (uhf_fresh Ns true)) x y Z1) as (-> & ->).
        destruct (cells2_other EP (reset flag in1 (cells2 EA main_fresh)) x y Z1) as (-> & ->). destruct (cells2_other EP (reset flag in1 (cells2 EA main_fresh)) y x Z2) as (-> & ->).
        assert (T : exists k s, In (x, y, k, s) EA) by (eexists; eexists; exact I).
        destruct (cells2_is EA main_fresh (uhf_fresh Ns true) x y HOA ltac:(lia) T) as (E1 & E2 & _).
        destruct (cells2_is EA main_fresh main_fresh x y HOA ltac:(lia) T) as (F1 & F2 & F3 & F4).
        rewrite E1, E2. destruct (cells1_is EA main_fresh x y) as [(k & s' & I' & Q1 & Q2)|(Q & _)]; [|destruct T as (? & ? & T); destruct (Q _ _ T)].
        unfold reset. destruct flag; [tauto|]. cbn [Idx Sgn]. destruct SA as [(? & _)|SA]; [discriminate|].
        assert (S1 : Sgn (cells1 EA main_fresh) x y = 1) by (rewrite Q2; destruct (SA _ I') as [Qs|Qs]; cbn [snd] in Qs; rewrite Qs; reflexivity).
        replace (in1 y x) with false by (unfold in1; destruct (Z.leb_spec Ns x); [lia|now rewrite andb_false_r]).
        repeat split; try assumption; destruct (in1 x y); lia.
      * assert (T : exists k s, In (x, y, k, s) EP) by (eexists; eexists; exact I).
        destruct (cells2_is EP main_fresh (cells2 EA (uhf_fresh Ns true)) x y HOP ltac:(lia) T) as (E1 & E2 & _).
        destruct (cells2_is EP main_fresh (reset flag in1 (cells2 EA main_fresh)) x y HOP ltac:(lia) T) as (F1 & F2 & F3 & F4).
        rewrite E1, E2. tauto.
    + intros x y Q. unfold in2 in Q. destruct (Z.ltb_spec x y); [assumption|]. rewrite !andb_false_r in Q. discriminate.
  - intros i j Hi Hj. unfold site in *. destruct (UA i (j + Ns) ltac:(lia) ltac:(lia)) as (s & I & _). apply in_app_or in I. destruct I as [I|I].
    + destruct (IA _ _ _ _ I) as (i' & j' & _ & _ & J). destruct (AR _ _ _ _ J) as (_ & _ & H). exact H.
    + destruct (IP _ _ _ _ I) as (i' & j' & k' & sp & Hsp & Q1 & Q2 & _ & J). destruct (PR _ _ _ _ J) as (G1 & G2 & _). destruct Hsp as [-> | ->]; lia.
  - intros i j s Hi Hj Hs. destruct (UA (i + s * Ns) (j + s * Ns) ltac:(destruct Hs as [-> | ->]; lia) ltac:(destruct Hs as [-> | ->]; lia)) as (s' & I & _). apply in_app_or in I. destruct I as [I|I].
    + destruct (IA _ _ _ _ I) as (i' & j' & Q1 & Q2 & J). destruct (AR _ _ _ _ J) as (H1 & H2 & _). unfold site in *. destruct Hs as [-> | ->]; lia.
    + destruct (IP _ _ _ _ I) as (i' & j' & k' & sp & Hsp & Q1 & Q2 & Q3 & J). destruct (PR _ _ _ _ J) as (_ & _ & G). lia.
Qed.

(** anti-parallel pairs only: the main program has one table cell per pair of sites *)
Lemma ap_tables Ns n flag rows : ap_file Ns n rows -> signs_ok flag (map (ap_entry Ns) rows) -> exists U M,
  uhf_ap Ns rows = Some U /\ main_ap Ns flag rows = Some M /\
  forall i j, site Ns i -> site Ns j -> (exists s, In (i, j + Ns, Idx U i (j + Ns), s) (map (ap_entry Ns) rows) /\ Sgn U i (j + Ns) = sign_value s) /\
    0 <= Idx U i (j + Ns) < n /\ Idx M i j = Idx U i (j + Ns) /\ Sgn M i j = Sgn U i (j + Ns).
Proof.
  intros (AL & AR & AC) HS. set (E := map (ap_entry Ns) rows) in *. set (E0 := map (fun r : row => r) rows : list entry).
  assert (CA : forallb (fun r : row => let '(i, j, _, _) := r in check_pair_site i j Ns) rows = true).
  { apply forallb_forall. intros (((i, j), k), s) I. destruct (AR _ _ _ _ I) as (H1 & H2 & _). now apply check_pair_ok. }
  exists (cells1 E (uhf_fresh Ns false)).
  exists (let t := cells1 rows main_fresh in if flag then t else Tables (Idx t) (fun x y => if check_pair_site x y Ns then 1 else Sgn t x y)).
  split; [|split].
  - unfold uhf_ap. rewrite (firstn_exact _ rows AL), CA, AL, Z.eqb_refl. cbn [andb]. f_equal. unfold cells1, E.
    rewrite <- (fold_left_map (fun t e => put1 e t) (ap_entry Ns)). apply fold_left_ext_in. intros (((i, j), k), s) t _. cbn [ap_entry put1]. rewrite Z.mul_0_r, Z.mul_1_r, Z.add_0_r. reflexivity.
  - unfold main_ap. rewrite (firstn_exact _ rows AL), CA, AL, Z.eqb_refl. cbn [andb]. rewrite (sticky_is _ _ flag).
    + replace (fold_left _ rows main_fresh) with (cells1 rows main_fresh); [destruct flag; reflexivity|].
      unfold cells1. apply fold_left_ext_in. intros (((i, j), k), s) t _. reflexivity.
    + assert (Q : forall (q : option Z -> Prop), (forall e, In e E -> q (snd e)) -> forall r : row, In r rows -> q (row_sign r)).
      { intros q Hq (((i, j), k), s) I. apply (Hq (i, j + Ns, k, s)). apply in_map_iff. exists (i, j, k, s). now split. }
      destruct HS as [(Ha & HS)|HS]; [left; split; [exact Ha|]|right]; [exact (Q (fun s => s = Some 1 \/ s = Some (-1)) HS)|exact (Q (fun s => s = Some 1 \/ s = None) HS)].
  - assert (SH : forall l t t' i j, (exists k s, In (i, j, k, s) l) -> Idx (cells1 l t) i j = Idx (cells1 (map (ap_entry Ns) l) t') i (j + Ns) /\ Sgn (cells1 l t) i j = Sgn (cells1 (map (ap_entry Ns) l) t') i (j + Ns)).
    { clear. induction l as [|e l IH] using rev_ind; intros t t' i j (k0 & s0 & I0); [destruct I0|]. unfold cells1 in *. rewrite map_app, !fold_left_app. cbn [map fold_left].
      destruct e as (((a, b), k), s). cbn [ap_entry put1 set_cell Idx Sgn]. replace (j + Ns =? b + Ns) with (j =? b) by (destruct (Z.eqb_spec j b), (Z.eqb_spec (j + Ns) (b + Ns)); try reflexivity; lia).
      destruct (Z.eqb_spec i a) as [->|Hi]; [destruct (Z.eqb_spec j b) as [->|Hj]|]; cbn [andb]; [split; reflexivity| |];
        apply IH; apply in_app_or in I0; (destruct I0 as [I0|[I0|[]]]; [now exists k0, s0|]); [injection I0 as <- _ _|injection I0 as <- _ _ _]; tauto. }
    intros i j Hi Hj. destruct (AC i j Hi Hj) as (k0 & s0 & I0).
    destruct (SH rows main_fresh (uhf_fresh Ns false) i j ltac:(now exists k0, s0)) as (E1 & E2). fold E in E1, E2.
    assert (I0' : In (i, j + Ns, k0, s0) E) by (apply in_map_iff; exists (i, j, k0, s0); now split).
    destruct (cells1_is E (uhf_fresh Ns false) i (j + Ns)) as [(k & s & I & Q1 & Q2)|(Q & _)]; [|destruct (Q _ _ I0')].
    rewrite Q1, Q2 in *. split; [now exists s|]. split.
    + apply in_map_iff in I. destruct I as ((((a, b), c), d) & Qe & I). cbn in Qe. injection Qe as _ _ -> _. destruct (AR _ _ _ _ I) as (_ & _ & H). exact H.
    + cbv zeta. destruct flag; [tauto|]. cbn [Idx Sgn]. rewrite (check_pair_ok Ns i j Hi Hj). split; [exact E1|].
      destruct HS as [(? & _)|HS]; [discriminate|]. destruct (HS _ I) as [Qs|Qs]; cbn [snd] in Qs; rewrite Qs; reflexivity.
Qed.
