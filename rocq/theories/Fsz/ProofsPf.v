From Coq Require Import ZArith List Bool Reals Lia Lra FunctionalExtensionality.
From Coquelicot Require Import Complex.
From Verif Require Import Base.ZLoop Base.RSum Pf.Pfaffian Pf.Model Pf.Spec Pf.Algebra Pf.Proofs Pf.ProofsTwo Pf.ProofsSeq Fsz.Model Fsz.Spec.
Import ListNotations.
Local Open Scope Z_scope.

(** The general-spin code is the fixed-spin code on shifted positions: electron k is given the position that puts it on its
    spin-orbital although its label says spin k/Ne. *)
Section Shift.
Variables (Nsite Ne : Z).
Hypothesis HNe : 0 < Ne.
Variable Sl : Z -> C.
Notation N := (2 * Ne).
Notation L := (zrange 0 N).
Definition shifted (eleIdx eleSpn : Z -> Z) : Z -> Z := fun k => eleIdx k + (eleSpn k - k / Ne) * Nsite.

Lemma shifted_orbital eleIdx eleSpn k : shifted eleIdx eleSpn k + k / Ne * Nsite = eleIdx k + eleSpn k * Nsite.
Proof. unfold shifted. ring. Qed.
Lemma shifted_pm q eleIdx eleSpn i j : pair_matrix Nsite Ne Sl q (shifted eleIdx eleSpn) i j = pair_matrix_fsz Nsite Sl q eleIdx eleSpn i j.
Proof. unfold pair_matrix, pair_matrix_fsz, orbital, spin_orbital. now rewrite !shifted_orbital. Qed.
Lemma shifted_pm_fun q eleIdx eleSpn : pair_matrix Nsite Ne Sl q (shifted eleIdx eleSpn) = pair_matrix_fsz Nsite Sl q eleIdx eleSpn.
Proof. apply functional_extensionality. intros i. apply functional_extensionality. intros j. apply shifted_pm. Qed.
Lemma shifted_upd eleIdx eleSpn m r s : shifted (upd eleIdx m r) (upd eleSpn m s) = upd (shifted eleIdx eleSpn) m (r + (s - m / Ne) * Nsite).
Proof. apply functional_extensionality. intros k. unfold shifted. rewrite !upd_get. destruct (Z.eqb_spec k m) as [->|]; reflexivity. Qed.
Lemma shifted_in eleIdx eleSpn : placed Nsite N eleIdx eleSpn -> in_table Nsite Ne (shifted eleIdx eleSpn).
Proof. intros H k Hk. unfold orbital. rewrite shifted_orbital. destruct (H k Hk) as (H1 & [-> | ->]); lia. Qed.
Lemma shifted_current qpStart qpEnd eleIdx eleSpn InvM PfM :
  current Nsite Ne Sl qpStart qpEnd (shifted eleIdx eleSpn) InvM PfM <-> current_fsz Nsite N Sl qpStart qpEnd eleIdx eleSpn InvM PfM.
Proof. unfold current, current_fsz. split; intros H q Hq; specialize (H q Hq); rewrite shifted_pm_fun in *; exact H. Qed.
Lemma shifted_regular qpStart qpEnd eleIdx eleSpn : regular Nsite Ne Sl qpStart qpEnd (shifted eleIdx eleSpn) <-> regular_fsz Nsite N Sl qpStart qpEnd eleIdx eleSpn.
Proof. unfold regular, regular_fsz. split; intros H q Hq; specialize (H q Hq); rewrite shifted_pm_fun in *; exact H. Qed.

(** label m as electron m mod Ne of spin m/Ne *)
Lemma label_electron m : 0 <= m < N -> electron Ne (m mod Ne) (m / Ne) /\ m mod Ne + m / Ne * Ne = m.
Proof.
  intros Hm. assert (H := Z.mod_pos_bound m Ne HNe). assert (E := Z.div_mod m Ne ltac:(lia)).
  assert (0 <= m / Ne < 2) by (split; [apply Z.div_pos; lia|apply Z.div_lt_upper_bound; lia]).
  split; [split; [lia|lia]|lia].
Qed.

Lemma calc_is ma s eleIdx eleSpn qpStart qpEnd InvM PfM pfN q : 0 <= ma < N -> eleSpn ma = s -> 0 <= q < qpEnd - qpStart ->
  calculate_new_pfm_fsz Nsite N Sl ma s eleIdx eleSpn qpStart qpEnd InvM PfM pfN q =
  calculate_new_pfm Nsite Ne N Sl (ma mod Ne) (ma / Ne) (shifted eleIdx eleSpn) qpStart qpEnd InvM PfM pfN q.
Proof.
  intros Hm Hs Hq. destruct (label_electron ma Hm) as (He & El). rewrite ratio_one by assumption. rewrite El.
  unfold calculate_new_pfm_fsz. rewrite loop_set by lia. destruct (Z.leb_spec 0 q), (Z.ltb_spec q (qpEnd - qpStart)); try lia. cbn [andb].
  rewrite loop_csum by lia. unfold czero. rewrite Cplus_0_l. do 2 f_equal. apply csum_ext. intros j Hj.
  rewrite shifted_pm. unfold stored, pair_matrix_fsz, spin_orbital, Nsite2. rewrite Hs. reflexivity.
Qed.
Lemma update_is ma s eleIdx eleSpn qpStart qpEnd st : 0 <= ma < N -> eleSpn ma = s ->
  update_mall_fsz Nsite N Sl ma s eleIdx eleSpn qpStart qpEnd st = update_mall Nsite Ne N Sl (ma mod Ne) (ma / Ne) (shifted eleIdx eleSpn) qpStart qpEnd st.
Proof.
  intros Hm Hs. destruct (label_electron ma Hm) as (He & El). unfold update_mall_fsz, update_mall. apply loop_ext. intros q (I, P) _. cbn [fst snd].
  unfold update_mall_child_fsz, update_mall_child. cbv zeta. rewrite El, shifted_orbital, Hs.
  assert (E : (fun msj (v : Z -> C) => loop 0 N (fun msi v => cadd v msi (Cmult (Copp (I (q * N * N + msj * N + msi)))
       (Sl ((q + qpStart) * Nsite2 Nsite * Nsite2 Nsite + (eleIdx ma + s * Nsite) * Nsite2 Nsite + (shifted eleIdx eleSpn msj + msj / Ne * Nsite))))) v) =
     (fun msj (v : Z -> C) => loop 0 N (fun msi v => cadd v msi (Cmult (Copp (I (q * N * N + msj * N + msi)))
       (Sl ((q + qpStart) * Nsite2 Nsite * Nsite2 Nsite + (eleIdx ma + s * Nsite) * Nsite2 Nsite + (eleIdx msj + eleSpn msj * Nsite))))) v)).
  { apply functional_extensionality. intros msj. now rewrite shifted_orbital. }
  rewrite E. reflexivity.
Qed.
Lemma calc_two_is ma s mb t eleIdx eleSpn qpStart qpEnd InvM PfM pfN q : 0 <= ma < N -> 0 <= mb < N -> eleSpn ma = s -> eleSpn mb = t -> 0 <= q < qpEnd - qpStart ->
  calculate_new_pfm_two_fsz Nsite N Sl ma s mb t eleIdx eleSpn qpStart qpEnd InvM PfM pfN q =
  calculate_new_pfm_two Nsite Ne N Sl (ma mod Ne) (ma / Ne) (mb mod Ne) (mb / Ne) (shifted eleIdx eleSpn) qpStart qpEnd InvM PfM pfN q.
Proof.
  intros Ha Hb Hs Ht Hq. destruct (label_electron ma Ha) as (Hea & Ela). destruct (label_electron mb Hb) as (Heb & Elb).
  unfold calculate_new_pfm_two_fsz, calculate_new_pfm_two. rewrite Ela, Elb. destruct (ma =? mb); [now apply calc_is|].
  revert q Hq. assert (E : forall f g : Z -> C, f = g -> forall q, 0 <= q < qpEnd - qpStart -> f q = g q) by (intros f g -> q _; reflexivity). apply E.
  apply loop_ext. intros q f _. unfold calculate_new_pfm_two_child_fsz, calculate_new_pfm_two_child. cbv zeta. rewrite Ela, Elb, !shifted_orbital, Hs, Ht.
  assert (F : forall x, (fun msi (v : Z -> C) => upd v msi (Sl ((q + qpStart) * Nsite2 Nsite * Nsite2 Nsite + (x + (shifted eleIdx eleSpn msi + msi / Ne * Nsite))))) =
    (fun msi (v : Z -> C) => upd v msi (Sl ((q + qpStart) * Nsite2 Nsite * Nsite2 Nsite + (x + (eleIdx msi + eleSpn msi * Nsite)))))).
  { intros x. apply functional_extensionality. intros msi. now rewrite shifted_orbital. }
  rewrite !F. reflexivity.
Qed.
Lemma update_two_is ma s mb t raOld rbOld eleIdx eleSpn qpStart qpEnd st : eleSpn ma = s -> eleSpn mb = t ->
  let mOld := fun q => Sl ((q + qpStart) * Nsite2 Nsite * Nsite2 Nsite + ((raOld + s * Nsite) * Nsite2 Nsite + (raOld + t * Nsite))) in
  let ele := shifted eleIdx eleSpn in
  update_mall_two_fsz Nsite N Sl ma s mb t raOld rbOld eleIdx eleSpn qpStart qpEnd st =
  loop 0 (qpEnd - qpStart) (fun q st => update_mall_two_body Nsite N Sl ma mb (ele ma + ma / Ne * Nsite) (ele mb + mb / Ne * Nsite) (mOld q)
     (fun k => ele k + k / Ne * Nsite) qpStart q (fst st) (snd st)) st.
Proof.
  intros Hs Ht mOld ele. unfold update_mall_two_fsz. apply loop_ext. intros q st' _. unfold update_mall_two_child_fsz, ele. cbv zeta.
  rewrite !shifted_orbital, Hs, Ht. f_equal. apply functional_extensionality. intros k. now rewrite shifted_orbital.
Qed.
Lemma scratch_is skpf eleIdx eleSpn qpStart q InvM PfM :
  calculate_mall_child_fsz Nsite N Sl skpf eleIdx eleSpn qpStart q InvM PfM = calculate_mall_child Nsite Ne N Sl skpf (shifted eleIdx eleSpn) qpStart q InvM PfM.
Proof.
  unfold calculate_mall_child_fsz, calculate_mall_child. cbv zeta.
  assert (E : (fun msi I => loop 0 N (fun msj I => upd I (q * N * N + msi * N + msj) (Copp (Sl ((q + qpStart) * Nsite2 Nsite * Nsite2 Nsite +
       (shifted eleIdx eleSpn msi + msi / Ne * Nsite) * Nsite2 Nsite + (shifted eleIdx eleSpn msj + msj / Ne * Nsite))))) I) =
     (fun msi I => loop 0 N (fun msj I => upd I (q * N * N + msi * N + msj) (Copp (Sl ((q + qpStart) * Nsite2 Nsite * Nsite2 Nsite +
       (eleIdx msi + eleSpn msi * Nsite) * Nsite2 Nsite + (eleIdx msj + eleSpn msj * Nsite))))) I)).
  { apply functional_extensionality. intros i. apply functional_extensionality. intros I. apply loop_ext. intros j I' _. now rewrite !shifted_orbital. }
  rewrite E. reflexivity.
Qed.

(** *** exactness *)
Lemma place_range m r s : place Nsite r s -> 0 <= r + (s - m / Ne) * Nsite + m / Ne * Nsite < 2 * Nsite.
Proof. intros (Hr & [-> | ->]); lia. Qed.
Lemma placed_upd n eleIdx eleSpn m r s : placed Nsite n eleIdx eleSpn -> place Nsite r s -> placed Nsite n (upd eleIdx m r) (upd eleSpn m s).
Proof. intros H Hp k Hk. rewrite !upd_get. destruct (k =? m); [exact Hp|now apply H]. Qed.
Lemma one_calc eleIdx eleSpn InvM PfM pfN m r s qpStart qpEnd :
  (forall q, 0 <= q < qpEnd - qpStart -> skew_table Nsite Sl (q + qpStart)) ->
  0 <= m < N -> place Nsite r s -> placed Nsite N eleIdx eleSpn -> current_fsz Nsite N Sl qpStart qpEnd eleIdx eleSpn InvM PfM ->
  forall q, 0 <= q < qpEnd - qpStart ->
    calculate_new_pfm_fsz Nsite N Sl m s (upd eleIdx m r) (upd eleSpn m s) qpStart qpEnd InvM PfM pfN q =
    pf (pair_matrix_fsz Nsite Sl (q + qpStart) (upd eleIdx m r) (upd eleSpn m s)) L.
Proof.
  intros Hsl Hm Hp Hpl Hc q Hq. rewrite calc_is by (assumption || now rewrite upd_same). rewrite <- shifted_pm_fun, shifted_upd.
  destruct (label_electron m Hm) as (He & El).
  pose proof (calc_one_table Nsite Ne HNe Sl (shifted eleIdx eleSpn) InvM PfM pfN (m mod Ne) (m / Ne) (r + (s - m / Ne) * Nsite) qpStart qpEnd Hsl He) as K.
  rewrite El in K. apply K; [now apply place_range|now apply shifted_in|now apply shifted_current|assumption].
Qed.
Lemma one_update eleIdx eleSpn InvM PfM m r s qpStart qpEnd :
  (forall q, 0 <= q < qpEnd - qpStart -> skew_table Nsite Sl (q + qpStart)) ->
  0 <= m < N -> place Nsite r s -> placed Nsite N eleIdx eleSpn -> current_fsz Nsite N Sl qpStart qpEnd eleIdx eleSpn InvM PfM ->
  regular_fsz Nsite N Sl qpStart qpEnd (upd eleIdx m r) (upd eleSpn m s) ->
  let st := update_mall_fsz Nsite N Sl m s (upd eleIdx m r) (upd eleSpn m s) qpStart qpEnd (InvM, PfM) in
  current_fsz Nsite N Sl qpStart qpEnd (upd eleIdx m r) (upd eleSpn m s) (fst st) (snd st).
Proof.
  intros Hsl Hm Hp Hpl Hc Hreg st. unfold st. rewrite update_is by (assumption || now rewrite upd_same).
  apply shifted_current. apply shifted_regular in Hreg. rewrite shifted_upd in *. destruct (label_electron m Hm) as (He & El).
  pose proof (update_one_table Nsite Ne HNe Sl (shifted eleIdx eleSpn) InvM PfM (m mod Ne) (m / Ne) (r + (s - m / Ne) * Nsite) qpStart qpEnd Hsl He) as K.
  rewrite El in K. apply K; [now apply place_range|now apply shifted_in|now apply shifted_current|assumption].
Qed.
Lemma two_calc eleIdx eleSpn InvM PfM pfN ma ra s mb rb t qpStart qpEnd :
  (forall q, 0 <= q < qpEnd - qpStart -> skew_table Nsite Sl (q + qpStart)) ->
  0 <= ma < N -> 0 <= mb < N -> (ma = mb -> s = t) -> place Nsite ra s -> place Nsite rb t -> placed Nsite N eleIdx eleSpn ->
  current_fsz Nsite N Sl qpStart qpEnd eleIdx eleSpn InvM PfM ->
  forall q, 0 <= q < qpEnd - qpStart ->
    let idx' := upd (upd eleIdx ma ra) mb rb in let spn' := upd (upd eleSpn ma s) mb t in
    calculate_new_pfm_two_fsz Nsite N Sl ma s mb t idx' spn' qpStart qpEnd InvM PfM pfN q = pf (pair_matrix_fsz Nsite Sl (q + qpStart) idx' spn') L.
Proof.
  intros Hsl Ha Hb Hst Hpa Hpb Hpl Hc q Hq idx' spn'.
  assert (Es : spn' ma = s) by (unfold spn'; rewrite upd_get; destruct (Z.eqb_spec ma mb); [symmetry; auto|now rewrite upd_same]).
  rewrite calc_two_is by (assumption || (unfold spn'; now rewrite upd_same)). rewrite <- shifted_pm_fun. unfold idx', spn'. rewrite !shifted_upd.
  destruct (label_electron ma Ha) as (Hea & Ela). destruct (label_electron mb Hb) as (Heb & Elb).
  pose proof (calc_two_table Nsite Ne HNe Sl (shifted eleIdx eleSpn) InvM PfM pfN (ma mod Ne) (ma / Ne) (ra + (s - ma / Ne) * Nsite)
     (mb mod Ne) (mb / Ne) (rb + (t - mb / Ne) * Nsite) qpStart qpEnd Hsl Hea Heb) as K. rewrite Ela, Elb in K.
  apply K; [now apply place_range|now apply place_range|now apply shifted_in|now apply shifted_current|assumption].
Qed.
Lemma two_update eleIdx eleSpn InvM PfM ma ra s mb rb t raOld rbOld qpStart qpEnd :
  (forall q, 0 <= q < qpEnd - qpStart -> skew_table Nsite Sl (q + qpStart)) ->
  0 <= ma < N -> 0 <= mb < N -> ma <> mb -> place Nsite ra s -> place Nsite rb t -> placed Nsite N eleIdx eleSpn ->
  current_fsz Nsite N Sl qpStart qpEnd eleIdx eleSpn InvM PfM ->
  let idx' := upd (upd eleIdx ma ra) mb rb in let spn' := upd (upd eleSpn ma s) mb t in
  regular_fsz Nsite N Sl qpStart qpEnd idx' spn' ->
  let st := update_mall_two_fsz Nsite N Sl ma s mb t raOld rbOld idx' spn' qpStart qpEnd (InvM, PfM) in
  current_fsz Nsite N Sl qpStart qpEnd idx' spn' (fst st) (snd st).
Proof.
  intros Hsl Ha Hb Hab Hpa Hpb Hpl Hc idx' spn' Hreg st. unfold st.
  assert (Es : spn' ma = s) by (unfold spn'; rewrite upd_other, upd_same by congruence; reflexivity).
  rewrite update_two_is by (assumption || (unfold spn'; now rewrite upd_same)).
  apply shifted_current. apply shifted_regular in Hreg. unfold idx', spn' in Hreg |- *. rewrite !shifted_upd in *.
  destruct (label_electron ma Ha) as (Hea & Ela). destruct (label_electron mb Hb) as (Heb & Elb).
  pose proof (update_two_table Nsite Ne HNe Sl (shifted eleIdx eleSpn) InvM PfM (ma mod Ne) (ma / Ne) (ra + (s - ma / Ne) * Nsite)
     (mb mod Ne) (mb / Ne) (rb + (t - mb / Ne) * Nsite) (fun q => Sl ((q + qpStart) * Nsite2 Nsite * Nsite2 Nsite + ((raOld + s * Nsite) * Nsite2 Nsite + (raOld + t * Nsite)))) qpStart qpEnd Hsl Hea Heb) as K. rewrite Ela, Elb in K.
  apply K; [assumption|now apply place_range|now apply place_range|now apply shifted_in|now apply shifted_current|assumption].
Qed.
Lemma from_scratch skpf eleIdx eleSpn qpStart q InvM PfM I P : oracle_correct skpf -> skew_table Nsite Sl (q + qpStart) -> placed Nsite N eleIdx eleSpn ->
  calculate_mall_child_fsz Nsite N Sl skpf eleIdx eleSpn qpStart q InvM PfM = Some (I, P) ->
  P q = pf (pair_matrix_fsz Nsite Sl (q + qpStart) eleIdx eleSpn) L /\ is_inverse N (stored N I q) (pair_matrix_fsz Nsite Sl (q + qpStart) eleIdx eleSpn) /\
  forall q', q' <> q -> P q' = PfM q' /\ forall i j, 0 <= i < N -> 0 <= j < N -> stored N I q' i j = stored N InvM q' i j.
Proof.
  intros Ho Hsl Hpl. rewrite scratch_is. rewrite <- shifted_pm_fun. intros E. eapply scratch_table; eauto. now apply shifted_in.
Qed.
End Shift.

(** what the sampler does on acceptance: sites and spins are already the new ones, the spins passed are the new ones
    (vmcmake_fsz.c:187 and 222; 258, 261 and 295; 327 and 363) *)
Definition accept_fsz (Nsite n : Z) (Sl : Z -> C) (qpStart qpEnd : Z) (x : ((Z -> Z) * (Z -> Z)) * ((Z -> C) * (Z -> C))) (mv : fmove) :=
  let idx' := moved_idx (fst (fst x)) mv in let spn' := moved_spn (snd (fst x)) mv in
  ((idx', spn'), match mv with
    | FOne m r s => update_mall_fsz Nsite n Sl m s idx' spn' qpStart qpEnd (snd x)
    | FTwo ma ra s mb rb t raOld rbOld => update_mall_two_fsz Nsite n Sl ma s mb t raOld rbOld idx' spn' qpStart qpEnd (snd x)
    end).
Fixpoint all_regular_fsz (Nsite n : Z) (Sl : Z -> C) (qpStart qpEnd : Z) (eleIdx eleSpn : Z -> Z) (moves : list fmove) : Prop :=
  match moves with
  | [] => True
  | mv :: l => regular_fsz Nsite n Sl qpStart qpEnd (moved_idx eleIdx mv) (moved_spn eleSpn mv) /\ all_regular_fsz Nsite n Sl qpStart qpEnd (moved_idx eleIdx mv) (moved_spn eleSpn mv) l
  end.
Lemma any_moves Nsite Ne Sl qpStart qpEnd moves : 0 < Ne -> (forall q, 0 <= q < qpEnd - qpStart -> skew_table Nsite Sl (q + qpStart)) ->
  forall eleIdx eleSpn InvM PfM, placed Nsite (2 * Ne) eleIdx eleSpn -> current_fsz Nsite (2 * Ne) Sl qpStart qpEnd eleIdx eleSpn InvM PfM ->
  Forall (legal_fsz Nsite (2 * Ne)) moves -> all_regular_fsz Nsite (2 * Ne) Sl qpStart qpEnd eleIdx eleSpn moves ->
  let '((idx', spn'), st) := fold_left (accept_fsz Nsite (2 * Ne) Sl qpStart qpEnd) moves ((eleIdx, eleSpn), (InvM, PfM)) in
  idx' = fold_left moved_idx moves eleIdx /\ spn' = fold_left moved_spn moves eleSpn /\ current_fsz Nsite (2 * Ne) Sl qpStart qpEnd idx' spn' (fst st) (snd st).
Proof.
  intros HNe Hsl. induction moves as [|mv moves IH]; intros eleIdx eleSpn InvM PfM Hpl Hcur Hleg Hreg.
  - cbn. auto.
  - cbn [fold_left all_regular_fsz] in *. destruct Hreg as (Hr & Hrs). inversion Hleg as [|? ? Hl Hls]; subst.
    destruct mv as [m r s|ma ra s mb rb t raOld rbOld]; unfold accept_fsz at 2; cbn [moved_idx moved_spn legal_fsz fst snd] in *.
    + destruct Hl as (Hm & Hp).
      pose proof (one_update Nsite Ne HNe Sl eleIdx eleSpn InvM PfM m r s qpStart qpEnd Hsl Hm Hp Hpl Hcur Hr) as Hc.
      cbv zeta in Hc. destruct (update_mall_fsz _ _ _ _ _ _ _ _ _ _) as (I, P). apply IH; auto. now apply placed_upd.
    + destruct Hl as (Ha & Hb & Hab & Hpa & Hpb).
      pose proof (two_update Nsite Ne HNe Sl eleIdx eleSpn InvM PfM ma ra s mb rb t raOld rbOld qpStart qpEnd Hsl Ha Hb Hab Hpa Hpb Hpl Hcur Hr) as Hc.
      cbv zeta in Hc. destruct (update_mall_two_fsz _ _ _ _ _ _ _ _ _ _ _ _ _ _) as (I, P). apply IH; auto. repeat apply placed_upd; assumption.
Qed.
