From Coq Require Import ZArith List Bool Lia Reals Lra.
From Coquelicot Require Import Complex.
From Verif Require Import Base.ZLoop Base.RSum Pf.Pfaffian Pf.Spec Pf.Proofs Fsz.Model Slater.Model Slater.Spec Slater.Proofs Slater.ProofsElm Slater.ProofsDiff Slater.ProofsDer Slater.ProofsProp Slater.Derive Fsz.Spec Fsz.ProofsElm Fsz.ProofsDiff.
Import ListNotations.
Local Open Scope Z_scope.

Section Der.
Variables (S : sizes) (T : qptables) (stot : Z) (beta weight : Z -> R) (para opt0 opt : Z -> C) (flag : bool).
Hypothesis HV : valid_fsz S T flag.
Let A := update_weights S flag opt (init_qp_weight S stot beta weight para flag opt0).
Variables (sl E0 InvM PfM : Z -> C) (eleIdx eleSpn : Z -> Z).
Let n := 2 * Ne S.
Hypothesis Hlat : placed (Nsite S) n eleIdx eleSpn.
Hypothesis Hcur : current_fsz (Nsite S) n (update_slater_elm_fsz S T sl E0) 0 (NQPFull S) eleIdx eleSpn InvM PfM.
Let X := spin_orbital (Nsite S) eleIdx eleSpn.
Let amp := fun sl => amplitude_fsz S T para (opt_weight flag opt) sl X.
Let M := fun sl o m i j => element_fsz (Nsite S) T sl o m (X i) (X j).

Lemma orb_fsz i : 0 <= i < n -> 0 <= X i < 2 * Nsite S.
Proof. intros Hi. destruct (Hlat i Hi) as (H1 & [H2|H2]); unfold X, spin_orbital; rewrite H2; lia. Qed.
Lemma in_range_fsz o m : 0 <= o < NQPOptTrans S -> 0 <= m < NMPTrans S -> in_range S o m 0.
Proof. intros Ho Hm. destruct HV as (_ & _ & HG & _). repeat split; lia. Qed.
Lemma PM_fsz o m i j : 0 <= o < NQPOptTrans S -> 0 <= m < NMPTrans S -> 0 <= i < n -> 0 <= j < n ->
  pair_matrix_fsz (Nsite S) (update_slater_elm_fsz S T sl E0) (projection S o m 0 + 0) eleIdx eleSpn i j = M sl o m i j.
Proof.
  intros Ho Hm Hi Hj. rewrite Z.add_0_r. unfold pair_matrix_fsz.
  apply (elements_fsz S T ltac:(apply HV) sl E0 o m 0); [now apply in_range_fsz| |]; now apply orb_fsz.
Qed.
Lemma tables_fsz o m : 0 <= o < NQPOptTrans S -> 0 <= m < NMPTrans S -> PfM (projection S o m 0) = pfaffian_fsz S T sl X o m /\
  left_inverse (zrange 0 n) (stored n InvM (projection S o m 0)) (M sl o m) /\ skewsym (stored n InvM (projection S o m 0)) (zrange 0 n).
Proof.
  intros Ho Hm. assert (Hq := projection_range S o m 0 (in_range_fsz o m Ho Hm)). destruct (Hcur (projection S o m 0)) as (HP & HI); [lia|].
  split.
  - rewrite HP. unfold pfaffian_fsz. apply (pf_ext _ _ (length (zrange 0 n))); [unfold n; lia|]. intros i j Hi Hj. apply zrange_in in Hi, Hj. now apply PM_fsz.
  - apply is_inverse_elim in HI. destruct HI as (HL & HS). split; [|exact HS]. intros i j Hi Hj. rewrite <- (HL i j Hi Hj).
    apply csum_ext. intros k Hk. apply zrange_in in Hj, Hk. f_equal. symmetry. now apply PM_fsz.
Qed.
Lemma M_fsz_skew sl' o m : skewsym (M sl' o m) (zrange 0 n).
Proof. intros i j _ _. unfold M. apply (element_fsz_skew S T sl'). Qed.

Lemma weight_fsz o m : 0 <= o < NQPOptTrans S -> 0 <= m < NMPTrans S -> QPFullWeight A (projection S o m 0) = Cmult (opt_weight flag opt o) (para m).
Proof.
  intros Ho Hm. assert (HR := in_range_fsz o m Ho Hm). destruct HV as (_ & _ & HG & _ & _ & _ & Hflag & _). unfold A. cbn [update_weights QPFullWeight].
  rewrite (full_weight S stot beta weight para opt0 flag) by (assumption || lia). unfold spin_weight. rewrite HG. cbn [Z.eqb Pos.eqb]. ring.
Qed.
Lemma ip_fsz : calculate_ip A 0 (NQPFull S) PfM = amp sl.
Proof.
  assert (HV' := HV). destruct HV' as (HN & HNe & HG & HM & HO & HSl & Hflag & _).
  unfold calculate_ip. rewrite Z.sub_0_r, loop_csum by (unfold NQPFull, NQPFix; nia).
  rewrite csum_projection by lia. unfold amp, amplitude_fsz. change czero with (RtoC 0). rewrite Cplus_0_l.
  apply csum_ext. intros o Ho. apply zrange_in in Ho. apply csum_ext. intros m Hm. apply zrange_in in Hm. rewrite HG. change (zrange 0 1) with [0]. cbn [csum].
  rewrite Cplus_0_r, Z.add_0_r. f_equal; [now apply weight_fsz|now apply tables_fsz].
Qed.

(** along sl + t*dir *)
Variables (k : Z) (u : C).
Let dir := fun x => Cmult u (iz (x =? k)).
Lemma element_fsz_line o m x y t : element_fsz (Nsite S) T (fun j => Cplus (sl j) (Cmult (RtoC t) (dir j))) o m x y
  = Cplus (element_fsz (Nsite S) T sl o m x y) (Cmult (RtoC t) (element_fsz (Nsite S) T dir o m x y)).
Proof. unfold element_fsz, pair_fsz. ring. Qed.
Notation contr := (contribution_fsz S T InvM PfM eleIdx eleSpn).
Lemma one_projection_fsz o m : 0 <= o < NQPOptTrans S -> 0 <= m < NMPTrans S ->
  cderive (fun t => pfaffian_fsz S T (fun j => Cplus (sl j) (Cmult (RtoC t) (dir j))) X o m) (Cmult u (contr o m k)).
Proof.
  intros Ho Hm. destruct (tables_fsz o m Ho Hm) as (HP & HL & HX). set (Y := stored n InvM (projection S o m 0)) in *.
  destruct (pf_derive (zrange 0 n) (M sl o m) Y (M dir o m) (zrange_NoDup 0 n) (M_fsz_skew sl o m) (M_fsz_skew dir o m) HL) as (d & Hd & E).
  assert (Ed : d = Cmult u (contr o m k)).
  { set (c := Cmult u (contr o m k)).
    assert (E2 : Cplus d d = Cplus c c).
    { rewrite E. unfold c, contribution_fsz. fold n. fold Y. rewrite HP. change (pf (M sl o m) (zrange 0 n)) with (pfaffian_fsz S T sl X o m).
      set (P := pfaffian_fsz S T sl X o m).
      set (f := fun i j => pair_fsz (Nsite S) T (fun x => iz (x =? k)) o m (X i) (X j)).
      set (V := csum (zrange 0 n) (fun i => csum (zrange 0 n) (fun j => Cmult (Copp (f i j)) (Y i j)))).
      assert (EV : csum (zrange 0 n) (fun a => csum (zrange 0 n) (fun b => Cmult (M dir o m a b) (Y b a))) = Cmult u (Cplus V V)).
      { rewrite (csum_ext (zrange 0 n) _ (fun a => Cplus (Cmult u (csum (zrange 0 n) (fun b => Cmult (Copp (f a b)) (Y a b))))
           (Cmult u (csum (zrange 0 n) (fun b => Cmult (Copp (f b a)) (Y b a)))))).
        - rewrite csum_add, !csum_scal, (csum_swap (zrange 0 n) (zrange 0 n) (fun a b => Cmult (Copp (f b a)) (Y b a))).
          change (Cplus (Cmult u V) (Cmult u V) = Cmult u (Cplus V V)). ring.
        - intros a Ha. rewrite <- !csum_scal, <- csum_add. apply csum_ext. intros b Hb.
          rewrite (HX b a) by assumption. rewrite (HX a b) by assumption. unfold f, M, element_fsz, dir, pair_fsz. ring. }
      rewrite EV. change (Cmult P (Cmult u (Cplus V V)) = Cplus (Cmult u (Cmult P V)) (Cmult u (Cmult P V))). ring. }
    assert (D2 : Cmult (RtoC 2) d = Cmult (RtoC 2) c) by (replace (RtoC 2) with (Cplus (RtoC 1) (RtoC 1)) by (rewrite <- RtoC_plus; reflexivity); rewrite !Cmult_plus_distr_r, !Cmult_1_l; exact E2).
    apply (f_equal (Cmult (Cinv (RtoC 2)))) in D2. rewrite !Cmult_assoc, Cinv_l, !Cmult_1_l in D2; [exact D2|]. intros C0. injection C0. lra. }
  rewrite <- Ed. apply (cderive_ext (fun t => pf (line (M sl o m) (M dir o m) t) (zrange 0 n))); [|exact Hd].
  intros t. unfold pfaffian_fsz. apply (pf_ext _ _ (length (zrange 0 n))); [unfold n; lia|]. intros i j Hi Hj. unfold line, M. now rewrite element_fsz_line.
Qed.
Lemma amp_fsz_derive : cderive (fun t => amp (fun j => Cplus (sl j) (Cmult (RtoC t) (dir j))))
    (Cmult u (csum (zrange 0 (NQPOptTrans S)) (fun o => csum (zrange 0 (NMPTrans S)) (fun m => Cmult (Cmult (opt_weight flag opt o) (para m)) (contr o m k))))).
Proof.
  unfold amp, amplitude_fsz. rewrite <- csum_scal.
  apply (cderive_csum (zrange 0 (NQPOptTrans S)) (fun t o => csum (zrange 0 (NMPTrans S)) (fun m => Cmult (Cmult (opt_weight flag opt o) (para m)) (pfaffian_fsz S T (fun j => Cplus (sl j) (Cmult (RtoC t) (dir j))) X o m)))).
  intros o Ho. rewrite <- csum_scal.
  apply (cderive_csum (zrange 0 (NMPTrans S)) (fun t m => Cmult (Cmult (opt_weight flag opt o) (para m)) (pfaffian_fsz S T (fun j => Cplus (sl j) (Cmult (RtoC t) (dir j))) X o m))).
  intros m Hm. apply zrange_in in Ho, Hm.
  match goal with |- cderive _ (Cmult u (Cmult ?W ?c)) => replace (Cmult u (Cmult W c)) with (Cmult W (Cmult u c)) by ring end.
  apply cderive_scal. now apply one_projection_fsz.
Qed.
End Der.
Lemma amplitude_fsz_ext S T para opt sl sl' x : (forall k, sl k = sl' k) -> amplitude_fsz S T para opt sl x = amplitude_fsz S T para opt sl' x.
Proof.
  intros H. unfold amplitude_fsz. apply csum_ext. intros o _. apply csum_ext. intros m _. f_equal. unfold pfaffian_fsz.
  apply (pf_ext _ _ (length (zrange 0 (2 * Ne S)))); [lia|]. intros i j _ _. unfold element_fsz, pair_fsz. now rewrite !H.
Qed.
Lemma derivative_fsz S T stot beta weight para opt0 opt flag sl E0 InvM PfM eleIdx eleSpn sr0 k :
  let A := update_weights S flag opt (init_qp_weight S stot beta weight para flag opt0) in
  let X := spin_orbital (Nsite S) eleIdx eleSpn in
  let ip := calculate_ip A 0 (NQPFull S) PfM in
  let amp := fun sl => amplitude_fsz S T para (opt_weight flag opt) sl X in
  let O := slater_elm_diff_fsz S T A InvM PfM ip eleIdx eleSpn sr0 in
  valid_fsz S T flag -> placed (Nsite S) (2 * Ne S) eleIdx eleSpn ->
  current_fsz (Nsite S) (2 * Ne S) (update_slater_elm_fsz S T sl E0) 0 (NQPFull S) eleIdx eleSpn InvM PfM -> 0 <= k < NSlater S -> amp sl <> RtoC 0 ->
  log_derivative (fun t => amp (shift_re sl k t)) (O (2 * k)) /\ log_derivative (fun t => amp (shift_im sl k t)) (O (2 * k + 1)).
Proof.
  intros A X ip amp O HV Hlat Hcur Hk Hne.
  assert (Eip : ip = amp sl) by (apply (ip_fsz S T stot beta weight para opt0 opt flag HV sl E0 InvM PfM eleIdx eleSpn); assumption).
  destruct (diff_fsz S T stot beta weight para opt0 opt flag HV InvM PfM ip eleIdx eleSpn sr0 Hlat k Hk) as (E1 & E2).
  unfold log_derivative. fold A in E1, E2. fold O in E1, E2. rewrite E1, E2, Eip.
  set (d := csum _ _).
  assert (HD : forall u, cderive (fun t => amp (fun j => Cplus (sl j) (Cmult (RtoC t) (Cmult u (iz (j =? k)))))) (Cmult u d)).
  { intros u. exact (amp_fsz_derive S T para opt flag HV sl E0 InvM PfM eleIdx eleSpn Hlat Hcur k u). }
  split.
  - apply (derivative_ext (fun t => amp (fun j => Cplus (sl j) (Cmult (RtoC t) (Cmult (RtoC 1) (iz (j =? k))))))).
    + intros t. apply amplitude_fsz_ext. intros x. symmetry. apply shift_re_is.
    + replace (amp (shift_re sl k 0)) with (amp sl).
      * apply cderive_spec. replace (Cmult (Cmult d (Cinv (amp sl))) (amp sl)) with (Cmult (RtoC 1) d); [apply HD|]. field. exact Hne.
      * apply amplitude_fsz_ext. intros x. rewrite shift_re_is. ring.
  - apply (derivative_ext (fun t => amp (fun j => Cplus (sl j) (Cmult (RtoC t) (Cmult Ci (iz (j =? k))))))).
    + intros t. apply amplitude_fsz_ext. intros x. symmetry. apply shift_im_is.
    + replace (amp (shift_im sl k 0)) with (amp sl).
      * apply cderive_spec. replace (Cmult (Cmult (Cmult d Ci) (Cinv (amp sl))) (amp sl)) with (Cmult Ci d); [apply HD|]. field. exact Hne.
      * apply amplitude_fsz_ext. intros x. rewrite shift_im_is. ring.
Qed.
Lemma diff_other_fsz S T A InvM PfM ip eleIdx eleSpn sr0 p : ~ 0 <= p < 2 * NSlater S -> slater_elm_diff_fsz S T A InvM PfM ip eleIdx eleSpn sr0 p = sr0 p.
Proof.
  intros Hp. unfold slater_elm_diff_fsz. cbv zeta. match goal with |- context [loop 0 (NMPTrans S * NQPOptTrans S) ?f ?s0] => destruct (loop 0 (NMPTrans S * NQPOptTrans S) f s0) as [ti ts] end.
  set (get := fun o : Z -> C => o p).
  etransitivity; [apply (loop_miss 0 (NSlater S) _ get)|].
  - intros i o Hi. unfold get. rewrite !upd_other by lia. reflexivity.
  - etransitivity; [apply (loop_miss 0 (NQPFull S) _ get)|].
    + intros q o Hq. apply (loop_miss 0 (NSlater S) _ get). intros i o' Hi. unfold get, Slater.Model.cadd, Pf.Model.cadd. rewrite !upd_other by lia. reflexivity.
    + apply (loop_miss 0 (NSlater S) _ get). intros i o Hi. unfold get. rewrite !upd_other by lia. reflexivity.
Qed.
