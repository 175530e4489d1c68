From Coq Require Import ZArith List Bool Lia Reals Lra.
From Coquelicot Require Import Coquelicot.
From Verif Require Import Base.ZLoop Base.RSum Pf.Pfaffian Pf.Spec Pf.Proofs Pf.ProofsSeq Slater.Model Slater.Spec Slater.Proofs Slater.ProofsElm Slater.ProofsDiff Slater.ProofsDer Slater.Derive.
Import ListNotations.
Local Open Scope Z_scope.

Lemma cderive_spec F d : cderive F d -> derivative F d.
Proof. intros (H1 & H2). split; now apply is_derive_Reals. Qed.
Lemma cderive_spec' F d : derivative F d -> cderive F d.
Proof. intros (H1 & H2). split; now apply is_derive_Reals. Qed.
Lemma derivative_ext F G d : (forall t, F t = G t) -> derivative F d -> derivative G d.
Proof. intros H D. apply cderive_spec. apply (cderive_ext F); [exact H|now apply cderive_spec']. Qed.

Lemma amplitude_ext S T stot beta weight para opt sl sl' eleIdx : (forall x, sl x = sl' x) ->
  amplitude S T stot beta weight para opt sl eleIdx = amplitude S T stot beta weight para opt sl' eleIdx.
Proof.
  intros H. unfold amplitude. do 3 (apply csum_ext; intros). f_equal. unfold pfaffian. apply (pf_ext _ _ (length (zrange 0 (2 * Ne S)))); [lia|].
  intros. unfold element, pair. now rewrite !H.
Qed.
Lemma shift_re_is v k t x : shift_re v k t x = Cplus (v x) (Cmult (RtoC t) (Cmult (RtoC 1) (iz (x =? k)))).
Proof. unfold shift_re. rewrite upd_get. destruct (Z.eqb_spec x k) as [->|]; cbn [iz]; apply Ceq; cbn; ring. Qed.
Lemma shift_im_is v k t x : shift_im v k t x = Cplus (v x) (Cmult (RtoC t) (Cmult Ci (iz (x =? k)))).
Proof. unfold shift_im. rewrite upd_get. destruct (Z.eqb_spec x k) as [->|]; cbn [iz]; apply Ceq; cbn; ring. Qed.

Lemma slater_derivative S T stot beta weight para opt0 opt flag sl E0 InvM PfM eleIdx sr0 k :
  valid S T flag -> on_lattice (Nsite S) (2 * Ne S) eleIdx ->
  let A := update_weights S flag opt (init_qp_weight S stot beta weight para flag opt0) in
  current (Nsite S) (Ne S) (update_slater_elm S T A sl E0) 0 (NQPFull S) eleIdx InvM PfM ->
  let amp := fun sl => amplitude S T stot beta weight para (opt_weight flag opt) sl eleIdx in
  amp sl <> RtoC 0 -> 0 <= k < NSlater S ->
  let O := slater_elm_diff S T A InvM PfM (calculate_ip A 0 (NQPFull S) PfM) eleIdx sr0 in
  log_derivative (fun t => amp (shift_re sl k t)) (O (2 * k)) /\ log_derivative (fun t => amp (shift_im sl k t)) (O (2 * k + 1)).
Proof.
  intros HV Hlat A Hcur amp Hne Hk O.
  destruct (diff S T stot beta weight para opt0 opt flag HV InvM PfM (calculate_ip A 0 (NQPFull S) PfM) eleIdx sr0 Hlat k Hk) as (D1 & D2).
  fold A in D1, D2. unfold O. rewrite D1, D2.
  assert (Eip : calculate_ip A 0 (NQPFull S) PfM = amp sl) by (eapply ip_is; eassumption).
  rewrite Eip. set (d := csum _ _).
  assert (Hd : forall u, cderive (fun t => amp (fun j => Cplus (sl j) (Cmult (RtoC t) (Cmult u (iz (j =? k)))))) (Cmult u d)).
  { intros u. eapply amp_derive; eassumption. }
  split.
  - unfold log_derivative. cbv beta. replace (amp (shift_re sl k 0)) with (amp sl).
    2:{ apply amplitude_ext. intros x. rewrite shift_re_is. ring. }
    replace (Cmult (Cmult d (Cinv (amp sl))) (amp sl)) with (Cmult (RtoC 1) d) by (field; exact Hne).
    apply cderive_spec. eapply cderive_ext; [|apply Hd]. intros t. apply amplitude_ext. intros x. now rewrite shift_re_is.
  - unfold log_derivative. cbv beta. replace (amp (shift_im sl k 0)) with (amp sl).
    2:{ apply amplitude_ext. intros x. rewrite shift_im_is. ring. }
    replace (Cmult (Cmult (Cmult d Ci) (Cinv (amp sl))) (amp sl)) with (Cmult Ci d) by (field; exact Hne).
    apply cderive_spec. eapply cderive_ext; [|apply Hd]. intros t. apply amplitude_ext. intros x. now rewrite shift_im_is.
Qed.
Lemma diff_other S T A InvM PfM ip eleIdx sr0 p : ~ 0 <= p < 2 * NSlater S -> slater_elm_diff S T A InvM PfM ip eleIdx sr0 p = sr0 p.
Proof.
  intros Hp. unfold slater_elm_diff. cbv zeta. match goal with |- context [loop 0 (NMPTrans S * NQPOptTrans S) ?f ?s0] => destruct (loop 0 (NMPTrans S * NQPOptTrans S) f s0) as [ti ts] end.
  set (get := fun o : Z -> C => o p).
  match goal with |- loop _ _ _ (loop _ _ _ (loop _ _ _ sr0)) p = _ => idtac end.
  etransitivity; [apply (loop_miss 0 (NSlater S) _ get)|].
  - intros i o Hi. unfold get. rewrite !upd_other by lia. reflexivity.
  - etransitivity; [apply (loop_miss 0 (NQPFull S) _ get)|].
    + intros q o Hq. apply (loop_miss 0 (NSlater S) _ get). intros i o' Hi. unfold get, cadd. rewrite !upd_other by lia. reflexivity.
    + apply (loop_miss 0 (NSlater S) _ get). intros i o Hi. unfold get. rewrite !upd_other by lia. reflexivity.
Qed.

(** ** transform weights *)
Section Trans.
Variables (S : sizes) (T : qptables) (stot : Z) (beta weight : Z -> R) (para opt0 opt : Z -> C).
Hypothesis HV : valid S T true.
Let A := update_weights S true opt (init_qp_weight S stot beta weight para true opt0).
Variables (sl E0 InvM PfM : Z -> C) (eleIdx : Z -> Z) (sr0 : Z -> C).
Hypothesis Hlat : on_lattice (Nsite S) (2 * Ne S) eleIdx.
Hypothesis Hcur : current (Nsite S) (Ne S) (update_slater_elm S T A sl E0) 0 (NQPFull S) eleIdx InvM PfM.
Let amp := fun opt => amplitude S T stot beta weight para opt sl eleIdx.
Definition dopt (i : Z) : C := csum (zrange 0 (NMPTrans S)) (fun m => csum (zrange 0 (NSPGaussLeg S)) (fun s =>
    Cmult (Cmult (RtoC (spin_weight S stot beta weight s)) (para m)) (pfaffian S T beta sl eleIdx i m s))).
Lemma opt_value i ip : 0 <= i < NQPOptTrans S -> calculate_opt_trans_diff S A PfM ip sr0 i = Cmult (dopt i) (Cinv ip).
Proof.
  intros Hi. assert (HV' := HV). destruct HV' as (HN & HNe & HG & HM & HO & HSl & Hflag & _).
  unfold calculate_opt_trans_diff. apply (loop_hit 0 (NQPOptTrans S) _ (fun o : Z -> C => o i) i); [assumption| |].
  - intros o. rewrite upd_same. f_equal. rewrite loop_csum by (unfold NQPFix; nia). change czero with (RtoC 0). rewrite Cplus_0_l.
    unfold dopt, NQPFix. rewrite (Z.mul_comm (NSPGaussLeg S) (NMPTrans S)), csum_product by lia.
    apply csum_ext. intros m Hm. apply zrange_in in Hm. apply csum_ext. intros s Hs. apply zrange_in in Hs.
    assert (HR : in_range S i m s) by (repeat split; lia).
    f_equal.
    + unfold A. cbn [update_weights QPFixWeight]. now apply init_fix.
    + replace (i * (NMPTrans S * NSPGaussLeg S) + (m * NSPGaussLeg S + s)) with (projection S i m s) by (unfold projection; ring).
      eapply tables; eassumption.
  - intros j o Hj Hne. apply upd_other. lia.
Qed.
Lemma opt_derive i : 0 <= i < NQPOptTrans S -> cderive (fun t => amp (shift_re opt i t)) (dopt i).
Proof.
  intros Hi.
  apply (cderive_ext (fun t => Cplus (amp opt) (Cmult (RtoC t) (dopt i)))); [|apply cderive_affine].
  intros t. unfold amp, amplitude.
  rewrite <- (csum_delta (zrange 0 (NQPOptTrans S)) i dopt) by (try apply zrange_NoDup; apply zrange_in; assumption).
  rewrite <- csum_scal, <- csum_add. apply csum_ext. intros o Ho. unfold dopt, delta.
  rewrite (csum_ext (zrange 0 (NMPTrans S)) (fun m => csum (zrange 0 (NSPGaussLeg S)) (fun s => Cmult (Cmult (shift_re opt i t o) _) _))
     (fun m => Cmult (shift_re opt i t o) (csum (zrange 0 (NSPGaussLeg S)) (fun s => Cmult (Cmult (RtoC (spin_weight S stot beta weight s)) (para m)) (pfaffian S T beta sl eleIdx o m s))))).
  2:{ intros m Hm. rewrite <- csum_scal. apply csum_ext. intros. ring. }
  rewrite (csum_ext (zrange 0 (NMPTrans S)) (fun m => csum (zrange 0 (NSPGaussLeg S)) (fun s => Cmult (Cmult (opt o) _) _))
     (fun m => Cmult (opt o) (csum (zrange 0 (NSPGaussLeg S)) (fun s => Cmult (Cmult (RtoC (spin_weight S stot beta weight s)) (para m)) (pfaffian S T beta sl eleIdx o m s))))).
  2:{ intros m Hm. rewrite <- csum_scal. apply csum_ext. intros. ring. }
  rewrite !csum_scal. rewrite shift_re_is, (Z.eqb_sym o i). unfold iz. destruct (i =? o); ring.
Qed.
Lemma opt_log i : 0 <= i < NQPOptTrans S -> amp opt <> RtoC 0 ->
  log_derivative (fun t => amp (shift_re opt i t)) (calculate_opt_trans_diff S A PfM (calculate_ip A 0 (NQPFull S) PfM) sr0 i).
Proof.
  intros Hi Hne. rewrite opt_value by assumption.
  assert (Eip : calculate_ip A 0 (NQPFull S) PfM = amp opt).
  { unfold A. erewrite ip_is; try eassumption. reflexivity. }
  rewrite Eip. unfold log_derivative. cbv beta. replace (amp (shift_re opt i 0)) with (amp opt).
  2:{ unfold amp, amplitude. do 3 (apply csum_ext; intros). f_equal. f_equal. rewrite shift_re_is. ring. }
  replace (Cmult (Cmult (dopt i) (Cinv (amp opt))) (amp opt)) with (dopt i) by (field; exact Hne).
  apply cderive_spec. now apply opt_derive.
Qed.
End Trans.
