From Coq Require Import ZArith List Bool Lia Reals Lra.
From Coquelicot Require Import Complex.
From Verif Require Import Base.ZLoop Base.RSum Pf.Pfaffian Pf.Spec Pf.Proofs Slater.Model Slater.Spec Slater.Proofs Slater.ProofsElm Slater.ProofsDiff Slater.Derive.
Import ListNotations.
Local Open Scope Z_scope.

Section Der.
Variables (S : sizes) (T : qptables) (stot : Z) (beta weight : Z -> R) (para opt0 opt : Z -> C) (flag : bool).
Hypothesis HV : valid S T flag.
Let A := update_weights S flag opt (init_qp_weight S stot beta weight para flag opt0).
Variables (sl E0 InvM PfM : Z -> C) (eleIdx : Z -> Z).
Let n := 2 * Ne S.
Hypothesis Hlat : on_lattice (Nsite S) n eleIdx.
Hypothesis Hcur : current (Nsite S) (Ne S) (update_slater_elm S T A sl E0) 0 (NQPFull S) eleIdx InvM PfM.
Let amp := fun sl => amplitude S T stot beta weight para (opt_weight flag opt) sl eleIdx.
Let M := fun sl o m s i j => element (Nsite S) T sl o m (half S beta s) (orbital (Nsite S) (Ne S) eleIdx i) (orbital (Nsite S) (Ne S) eleIdx j).

Lemma orb i : 0 <= i < n -> 0 <= orbital (Nsite S) (Ne S) eleIdx i < 2 * Nsite S.
Proof. intros Hi. apply (orbital_range (Nsite S) (Ne S)); [apply HV|exact sl|exact Hlat|exact Hi]. Qed.
Lemma orb_parts i : 0 <= i < n -> orbital (Nsite S) (Ne S) eleIdx i mod Nsite S = eleIdx i /\ orbital (Nsite S) (Ne S) eleIdx i / Nsite S = i / Ne S.
Proof.
  intros Hi. assert (H := Hlat i Hi). unfold orbital. split.
  - rewrite Z_mod_plus_full. now apply Z.mod_small.
  - rewrite Z.div_add by lia. rewrite Z.div_small by assumption. lia.
Qed.
Lemma PM o m s i j : in_range S o m s -> 0 <= i < n -> 0 <= j < n ->
  pair_matrix (Nsite S) (Ne S) (update_slater_elm S T A sl E0) (projection S o m s + 0) eleIdx i j = M sl o m s i j.
Proof.
  intros HR Hi Hj. rewrite Z.add_0_r. unfold pair_matrix.
  apply (elements S T stot beta weight para opt0 opt flag HV sl E0 o m s); [assumption| |]; now apply orb.
Qed.
Lemma tables o m s : in_range S o m s -> PfM (projection S o m s) = pfaffian S T beta sl eleIdx o m s /\
  left_inverse (zrange 0 n) (stored n InvM (projection S o m s)) (M sl o m s) /\ skewsym (stored n InvM (projection S o m s)) (zrange 0 n).
Proof.
  intros HR. assert (Hq := projection_range S o m s HR). destruct (Hcur (projection S o m s)) as (HP & HI); [lia|].
  split.
  - rewrite HP. unfold pfaffian. apply (pf_ext _ _ (length (zrange 0 n))); [unfold n; lia|]. intros i j Hi Hj. apply zrange_in in Hi, Hj. now apply PM.
  - apply is_inverse_elim in HI. destruct HI as (HL & HS). split; [|exact HS]. intros i j Hi Hj. rewrite <- (HL i j Hi Hj).
    apply csum_ext. intros k Hk. apply zrange_in in Hj, Hk. f_equal. symmetry. now apply PM.
Qed.
Lemma M_skew sl' o m s : skewsym (M sl' o m s) (zrange 0 n).
Proof. intros i j _ _. unfold M. apply element_skew. Qed.

Lemma ip_is : calculate_ip A 0 (NQPFull S) PfM = amp sl.
Proof.
  assert (HV' := HV). destruct HV' as (HN & HNe & HG & HM & HO & HSl & Hflag & _).
  unfold calculate_ip. rewrite Z.sub_0_r, loop_csum by (unfold NQPFull, NQPFix; nia).
  rewrite csum_projection by lia. unfold amp, amplitude. change czero with (RtoC 0). rewrite Cplus_0_l.
  apply csum_ext. intros o Ho. apply zrange_in in Ho. apply csum_ext. intros m Hm. apply zrange_in in Hm. apply csum_ext. intros s Hs. apply zrange_in in Hs.
  assert (HR : in_range S o m s) by (repeat split; lia).
  f_equal; [|now apply tables]. rewrite Z.add_0_r. unfold A. cbn [update_weights QPFullWeight]. now apply full_weight.
Qed.

(** along sl + t*dir *)
Variables (k : Z) (u : C).
Let dir := fun x => Cmult u (iz (x =? k)).
Lemma element_line o m h x y t : element (Nsite S) T (fun j => Cplus (sl j) (Cmult (RtoC t) (dir j))) o m h x y
  = Cplus (element (Nsite S) T sl o m h x y) (Cmult (RtoC t) (element (Nsite S) T dir o m h x y)).
Proof. unfold element, pair. ring. Qed.
Lemma one_projection o m s : in_range S o m s ->
  cderive (fun t => pfaffian S T beta (fun j => Cplus (sl j) (Cmult (RtoC t) (dir j))) eleIdx o m s) (Cmult u (contribution S T beta InvM PfM eleIdx o m s k)).
Proof.
  intros HR. destruct (tables o m s HR) as (HP & HL & HX). set (X := stored n InvM (projection S o m s)) in *.
  destruct (pf_derive (zrange 0 n) (M sl o m s) X (M dir o m s) (zrange_NoDup 0 n) (M_skew sl o m s) (M_skew dir o m s) HL) as (d & Hd & E).
  assert (Ed : d = Cmult u (contribution S T beta InvM PfM eleIdx o m s k)).
  { set (c := Cmult u (contribution S T beta InvM PfM eleIdx o m s k)).
    assert (E2 : Cplus d d = Cplus c c).
    { rewrite E. unfold c, contribution. fold n. fold X. rewrite HP. change (pf (M sl o m s) (zrange 0 n)) with (pfaffian S T beta sl eleIdx o m s).
      set (P := pfaffian S T beta sl eleIdx o m s). set (h := half S beta s).
      set (f := fun i j => pair T (fun x => iz (x =? k)) o m (eleIdx i) (eleIdx j)).
      set (w := fun i j => RtoC (up h (i / Ne S) * down h (j / Ne S))%R).
      set (V := csum (zrange 0 n) (fun i => csum (zrange 0 n) (fun j => Cmult (Copp (w i j)) (Cmult (f i j) (X i j))))).
      assert (EV : csum (zrange 0 n) (fun a => csum (zrange 0 n) (fun b => Cmult (M dir o m s a b) (X b a))) = Cmult u (Cplus V V)).
      { rewrite (csum_ext (zrange 0 n) _ (fun a => Cplus (Cmult u (csum (zrange 0 n) (fun b => Cmult (Copp (w a b)) (Cmult (f a b) (X a b)))))
           (Cmult u (csum (zrange 0 n) (fun b => Cmult (Copp (w b a)) (Cmult (f b a) (X b a))))))).
        - rewrite csum_add, !csum_scal, (csum_swap (zrange 0 n) (zrange 0 n) (fun a b => Cmult (Copp (w b a)) (Cmult (f b a) (X b a)))).
          change (Cplus (Cmult u V) (Cmult u V) = Cmult u (Cplus V V)). ring.
        - intros a Ha. rewrite <- !csum_scal, <- csum_add. apply csum_ext. intros b Hb.
          rewrite (HX b a) by assumption. apply zrange_in in Ha, Hb. unfold M, element. destruct (orb_parts a Ha) as (-> & ->). destruct (orb_parts b Hb) as (-> & ->).
          rewrite (HX a b) by (apply zrange_in; assumption). fold h. unfold w, f, dir, pair. ring. }
      rewrite EV. change (Cmult P (Cmult u (Cplus V V)) = Cplus (Cmult u (Cmult P V)) (Cmult u (Cmult P V))). ring. }
    assert (D2 : Cmult (RtoC 2) d = Cmult (RtoC 2) c) by (replace (RtoC 2) with (Cplus (RtoC 1) (RtoC 1)) by (rewrite <- RtoC_plus; reflexivity); rewrite !Cmult_plus_distr_r, !Cmult_1_l; exact E2).
    apply (f_equal (Cmult (Cinv (RtoC 2)))) in D2. rewrite !Cmult_assoc, Cinv_l, !Cmult_1_l in D2; [exact D2|]. intros C0. injection C0. lra. }
  rewrite <- Ed. apply (cderive_ext (fun t => pf (line (M sl o m s) (M dir o m s) t) (zrange 0 n))); [|exact Hd].
  intros t. unfold pfaffian. apply (pf_ext _ _ (length (zrange 0 n))); [unfold n; lia|]. intros i j Hi Hj. unfold line, M. now rewrite element_line.
Qed.
Lemma cderive_scal c F d : cderive F d -> cderive (fun t => Cmult c (F t)) (Cmult c d).
Proof.
  intros H. assert (G := cderive_mult (fun _ => c) F (RtoC 0) d (cderive_const c) H).
  replace (Cmult c d) with (Cplus (Cmult (RtoC 0) (F R0)) (Cmult c d)) by ring. exact G.
Qed.
Lemma amp_derive : 0 <= k < NSlater S ->
  cderive (fun t => amp (fun j => Cplus (sl j) (Cmult (RtoC t) (dir j))))
    (Cmult u (csum (zrange 0 (NQPOptTrans S)) (fun o => csum (zrange 0 (NMPTrans S)) (fun m => csum (zrange 0 (NSPGaussLeg S)) (fun s =>
     Cmult (Cmult (opt_weight flag opt o) (Cmult (RtoC (spin_weight S stot beta weight s)) (para m))) (contribution S T beta InvM PfM eleIdx o m s k)))))).
Proof.
  intros Hk. unfold amp, amplitude. rewrite <- csum_scal. 
  apply (cderive_csum (zrange 0 (NQPOptTrans S)) (fun t o => csum (zrange 0 (NMPTrans S)) (fun m => csum (zrange 0 (NSPGaussLeg S)) (fun s => Cmult (Cmult (opt_weight flag opt o) (Cmult (RtoC (spin_weight S stot beta weight s)) (para m))) (pfaffian S T beta (fun j => Cplus (sl j) (Cmult (RtoC t) (dir j))) eleIdx o m s))))).
  intros o Ho. rewrite <- csum_scal.
  apply (cderive_csum (zrange 0 (NMPTrans S)) (fun t m => csum (zrange 0 (NSPGaussLeg S)) (fun s => Cmult (Cmult (opt_weight flag opt o) (Cmult (RtoC (spin_weight S stot beta weight s)) (para m))) (pfaffian S T beta (fun j => Cplus (sl j) (Cmult (RtoC t) (dir j))) eleIdx o m s)))).
  intros m Hm. rewrite <- csum_scal.
  apply (cderive_csum (zrange 0 (NSPGaussLeg S)) (fun t s => Cmult (Cmult (opt_weight flag opt o) (Cmult (RtoC (spin_weight S stot beta weight s)) (para m))) (pfaffian S T beta (fun j => Cplus (sl j) (Cmult (RtoC t) (dir j))) eleIdx o m s))).
  intros s Hs. apply zrange_in in Ho, Hm, Hs.
  match goal with |- cderive _ (Cmult u (Cmult ?W ?c)) => replace (Cmult u (Cmult W c)) with (Cmult W (Cmult u c)) by ring end.
  apply cderive_scal. apply one_projection. repeat split; lia.
Qed.
End Der.
