From Coq Require Import ZArith List Bool Lia Reals Lra.
From Coquelicot Require Import Complex.
From Verif Require Import Base.ZLoop Base.RSum Pf.Pfaffian Pf.Spec Pf.Proofs Fsz.Model Slater.Model Slater.Spec Slater.Proofs Slater.ProofsElm Slater.ProofsDiff Slater.Derive Fsz.Spec.
Import ListNotations.
Local Open Scope Z_scope.

Section Diff.
Variables (S : sizes) (T : qptables) (stot : Z) (beta weight : Z -> R) (para opt0 opt : Z -> C) (flag : bool).
Hypothesis HV : valid_fsz S T flag.
Let A := update_weights S flag opt (init_qp_weight S stot beta weight para flag opt0).
Variables (InvM PfM : Z -> C) (ip : C) (eleIdx eleSpn : Z -> Z) (sr0 : Z -> C).
Let n := 2 * Ne S.
Hypothesis Hlat : placed (Nsite S) n eleIdx eleSpn.
Let X := spin_orbital (Nsite S) eleIdx eleSpn.

(** what one projection adds for orbital parameter k *)
Definition contribution_fsz (o m k : Z) : C :=
  let q := projection S o m 0 in
  Cmult (PfM q) (csum (zrange 0 n) (fun i => csum (zrange 0 n) (fun j =>
    Cmult (Copp (pair_fsz (Nsite S) T (fun x => iz (x =? k)) o m (X i) (X j))) (stored n InvM q i j)))).

Lemma orb_parts_fsz i : 0 <= i < n -> X i mod Nsite S = eleIdx i /\ X i / Nsite S = eleSpn i.
Proof.
  intros Hi. destruct (Hlat i Hi) as (H & _). unfold X, spin_orbital. split.
  - rewrite Z_mod_plus_full. now apply Z.mod_small.
  - rewrite Z.div_add by lia. rewrite Z.div_small by assumption. lia.
Qed.
Lemma image_X o m i : 0 <= i < n -> image_fsz (Nsite S) T o m (X i) = image T o m (eleIdx i) + eleSpn i * Nsite S.
Proof. intros Hi. unfold image_fsz. destruct (orb_parts_fsz i Hi) as (-> & ->). reflexivity. Qed.
Lemma image_fsz_ok o m i : 0 <= o < NQPOptTrans S -> 0 <= m < NMPTrans S -> 0 <= i < n -> 0 <= image T o m (eleIdx i) + eleSpn i * Nsite S < 2 * Nsite S.
Proof.
  intros Ho Hm Hi. destruct HV as (_ & _ & _ & _ & _ & _ & _ & HT1 & HT2 & _). destruct (Hlat i Hi) as (Hr & Hs).
  assert (0 <= image T o m (eleIdx i) < Nsite S) by (unfold image; apply HT2; [assumption|]; apply HT1; assumption). destruct Hs as [-> | ->]; lia.
Qed.

Lemma diff_fsz k : 0 <= k < NSlater S ->
  let d := csum (zrange 0 (NQPOptTrans S)) (fun o => csum (zrange 0 (NMPTrans S)) (fun m =>
     Cmult (Cmult (opt_weight flag opt o) (para m)) (contribution_fsz o m k))) in
  slater_elm_diff_fsz S T A InvM PfM ip eleIdx eleSpn sr0 (2 * k) = Cmult d (Cinv ip) /\
  slater_elm_diff_fsz S T A InvM PfM ip eleIdx eleSpn sr0 (2 * k + 1) = Cmult (Cmult d Ci) (Cinv ip).
Proof.
  intros Hk d. assert (HV' := HV). destruct HV' as (HN & HNe & HG & HM & HO & HSl & Hflag & HT1 & HT2 & HOr).
  unfold slater_elm_diff_fsz. cbv zeta. fold (Nsize S). change (Nsize S) with n.
  match goal with |- context [loop 0 (NMPTrans S * NQPOptTrans S) ?f ?s0] => set (TR := loop 0 (NMPTrans S * NQPOptTrans S) f s0) end.
  assert (HTR : forall o m i j, 0 <= o < NQPOptTrans S -> 0 <= m < NMPTrans S -> 0 <= i < n -> 0 <= j < n ->
    (fst TR (pos n (o * NMPTrans S + m) i j), snd TR (pos n (o * NMPTrans S + m) i j)) =
    (OrbitalIdx T (image T o m (eleIdx i) + eleSpn i * Nsite S) (image T o m (eleIdx j) + eleSpn j * Nsite S),
     sign T o m (eleIdx i) * sign T o m (eleIdx j) * OrbitalSgn T (image T o m (eleIdx i) + eleSpn i * Nsite S) (image T o m (eleIdx j) + eleSpn j * Nsite S))).
  { intros o m i j Ho Hm Hi Hj. set (p := pos n (o * NMPTrans S + m) i j). unfold TR.
    set (get := fun st : (Z -> Z) * (Z -> Z) => (fst st p, snd st p)).
    match goal with |- (fst ?x _, snd ?x _) = _ => change (get x = (OrbitalIdx T (image T o m (eleIdx i) + eleSpn i * Nsite S) (image T o m (eleIdx j) + eleSpn j * Nsite S),
     sign T o m (eleIdx i) * sign T o m (eleIdx j) * OrbitalSgn T (image T o m (eleIdx i) + eleSpn i * Nsite S) (image T o m (eleIdx j) + eleSpn j * Nsite S))) end.
    apply (loop_hit 0 (NMPTrans S * NQPOptTrans S) _ get (o * NMPTrans S + m)); [rewrite (Z.mul_comm (NMPTrans S) (NQPOptTrans S)); now apply mixed_range| |].
    - intros st. rewrite mixed_div, mixed_mod by assumption.
      apply (loop_hit 0 n _ get i); [assumption| |].
      + intros st1. apply (loop_hit 0 n _ get j); [assumption| |].
        * intros st2. unfold get. cbn [fst snd]. change ((o * NMPTrans S + m) * n * n + i * n + j) with p. rewrite !upd_same. unfold image, sign. f_equal. ring.
        * intros j' st2 Hj' Hne. unfold get, p. cbn [fst snd]. rewrite !upd_other; [reflexivity| |]; intros C0; apply pos_inj in C0; lia.
      + intros i' st1 Hi' Hne. apply (loop_miss 0 n _ get). intros j' st2 Hj'. unfold get, p. cbn [fst snd].
        rewrite !upd_other; [reflexivity| |]; intros C0; apply pos_inj in C0; lia.
    - intros q' st Hq' Hne. apply (loop_miss 0 n _ get). intros i' st1 Hi'. apply (loop_miss 0 n _ get). intros j' st2 Hj'. unfold get, p. cbn [fst snd].
      rewrite !upd_other; [reflexivity| |]; intros C0; apply pos_inj in C0; lia. }
  clearbody TR. destruct TR as [ti ts]. cbn [fst snd] in HTR.
  match goal with |- context [loop 0 (NQPFull S) ?f (fun _ => czero)] => set (buffer := loop 0 (NQPFull S) f (fun _ => czero)) end.
  assert (HB : forall o m s, in_range S o m s -> buffer (projection S o m s * NSlater S + k) = contribution_fsz o m k).
  { intros o m s HR. assert (s = 0) as -> by (destruct HR as (_ & _ & HR); lia). destruct (projection_parts S o m 0 HR) as (_ & _ & _ & Em).
    set (q := projection S o m 0) in *.
    assert (Hq : 0 <= q < NQPFull S) by now apply projection_range.
    assert (Hti' : forall q' i j, 0 <= q' < NQPFull S -> 0 <= i < n -> 0 <= j < n -> 0 <= ti (pos n (q' / NSPGaussLeg S) i j) < NSlater S).
    { intros q' i j Hq' Hi Hj. destruct (projection_surj S q') as (o' & m' & s' & HR' & ->); try assumption; [lia|].
      destruct (projection_parts S o' m' s' HR') as (_ & _ & _ & ->).
      assert (H := HTR o' m' i j ltac:(apply HR') ltac:(apply HR') Hi Hj). injection H as -> _. apply HOr; apply image_fsz_ok; try assumption; apply HR'. }
    set (term := fun i j : Z => Cmult (iz (k =? ti (pos n (o * NMPTrans S + m) i j)))
       (Cmult (RtoC (IZR (ts (pos n (o * NMPTrans S + m) i j)))) (stored n InvM q i j))).
    assert (Hterm : forall i j, 0 <= i < n -> 0 <= j < n -> term i j = Cmult (pair_fsz (Nsite S) T (fun x => iz (x =? k)) o m (X i) (X j)) (stored n InvM q i j)).
    { intros i j Hi Hj. unfold term. assert (H := HTR o m i j ltac:(apply HR) ltac:(apply HR) Hi Hj). injection H as -> ->.
      unfold pair_fsz. rewrite !image_X by assumption. destruct (orb_parts_fsz i Hi) as (-> & _). destruct (orb_parts_fsz j Hj) as (-> & _). rewrite Z.eqb_sym. ring. }
    unfold buffer.
    rewrite (loop_cadditive 0 (NQPFull S) _ (fun q' => Cmult (iz (q =? q')) (csum (zrange 0 n) (fun i => csum (zrange 0 n) (fun j => Cmult (Copp (PfM q)) (term i j)))))); [|lia|].
    - change (Slater.Model.czero) with (RtoC 0). change (Pf.Model.czero) with (RtoC 0). rewrite (csum_delta (zrange 0 (NQPFull S)) q) by (try apply zrange_NoDup; apply zrange_in; assumption).
      unfold contribution_fsz. fold q. rewrite <- csum_scal. rewrite Cplus_0_l. apply csum_ext. intros i Hi. rewrite <- csum_scal. apply csum_ext. intros j Hj. apply zrange_in in Hi, Hj.
      rewrite Hterm by assumption. ring.
    - intros q' b Hq'.
      rewrite (loop_cadditive 0 n _ (fun i => Cmult (iz (q =? q')) (csum (zrange 0 n) (fun j => Cmult (Copp (PfM q)) (term i j))))); [now rewrite csum_scal|unfold n; lia|].
      intros i b' Hi.
      rewrite (loop_cadditive 0 n _ (fun j => Cmult (iz (q =? q')) (Cmult (Copp (PfM q)) (term i j)))); [now rewrite csum_scal|unfold n; lia|].
      intros j b'' Hj. change Pf.Model.cadd with cadd. rewrite cadd_mixed; [|assumption|apply (Hti' q' i j); lia]. f_equal.
      destruct (Z.eqb_spec q q') as [Eq|]; cbn [andb iz]; [|ring]. rewrite <- Eq, Em.
      unfold term. change ((o * NMPTrans S + m) * n * n + i * n + j) with (pos n (o * NMPTrans S + m) i j). change (InvM (q * n * n + i * n + j)) with (stored n InvM q i j).
      replace (RtoC (-1)) with (Copp (RtoC 1)) by (rewrite <- RtoC_opp; f_equal; lra).
      destruct (k =? _); cbn [iz]; ring. }
  clearbody buffer.
  match goal with |- context [loop 0 (NQPFull S) ?f (loop 0 (NSlater S) ?g sr0)] => set (o1 := loop 0 (NSlater S) g sr0); set (o2 := loop 0 (NQPFull S) f o1) end.
  assert (Z1 : o1 (2 * k) = RtoC 0).
  { unfold o1. apply (loop_hit 0 (NSlater S) _ (fun o : Z -> C => o (2 * k)) k); [assumption| |].
    - intros o. rewrite upd_other, upd_same by lia. reflexivity.
    - intros i o Hi Hne. rewrite !upd_other by lia. reflexivity. }
  assert (Z2 : o1 (2 * k + 1) = RtoC 0).
  { unfold o1. apply (loop_hit 0 (NSlater S) _ (fun o : Z -> C => o (2 * k + 1)) k); [assumption| |].
    - intros o. rewrite upd_same. reflexivity.
    - intros i o Hi Hne. rewrite !upd_other by lia. reflexivity. }
  set (B := csum (zrange 0 (NQPFull S)) (fun q => Cmult (QPFullWeight A q) (buffer (q * NSlater S + k)))).
  assert (HBd : B = d).
  { unfold B, d. rewrite csum_projection by lia. apply csum_ext. intros o Ho. apply zrange_in in Ho. apply csum_ext. intros m Hm. apply zrange_in in Hm.
    assert (HR : in_range S o m 0) by (repeat split; lia). rewrite HG. change (zrange 0 1) with [0]. cbn [csum]. rewrite HB by assumption. rewrite Cplus_0_r. f_equal.
    unfold A. cbn [update_weights QPFullWeight]. rewrite (full_weight S stot beta weight para opt0 flag) by (assumption || lia). unfold spin_weight. rewrite HG. cbn [Z.eqb Pos.eqb]. ring. }
  assert (Y1 : o2 (2 * k) = B).
  { unfold o2, B. rewrite (loop_cadditive 0 (NQPFull S) _ (fun q => Cmult (QPFullWeight A q) (buffer (q * NSlater S + k)))).
    - rewrite Z1. ring.
    - unfold NQPFull, NQPFix. nia.
    - intros q o Hq.
      apply (loop_once 0 (NSlater S) _ (fun o : Z -> C => o (2 * k)) (fun v => Cplus v (Cmult (QPFullWeight A q) (buffer (q * NSlater S + k)))) k); [assumption| |].
      + intros o'. unfold cadd. rewrite upd_other, upd_same by lia. reflexivity.
      + intros i o' Hi Hne. unfold cadd. rewrite !upd_other by lia. reflexivity. }
  assert (Y2 : o2 (2 * k + 1) = Cmult B Ci).
  { unfold o2, B. rewrite <- csum_scal_r. rewrite (loop_cadditive 0 (NQPFull S) _ (fun q => Cmult (Cmult (QPFullWeight A q) (buffer (q * NSlater S + k))) Ci)).
    - rewrite Z2. ring.
    - unfold NQPFull, NQPFix. nia.
    - intros q o Hq.
      apply (loop_once 0 (NSlater S) _ (fun o : Z -> C => o (2 * k + 1)) (fun v => Cplus v (Cmult (Cmult (QPFullWeight A q) (buffer (q * NSlater S + k))) Ci)) k); [assumption| |].
      + intros o'. unfold cadd. rewrite upd_same, upd_other by lia. reflexivity.
      + intros i o' Hi Hne. unfold cadd. rewrite !upd_other by lia. reflexivity. }
  rewrite <- HBd. split.
  - rewrite <- Y1. apply (loop_once 0 (NSlater S) _ (fun o : Z -> C => o (2 * k)) (fun v => Cmult v (Cinv ip)) k); [assumption| |].
    + intros o. rewrite upd_other, upd_same by lia. reflexivity.
    + intros i o Hi Hne. rewrite !upd_other by lia. reflexivity.
  - rewrite <- Y2. apply (loop_once 0 (NSlater S) _ (fun o : Z -> C => o (2 * k + 1)) (fun v => Cmult v (Cinv ip)) k); [assumption| |].
    + intros o. rewrite upd_same, upd_other by lia. reflexivity.
    + intros i o Hi Hne. rewrite !upd_other by lia. reflexivity.
Qed.
End Diff.
