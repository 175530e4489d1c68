From Coq Require Import ZArith List Bool Lia Reals Lra.
From Coquelicot Require Import Complex.
From Verif Require Import Base.ZLoop Base.RSum Pf.Pfaffian Pf.Spec Pf.Proofs Slater.Model Slater.Spec Slater.Proofs Slater.ProofsElm Slater.Derive.
Import ListNotations.
Local Open Scope Z_scope.

Definition iz (b : bool) : C := if b then RtoC 1 else RtoC 0.
Lemma cadd_mixed (b : Z -> C) K q q' k t v : 0 <= k < K -> 0 <= t < K ->
  cadd b (q' * K + t) v (q * K + k) = Cplus (b (q * K + k)) (Cmult (iz ((q =? q') && (k =? t))) v).
Proof.
  intros Hk Ht. unfold cadd. rewrite upd_get. destruct (Z.eqb_spec (q * K + k) (q' * K + t)) as [E|E].
  - apply mixed_unique in E as E'; [|assumption|assumption]. destruct E' as (-> & ->). rewrite !Z.eqb_refl. cbn. ring.
  - destruct (Z.eqb_spec q q') as [->|], (Z.eqb_spec k t) as [->|]; cbn; try ring. tauto.
Qed.

Section Diff.
Variables (S : sizes) (T : qptables) (stot : Z) (beta weight : Z -> R) (para opt0 opt : Z -> C) (flag : bool).
Hypothesis HV : valid S T flag.
Let A := update_weights S flag opt (init_qp_weight S stot beta weight para flag opt0).
Variables (InvM PfM : Z -> C) (ip : C) (eleIdx : Z -> Z) (sr0 : Z -> C).
Let n := 2 * Ne S.
Hypothesis Hlat : on_lattice (Nsite S) n eleIdx.

(** what one projection adds for orbital parameter k *)
Definition contribution (o m s k : Z) : C :=
  let q := projection S o m s in let h := half S beta s in
  Cmult (PfM q) (csum (zrange 0 n) (fun i => csum (zrange 0 n) (fun j =>
    Cmult (Copp (RtoC (up h (i / Ne S) * down h (j / Ne S))%R))
      (Cmult (pair T (fun x => iz (x =? k)) o m (eleIdx i) (eleIdx j)) (stored n InvM q i j))))).

Lemma image_ok o m s i : in_range S o m s -> 0 <= i < n -> 0 <= image T o m (eleIdx i) < Nsite S.
Proof.
  intros (Ho & Hm & _) Hi. destruct HV as (_ & _ & _ & _ & _ & _ & _ & HT1 & HT2 & _).
  unfold image. apply HT2; [assumption|]. apply HT1; [assumption|]. now apply Hlat.
Qed.
Lemma spin_low i : 0 <= i < Ne S -> i / Ne S = 0.
Proof. intros. now apply Z.div_small. Qed.
Lemma spin_high i : Ne S <= i < n -> i / Ne S = 1.
Proof. intros. unfold n in *. symmetry. apply (Z.div_unique _ _ _ (i - Ne S)); lia. Qed.

Lemma diff k : 0 <= k < NSlater S ->
  let d := csum (zrange 0 (NQPOptTrans S)) (fun o => csum (zrange 0 (NMPTrans S)) (fun m => csum (zrange 0 (NSPGaussLeg S)) (fun s =>
     Cmult (Cmult (opt_weight flag opt o) (Cmult (RtoC (spin_weight S stot beta weight s)) (para m))) (contribution o m s k)))) in
  slater_elm_diff S T A InvM PfM ip eleIdx sr0 (2 * k) = Cmult d (Cinv ip) /\
  slater_elm_diff S T A InvM PfM ip eleIdx sr0 (2 * k + 1) = Cmult (Cmult d Ci) (Cinv ip).
Proof.
  intros Hk d. assert (HV' := HV). destruct HV' as (HN & HNe & HG & HM & HO & HSl & Hflag & HT1 & HT2 & HOr).
  unfold slater_elm_diff. cbv zeta. fold (Nsize S). change (Nsize S) with n.
  match goal with |- context [loop 0 (NMPTrans S * NQPOptTrans S) ?f ?s0] => set (TR := loop 0 (NMPTrans S * NQPOptTrans S) f s0) end.
  assert (HTR : forall o m i j, 0 <= o < NQPOptTrans S -> 0 <= m < NMPTrans S -> 0 <= i < n -> 0 <= j < n ->
    (fst TR (pos n (o * NMPTrans S + m) i j), snd TR (pos n (o * NMPTrans S + m) i j)) =
    (OrbitalIdx T (image T o m (eleIdx i)) (image T o m (eleIdx j)),
     sign T o m (eleIdx i) * sign T o m (eleIdx j) * OrbitalSgn T (image T o m (eleIdx i)) (image T o m (eleIdx j)))).
  { intros o m i j Ho Hm Hi Hj. set (p := pos n (o * NMPTrans S + m) i j). unfold TR.
    set (get := fun st : (Z -> Z) * (Z -> Z) => (fst st p, snd st p)).
    match goal with |- (fst ?x _, snd ?x _) = _ => change (get x = (OrbitalIdx T (image T o m (eleIdx i)) (image T o m (eleIdx j)),
     sign T o m (eleIdx i) * sign T o m (eleIdx j) * OrbitalSgn T (image T o m (eleIdx i)) (image T o m (eleIdx j)))) end.
    apply (loop_hit 0 (NMPTrans S * NQPOptTrans S) _ get (o * NMPTrans S + m)); [rewrite (Z.mul_comm (NMPTrans S) (NQPOptTrans S)); now apply mixed_range| |].
    - intros st. rewrite mixed_div, mixed_mod by assumption.
      apply (loop_hit 0 n _ get i); [assumption| |].
      + intros st1. apply (loop_hit 0 n _ get j); [assumption| |].
        * intros st2. unfold get. cbn [fst snd]. change ((o * NMPTrans S + m) * n * n + i * n + j) with p. rewrite !upd_same. unfold image, sign. f_equal. ring.
        * intros j' st2 Hj' Hne. unfold get, p. cbn [fst snd]. rewrite !upd_other; [reflexivity| |]; intros C0; apply pos_inj in C0; lia.
      + intros i' st1 Hi' Hne. apply (loop_miss 0 n _ get). intros j' st2 Hj'. unfold get, p. cbn [fst snd].
        rewrite !upd_other; [reflexivity| |]; intros C0; apply pos_inj in C0; lia.
    - intros q' st Hq' Hne. apply (loop_miss 0 n _ get). intros i' st1 Hi'. apply (loop_miss 0 n _ get). intros j' st2 Hj'. unfold get, p. cbn [fst snd].
      rewrite !upd_other; [reflexivity| |]; intros C0; apply pos_inj in C0; lia. }
  clearbody TR. destruct TR as [ti ts]. cbn [fst snd] in HTR.
  match goal with |- context [loop 0 (NQPFull S) ?f (fun _ => czero)] => set (buffer := loop 0 (NQPFull S) f (fun _ => czero)) end.
  assert (HB : forall o m s, in_range S o m s -> buffer (projection S o m s * NSlater S + k) = contribution o m s k).
  { intros o m s HR. destruct (projection_parts S o m s HR) as (_ & _ & Es & Em).
    set (q := projection S o m s) in *.
    assert (Hq : 0 <= q < NQPFull S) by now apply projection_range.
    destruct (init_angles S stot beta weight para opt0 flag HG s) as (Acs & Acc & Ass); [apply HR|].
    set (h := half S beta s) in *.
    assert (Hti : forall i j, 0 <= i < n -> 0 <= j < n -> 0 <= ti (pos n (o * NMPTrans S + m) i j) < NSlater S).
    { intros i j Hi Hj. assert (H := HTR o m i j ltac:(apply HR) ltac:(apply HR) Hi Hj). injection H as -> _. apply HOr; eapply image_ok; eassumption. }
    assert (Hti' : forall q' i j, 0 <= q' < NQPFull S -> 0 <= i < n -> 0 <= j < n -> 0 <= ti (pos n (q' / NSPGaussLeg S) i j) < NSlater S).
    { intros q' i j Hq' Hi Hj. destruct (projection_surj S q') as (o' & m' & s' & HR' & ->); try assumption.
      destruct (projection_parts S o' m' s' HR') as (_ & _ & _ & ->).
      assert (H := HTR o' m' i j ltac:(apply HR') ltac:(apply HR') Hi Hj). injection H as -> _. apply HOr; eapply image_ok; eassumption. }
    set (term := fun i j : Z => Cmult (iz (k =? ti (pos n (o * NMPTrans S + m) i j)))
       (Cmult (RtoC (IZR (ts (pos n (o * NMPTrans S + m) i j)))) (stored n InvM q i j))).
    assert (Hterm : forall i j, 0 <= i < n -> 0 <= j < n -> term i j = Cmult (pair T (fun x => iz (x =? k)) o m (eleIdx i) (eleIdx j)) (stored n InvM q i j)).
    { intros i j Hi Hj. unfold term. assert (H := HTR o m i j ltac:(apply HR) ltac:(apply HR) Hi Hj). injection H as -> ->.
      unfold pair. rewrite Z.eqb_sym. ring. }
    set (uv := fun a b => Cmult (PfM q) (Copp (RtoC (up h a * down h b)%R))).
    unfold buffer.
    rewrite (loop_cadditive 0 (NQPFull S) _ (fun q' => Cmult (iz (q =? q'))
       (Cplus (csum (zrange 0 (Ne S)) (fun i => Cplus (csum (zrange 0 (Ne S)) (fun j => Cmult (uv 0 0) (term i j))) (csum (zrange (Ne S) n) (fun j => Cmult (uv 0 1) (term i j)))))
              (csum (zrange (Ne S) n) (fun i => Cplus (csum (zrange 0 (Ne S)) (fun j => Cmult (uv 1 0) (term i j))) (csum (zrange (Ne S) n) (fun j => Cmult (uv 1 1) (term i j)))))))); [|lia|].
    - change (czero) with (RtoC 0). rewrite (csum_delta (zrange 0 (NQPFull S)) q) by (try apply zrange_NoDup; apply zrange_in; assumption).
      unfold contribution. fold q h. rewrite <- csum_scal.
      rewrite (zrange_app 0 (Ne S) n) by (unfold n; lia). rewrite csum_app.
      rewrite Cplus_0_l. f_equal; apply csum_ext; intros i Hi; apply zrange_in in Hi; rewrite csum_app, Cmult_plus_distr_l, <- !csum_scal; f_equal; apply csum_ext; intros j Hj; apply zrange_in in Hj;
        rewrite ?(spin_low i), ?(spin_low j), ?(spin_high i), ?(spin_high j) by lia; rewrite Hterm by (unfold n; lia); unfold uv; ring.
    - intros q' b Hq'.
      assert (Hrow : forall (cf : C) b c1 c2 i (g : Z -> C), 0 <= i < n -> 0 <= c1 -> c1 <= c2 -> c2 <= n ->
        (forall j, c1 <= j < c2 -> q = q' -> g j = Cmult cf (Cmult (RtoC (IZR (ts (pos n (o * NMPTrans S + m) i j)))) (stored n InvM q i j))) ->
        loop c1 c2 (fun msj b => cadd b (q' * NSlater S + ti (q' / NSPGaussLeg S * n * n + i * n + msj)) (g msj)) b (q * NSlater S + k) =
        Cplus (b (q * NSlater S + k)) (Cmult (iz (q =? q')) (csum (zrange c1 c2) (fun j => Cmult cf (term i j))))).
      { intros cf b0 c1 c2 i g Hi Hc1 Hc12 Hc2 Hg.
        rewrite (loop_cadditive c1 c2 _ (fun j => Cmult (iz (q =? q')) (Cmult cf (term i j)))); [now rewrite csum_scal|assumption|].
        intros j b' Hj. rewrite cadd_mixed; [|assumption|apply (Hti' q' i j); lia]. f_equal.
        destruct (Z.eqb_spec q q') as [Eq|]; cbn [andb iz]; [|ring]. rewrite (Hg j Hj Eq).
        unfold term. rewrite <- Eq, Em. change ((o * NMPTrans S + m) * n * n + i * n + j) with (pos n (o * NMPTrans S + m) i j).
        destruct (k =? _); cbn [iz]; ring. }
      assert (Acs' : SPGLCosSin A s = (cos h * sin h)%R) by exact Acs.
      assert (Acc' : SPGLCosCos A s = (cos h * cos h)%R) by exact Acc.
      assert (Ass' : SPGLSinSin A s = (sin h * sin h)%R) by exact Ass.
      rewrite Cmult_plus_distr_l, Cplus_assoc.
      rewrite (loop_cadditive (Ne S) n _ (fun i => Cmult (iz (q =? q')) (Cplus (csum (zrange 0 (Ne S)) (fun j => Cmult (uv 1 0) (term i j))) (csum (zrange (Ne S) n) (fun j => Cmult (uv 1 1) (term i j)))))).
      + rewrite csum_scal. f_equal.
        rewrite (loop_cadditive 0 (Ne S) _ (fun i => Cmult (iz (q =? q')) (Cplus (csum (zrange 0 (Ne S)) (fun j => Cmult (uv 0 0) (term i j))) (csum (zrange (Ne S) n) (fun j => Cmult (uv 0 1) (term i j)))))).
        * now rewrite csum_scal.
        * lia.
        * intros i b' Hi. rewrite Cmult_plus_distr_l, Cplus_assoc.
          rewrite (Hrow (uv 0 1)); [f_equal|unfold n; lia|unfold n; lia|unfold n; lia|unfold n; lia|].
          -- rewrite (Hrow (uv 0 0)); [reflexivity|unfold n; lia|unfold n; lia|unfold n; lia|unfold n; lia|].
             intros j Hj <-. rewrite Es, Em, Acs'. unfold uv, up, down, stored, pos. cbn [Z.eqb]. rewrite !RtoC_mult, RtoC_opp. ring.
          -- intros j Hj <-. rewrite Es, Em, Acc'. unfold uv, up, down, stored, pos. cbn [Z.eqb]. rewrite !RtoC_mult. ring.
      + unfold n; lia.
      + intros i b' Hi. rewrite Cmult_plus_distr_l, Cplus_assoc.
        rewrite (Hrow (uv 1 1)); [f_equal|unfold n in *; lia|unfold n; lia|unfold n; lia|unfold n; lia|].
        * rewrite (Hrow (uv 1 0)); [reflexivity|unfold n in *; lia|unfold n; lia|unfold n; lia|unfold n; lia|].
          intros j Hj <-. rewrite Es, Em, Ass'. unfold uv, up, down, stored, pos. cbn [Z.eqb]. rewrite !RtoC_mult, RtoC_opp. ring.
        * intros j Hj <-. rewrite Es, Em, Acs'. unfold uv, up, down, stored, pos. cbn [Z.eqb]. rewrite !RtoC_mult. ring. }
  clearbody buffer.
  match goal with |- context [loop 0 (NQPFull S) ?f (loop 0 (NSlater S) ?g sr0)] => set (o1 := loop 0 (NSlater S) g sr0); set (o2 := loop 0 (NQPFull S) f o1) end.
  assert (Z1 : o1 (2 * k) = RtoC 0).
  { unfold o1. apply (loop_hit 0 (NSlater S) _ (fun o : Z -> C => o (2 * k)) k); [assumption| |].
    - intros o. rewrite upd_other, upd_same by lia. reflexivity.
    - intros i o Hi Hne. rewrite !upd_other by lia. reflexivity. }
  assert (Z2 : o1 (2 * k + 1) = RtoC 0).
  { unfold o1. apply (loop_hit 0 (NSlater S) _ (fun o : Z -> C => o (2 * k + 1)) k); [assumption| |].
    - intros o. rewrite upd_same. reflexivity.
    - intros i o Hi Hne. rewrite !upd_other by lia. reflexivity. }
  set (B := csum (zrange 0 (NQPFull S)) (fun q => Cmult (QPFullWeight A q) (buffer (q * NSlater S + k)))).
  assert (HBd : B = d).
  { unfold B, d. rewrite csum_projection by lia. apply csum_ext. intros o Ho. apply zrange_in in Ho. apply csum_ext. intros m Hm. apply zrange_in in Hm.
    apply csum_ext. intros s Hs. apply zrange_in in Hs. rewrite HB by (repeat split; lia). f_equal.
    unfold A. cbn [update_weights QPFullWeight]. apply full_weight; [assumption|assumption|repeat split; lia]. }
  assert (Y1 : o2 (2 * k) = B).
  { unfold o2, B. rewrite (loop_cadditive 0 (NQPFull S) _ (fun q => Cmult (QPFullWeight A q) (buffer (q * NSlater S + k)))).
    - rewrite Z1. ring.
    - unfold NQPFull, NQPFix. nia.
    - intros q o Hq.
      apply (loop_once 0 (NSlater S) _ (fun o : Z -> C => o (2 * k)) (fun v => Cplus v (Cmult (QPFullWeight A q) (buffer (q * NSlater S + k)))) k); [assumption| |].
      + intros o'. unfold cadd. rewrite upd_other, upd_same by lia. reflexivity.
      + intros i o' Hi Hne. unfold cadd. rewrite !upd_other by lia. reflexivity. }
  assert (Y2 : o2 (2 * k + 1) = Cmult B Ci).
  { unfold o2, B. rewrite <- csum_scal_r. rewrite (loop_cadditive 0 (NQPFull S) _ (fun q => Cmult (Cmult (QPFullWeight A q) (buffer (q * NSlater S + k))) Ci)).
    - rewrite Z2. ring.
    - unfold NQPFull, NQPFix. nia.
    - intros q o Hq.
      apply (loop_once 0 (NSlater S) _ (fun o : Z -> C => o (2 * k + 1)) (fun v => Cplus v (Cmult (Cmult (QPFullWeight A q) (buffer (q * NSlater S + k))) Ci)) k); [assumption| |].
      + intros o'. unfold cadd. rewrite upd_same, upd_other by lia. reflexivity.
      + intros i o' Hi Hne. unfold cadd. rewrite !upd_other by lia. reflexivity. }
  rewrite <- HBd. split.
  - rewrite <- Y1. apply (loop_once 0 (NSlater S) _ (fun o : Z -> C => o (2 * k)) (fun v => Cmult v (Cinv ip)) k); [assumption| |].
    + intros o. rewrite upd_other, upd_same by lia. reflexivity.
    + intros i o Hi Hne. rewrite !upd_other by lia. reflexivity.
  - rewrite <- Y2. apply (loop_once 0 (NSlater S) _ (fun o : Z -> C => o (2 * k + 1)) (fun v => Cmult v (Cinv ip)) k); [assumption| |].
    + intros o. rewrite upd_same, upd_other by lia. reflexivity.
    + intros i o Hi Hne. rewrite !upd_other by lia. reflexivity.
Qed.
End Diff.
