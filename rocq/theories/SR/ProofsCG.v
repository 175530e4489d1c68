(** Conjugate gradients *)
From Coq Require Import ZArith List Bool Reals Lia Lra Permutation.
From Coquelicot Require Import Complex.
From Verif Require Import Base.ZLoop Base.RSum Par.Model Par.Proofs SR.Model SR.Spec SR.Proofs SR.ProofsSel SR.ProofsMat.
Import ListNotations.
Local Open Scope Z_scope.

(** ** one process in conjugate-gradient mode *)
Lemma cg_oo_get S m (st oo : Z -> C) : 0 < S -> 0 <= m ->
  let r := calculateOO_Store S true m st oo in
  forall i, 0 <= i < 2 * S ->
  r i = csum (zrange 0 m) (fun j => st (i + j * (2 * S))) /\
  r (2 * S + i) = csum (zrange 0 m) (fun j => let o := st (i + j * (2 * S)) in RtoC (fst o * fst o + snd o * snd o)).
Proof.
  intros HS Hm. cbn zeta. unfold calculateOO_Store. set (n := 2 * S).
  set (z := loop 0 n (fun i oo => upd (upd oo i (RtoC 0)) (i + n) (RtoC 0)) oo).
  assert (Z0 : forall i, 0 <= i < n -> z i = RtoC 0 /\ z (n + i) = RtoC 0).
  { assert (T : forall i, 0 <= i < n -> i < n -> z i = RtoC 0 /\ z (n + i) = RtoC 0).
    { unfold z. apply (loop_inv (fun e z => forall i, 0 <= i < n -> i < e -> z i = RtoC 0 /\ z (n + i) = RtoC 0)); [lia| |].
      - intros. lia.
      - intros e q He IH i Hi Hie. rewrite !upd_get. destruct (Z.eqb_spec i (e + n)); [lia|]. destruct (Z.eqb_spec (n + i) (e + n)).
        + destruct (Z.eqb_spec i e); [|lia]. split; reflexivity.
        + destruct (Z.eqb_spec i e); [lia|]. destruct (Z.eqb_spec (n + i) e); [lia|]. apply IH; lia. }
    intros; apply T; lia. }
  assert (Row : forall (f : Z -> C) (g : Z -> C) q i, 0 <= i < n ->
     let r := loop 0 n (fun i oo => cadd (cadd oo i (f i)) (i + n) (g i)) q in r i = Cplus (q i) (f i) /\ r (n + i) = Cplus (q (n + i)) (g i)).
  { intros f g q i Hi. cbn zeta.
    assert (T : forall i, 0 <= i < n -> let r := loop 0 n (fun i oo => cadd (cadd oo i (f i)) (i + n) (g i)) q in
      r i = Cplus (q i) (if i <? n then f i else RtoC 0) /\ r (n + i) = Cplus (q (n + i)) (if i <? n then g i else RtoC 0)).
    { cbn zeta. apply (loop_inv (fun e r => forall i, 0 <= i < n -> r i = Cplus (q i) (if i <? e then f i else RtoC 0) /\ r (n + i) = Cplus (q (n + i)) (if i <? e then g i else RtoC 0))); [lia| |].
      - intros j Hj. destruct (Z.ltb_spec j 0); [lia|]. split; ring.
      - intros e r He IH j Hj. destruct (IH j Hj) as (A & B). rewrite !cadd_get.
        destruct (Z.eqb_spec j (e + n)); [lia|]. destruct (Z.eqb_spec (e + n) e); [lia|]. destruct (Z.eqb_spec (n + j) e); [lia|].
        destruct (Z.eqb_spec j e) as [->|].
        + destruct (Z.eqb_spec (n + e) (e + n)); [|lia]. replace (e + n) with (n + e) by ring. rewrite A, B.
          destruct (Z.ltb_spec e e), (Z.ltb_spec e (e + 1)); try lia. split; ring.
        + destruct (Z.eqb_spec (n + j) (e + n)); [lia|]. rewrite A, B. destruct (Z.ltb_spec j e), (Z.ltb_spec j (e + 1)); try lia; split; reflexivity. }
    specialize (T i Hi). cbn zeta in T. destruct (Z.ltb_spec i n); [exact T|lia]. }
  apply (loop_inv (fun e r => forall i, 0 <= i < n ->
    r i = csum (zrange 0 e) (fun j => st (i + j * n)) /\
    r (n + i) = csum (zrange 0 e) (fun j => let o := st (i + j * n) in RtoC (fst o * fst o + snd o * snd o)))); [lia| |].
  - intros i Hi. rewrite zrange_nil by lia. cbn [csum]. now apply Z0.
  - intros e r He IH i Hi. destruct (IH i Hi) as (A & B). rewrite zrange_snoc, !csum_snoc by lia. cbn zeta.
    destruct (Row (fun i => st (i + e * n)) (fun i => let o := st (i + e * n) in RtoC (fst o * fst o + snd o * snd o)) r i Hi) as (C1 & C2).
    cbn zeta in C1, C2. rewrite C1, C2, A, B. split; reflexivity.
Qed.
(** what process p holds in conjugate-gradient mode when its group has one process and nothing is skipped *)
Lemma main_cg S N smp st : 0 < S -> 0 <= N -> (forall i, 0 <= i < N -> ok (smp i) = true /\ wgt (smp i) = 1%R) ->
  let r := main_cal S true false N 1 0 smp st in
  sums (part smp 0 N) r /\ sumsHO S (part smp 0 N) (HO r) /\
  (forall i j, 0 <= i < N -> 0 <= j < 2 * S -> Store r (j + i * (2 * S)) = srOptO (smp i) j) /\
  (forall j, 0 <= j < 2 * S -> OO r j = csum (part smp 0 N) (fun x => Cmult (RtoC (wgt x)) (srOptO x j)) /\
     OO r (2 * S + j) = csum (part smp 0 N) (fun x => Cmult (RtoC (wgt x)) (Cmult (srOptO x j) (Cconj (srOptO x j))))).
Proof.
  intros HS HN Hok. cbn zeta. unfold main_cal.
  assert (E : split_loop N 0 1 = (0, N)).
  { pose proof (split_first N 1 HN ltac:(lia)) as A. pose proof (split_last N 1 HN ltac:(lia)) as B. unfold sl_start, sl_end in *. change (1 - 1) with 0 in B.
    destruct (split_loop N 0 1). cbn [fst snd] in *. now subst. }
  rewrite E. cbn [orb]. pose proof (loop_store S smp 0 N st HS HN) as (A & B & C & D).
  cbn [Wc Etot Etot2 OO HO Store]. split; [destruct A; now constructor|]. split; [exact B|].
  assert (St : forall i j, 0 <= i < N -> 0 <= j < 2 * S -> Store (loop 0 N (fun i a => one_sample S true i (smp i) a) (clear st)) (j + i * (2 * S)) = srOptO (smp i) j).
  { intros i j Hi Hj. rewrite D by assumption. destruct (Hok i Hi) as (E1 & E2). rewrite E1, E2. destruct (Z.leb_spec 0 i), (Z.ltb_spec i N); try lia.
    cbn [andb]. rewrite sqrt_1. ring. }
  split; [exact St|]. intros j Hj. replace (N - 0) with N by ring.
  pose proof (cg_oo_get S N (Store (loop 0 N (fun i a => one_sample S true i (smp i) a) (clear st))) (OO (loop 0 N (fun i a => one_sample S true i (smp i) a) (clear st))) HS HN j Hj) as (F1 & F2).
  rewrite F1, F2. rewrite part_all by (intros; now apply Hok). rewrite !csum_map. split; apply csum_ext; intros i Hi; apply zrange_in in Hi.
  - rewrite St by lia. destruct (Hok i Hi) as (_ & ->). ring.
  - rewrite St by lia. destruct (Hok i Hi) as (_ & ->). destruct (srOptO (smp i) j) as (a, b). unfold Cmult, Cconj, RtoC. cbn [fst snd]. f_equal; ring.
Qed.

(** ** averages in conjugate-gradient mode *)
Lemma all_samples_in groups N smp x : In x (all_samples groups N smp) -> exists g i, 0 <= g < groups /\ 0 <= i < N /\ x = smp g i.
Proof.
  unfold all_samples. rewrite in_flat_map. intros (g & Hg & Hx). apply in_map_iff in Hx. destruct Hx as (i & <- & Hi).
  apply zrange_in in Hg. apply zrange_in in Hi. exists g, i. auto.
Qed.
Lemma procs_one groups : procs groups (fun _ => 1) = map (fun g => (g, 0)) (zrange 0 groups).
Proof. unfold procs. change (zrange 0 1) with [0]. cbn [map]. induction (zrange 0 groups) as [|g l IH]; cbn [flat_map map]; [reflexivity|]. now rewrite IH. Qed.
Lemma averages_cg S groups N smp st me : 0 < S -> 0 <= N ->
  (forall g i, 0 <= g < groups -> 0 <= i < N -> ok (smp g i) = true /\ wgt (smp g i) = 1%R) ->
  let l := all_samples groups N smp in
  let ps := procs groups (fun _ => 1) in
  let A := fun p => main_cal S true false N 1 (snd p) (smp (fst p)) (st p) in
  In me ps -> total_weight l <> 0%R ->
  average_we ps A me = (total_weight l, cmean l ene, cmean l (fun x => Cmult (ene x) (Cconj (ene x)))) /\
  is_average_cg S l (average_vec ps (total_weight l) (fun p => OO (A p)) me) (average_vec ps (total_weight l) (fun p => HO (A p)) me) /\
  (forall p i j, In p ps -> 0 <= i < N -> 0 <= j < 2 * S -> Store (A p) (j + i * (2 * S)) = srOptO (smp (fst p) i) j).
Proof.
  intros HS HN Hok l ps A Hm HW.
  assert (Hg : forall g, 0 <= g < groups -> 1 <= (fun _ : Z => 1) g) by (intros; lia).
  assert (HA : forall p, In p ps -> let q := p_part N (fun _ => 1) smp p in sums q (A p) /\ sumsHO S q (HO (A p)) /\
     (forall i j, 0 <= i < N -> 0 <= j < 2 * S -> Store (A p) (j + i * (2 * S)) = srOptO (smp (fst p) i) j) /\
     (forall j, 0 <= j < 2 * S -> OO (A p) j = csum q (fun x => Cmult (RtoC (wgt x)) (srOptO x j)) /\
       OO (A p) (2 * S + j) = csum q (fun x => Cmult (RtoC (wgt x)) (Cmult (srOptO x j) (Cconj (srOptO x j)))))).
  { intros p Hp. apply in_procs in Hp. destruct Hp as (H1 & H2).
    assert (E : snd p = 0) by lia. unfold A, p_part, p_start, p_end. rewrite E.
    assert (E' : split_loop N 0 1 = (0, N)).
    { pose proof (split_first N 1 HN ltac:(lia)) as F. pose proof (split_last N 1 HN ltac:(lia)) as B. unfold sl_start, sl_end in *. change (1 - 1) with 0 in B.
      destruct (split_loop N 0 1). cbn [fst snd] in *. now subst. }
    rewrite E'. cbn [fst snd]. apply main_cg; auto. }
  split; [|split].
  - apply average_we_eq; try assumption.
    + unfold total_weight, l. rewrite <- (procs_rsum groups (fun _ => 1)) by assumption. apply rsum_ext. intros p Hp. apply (HA p Hp).
    + unfold l. rewrite <- (procs_csum groups (fun _ => 1)) by assumption. apply csum_ext. intros p Hp. apply (HA p Hp).
    + unfold l. rewrite <- (procs_csum groups (fun _ => 1)) by assumption. apply csum_ext. intros p Hp. apply (HA p Hp).
  - intros j Hj. split; [|split]; apply average_vec_eq; try assumption; unfold l; rewrite <- (procs_csum groups (fun _ => 1)) by assumption;
      apply csum_ext; intros p Hp; destruct (HA p Hp) as (_ & [F] & _ & G); [apply (G j Hj)|apply (G j Hj)|apply (F j Hj)].
  - intros p i j Hp. apply (HA p Hp).
Qed.

(** ** the operator *)
Lemma xdot_rsum n p q : 0 <= n -> xdot n p q = rsum (zrange 0 n) (fun i => p i * q i)%R.
Proof.
  intros Hn. unfold xdot. apply (loop_inv (fun e z => z = rsum (zrange 0 e) (fun i => p i * q i)%R)); [lia| |].
  - rewrite zrange_nil by lia. reflexivity.
  - intros e z He ->. rewrite zrange_snoc by lia. now rewrite rsum_snoc.
Qed.
Section Operator.
Variables (S groups N nn : Z) (idx : Z -> Z) (smp : Z -> Z -> sample) (OO HO : Z -> C) (store : Z * Z -> Z -> C) (del dt : R) (me : Z * Z).
Let l := all_samples groups N smp.
Let ps := procs groups (fun _ => 1).
Let V := fun p => cg_init S N nn dt idx OO HO (store p).
Hypothesis HS : 0 < S.
Hypothesis HN : 0 <= N.
Hypothesis Hn : 0 <= nn.
Hypothesis Hok : forall g i, 0 <= g < groups -> 0 <= i < N -> ok (smp g i) = true /\ wgt (smp g i) = 1%R.
Hypothesis HW : total_weight l <> 0%R.
Hypothesis Hidx : forall k, 0 <= k < nn -> 0 <= idx k < 2 * S - 2.
Hypothesis HA : is_average_cg S l OO HO.
Hypothesis Hst : forall p i j, In p ps -> 0 <= i < N -> 0 <= j < 2 * S -> store p (j + i * (2 * S)) = srOptO (smp (fst p) i) j.

Lemma cgV p si : 0 <= si < nn ->
  vstcO (V p) si = fst (OO (idx si + 2)) /\
  vsdiag (V p) si = (fst (OO (2 * S + (idx si + 2))%Z) - fst (OO (idx si + 2)%Z) * fst (OO (idx si + 2)%Z))%R /\
  vg (V p) si = (- (2 * dt) * (fst (HO (idx si + 2)%Z) - fst (HO 0%Z) * fst (OO (idx si + 2)%Z)))%R /\
  forall i, 0 <= i < N -> vOs_real (V p) (si + i * nn) = fst (store p (i * 2 * S + idx si + 2)) /\ vOs_imag (V p) (si + i * nn) = snd (store p (i * 2 * S + idx si + 2)).
Proof.
  intros Hsi. unfold V, cg_init.
  pose proof (os_table nn N (fun i si => fst (store p (i * 2 * S + idx si + 2))) (fun i si => snd (store p (i * 2 * S + idx si + 2))) Hn HN) as T. cbn zeta in T.
  match type of T with context [loop 0 N ?f ?z] => set (st := loop 0 N f z) in *; change (loop 0 N f z) with st end.
  destruct st as (re, im). cbn [fst snd] in T.
  pose proof (cg_vectors nn (fun si => fst (OO (idx si + 2))) (fun si => - (2 * dt) * (fst (HO (idx si + 2)%Z) - fst (HO 0%Z) * fst (OO (idx si + 2)%Z)))%R
    (fun si => fst (OO (2 * S + (idx si + 2))%Z) - fst (OO (idx si + 2)%Z) * fst (OO (idx si + 2)%Z))%R si Hsi) as U. cbn zeta in U.
  match type of U with context [loop 0 nn ?f ?z] => set (st := loop 0 nn f z) in *; change (loop 0 nn f z) with st end.
  destruct st as ((o, g), d). cbn [fst snd] in U. cbn [vstcO vsdiag vg vOs_real vOs_imag]. destruct U as (U1 & U2 & U3).
  repeat split; try assumption; apply T; assumption.
Qed.
Lemma avg_cg_first p : 0 <= p < 2 * S - 2 -> fst (OO (p + 2)) = rmean l (fun x => fst (dO p x)).
Proof.
  intros Hp. destruct (HA (p + 2) ltac:(lia)) as (A & _). rewrite A, cmean_re by assumption. apply rmean_ext. intros x.
  unfold srOptO, dO. destruct (Z.eqb_spec (p + 2) 0); [lia|]. destruct (Z.eqb_spec (p + 2) 1); [lia|reflexivity].
Qed.
Lemma avg_cg_diag p : 0 <= p < 2 * S - 2 -> fst (OO (2 * S + (p + 2))) = rmean l (fun x => fst (Cmult (dO p x) (Cconj (dO p x)))).
Proof.
  intros Hp. destruct (HA (p + 2) ltac:(lia)) as (_ & A & _). rewrite A, cmean_re by assumption. apply rmean_ext. intros x.
  unfold srOptO, dO. destruct (Z.eqb_spec (p + 2) 0); [lia|]. destruct (Z.eqb_spec (p + 2) 1); [lia|reflexivity].
Qed.
Lemma cg_force p si : 0 <= si < nn -> vg (V p) si = (- 2 * dt * force l (idx si))%R.
Proof.
  intros Hsi. destruct (cgV p si Hsi) as (_ & _ & E & _). rewrite E. pose proof (Hidx si Hsi) as Hp.
  destruct (HA (idx si + 2) ltac:(lia)) as (_ & _ & H1). destruct (HA 0 ltac:(lia)) as (_ & _ & H0).
  rewrite H1, H0, avg_cg_first, !cmean_re by assumption. unfold force.
  set (E0 := rmean l (fun x => fst (ene x))). set (Op := rmean l (fun x => fst (dO (idx si) x))).
  rewrite (rmean_ext l (fun x => fst (Cmult (ene x) (srOptO x (idx si + 2)))) (fun x => fst (Cmult (ene x) (dO (idx si) x)))).
  2:{ intros x. unfold srOptO, dO. destruct (Z.eqb_spec (idx si + 2) 0); [lia|]. destruct (Z.eqb_spec (idx si + 2) 1); [lia|reflexivity]. }
  rewrite (rmean_ext l (fun x => fst (Cmult (ene x) (srOptO x 0))) (fun x => fst (ene x))).
  2:{ intros x. change (srOptO x 0) with (RtoC 1). cbn. ring. }
  rewrite (rmean_ext l (fun x => fst (Cmult (Cminus (ene x) (RtoC E0)) (Cminus (dO (idx si) x) (RtoC Op))))
     (fun x => fst (Cmult (ene x) (dO (idx si) x)) - (Op * fst (ene x) + (E0 * fst (dO (idx si) x) - E0 * Op)))%R) by (intros; cbn; ring).
  rewrite rmean_sub, rmean_add, rmean_sub, !rmean_scal, rmean_const by assumption. fold E0 Op. ring.
Qed.
Lemma operate_matrix x si : 0 <= si < nn ->
  operate_by_S nn N (total_weight l) del ps V me x si =
  rsum (zrange 0 nn) (fun sj => covO l (idx si) (idx sj) * (if si =? sj then 1 + del else 1) * x sj)%R.
Proof.
  intros Hsi. unfold operate_by_S.
  (* local products: the sum over the samples of the process *)
  assert (Loc : forall p, In p ps -> (dgemv_N nn N (vOs_real (V p)) (dgemv_T nn N (vOs_real (V p)) x) si + dgemv_N nn N (vOs_imag (V p)) (dgemv_T nn N (vOs_imag (V p)) x) si)%R =
    rsum (p_part N (fun _ => 1) smp p) (fun s => wgt s * rsum (zrange 0 nn) (fun sj => fst (Cmult (dO (idx si) s) (Cconj (dO (idx sj) s))) * x sj))%R).
  { intros p Hp. pose proof (in_procs _ _ _ Hp) as (Hp1 & Hp2). unfold p_part, p_start, p_end. replace (snd p) with 0 by lia.
    assert (E' : split_loop N 0 1 = (0, N)).
    { pose proof (split_first N 1 HN ltac:(lia)) as F. pose proof (split_last N 1 HN ltac:(lia)) as B. unfold sl_start, sl_end in *. change (1 - 1) with 0 in B.
      destruct (split_loop N 0 1). cbn [fst snd] in *. now subst. }
    rewrite E'. cbn [fst snd]. rewrite part_all by (intros; now apply Hok). rewrite rsum_map.
    unfold dgemv_N. rewrite <- rsum_add. apply rsum_ext. intros i Hi. apply zrange_in in Hi.
    assert (Cell : forall sj, 0 <= sj < nn -> vOs_real (V p) (sj + i * nn) = fst (dO (idx sj) (smp (fst p) i)) /\ vOs_imag (V p) (sj + i * nn) = snd (dO (idx sj) (smp (fst p) i))).
    { intros sj Hsj. destruct (cgV p sj Hsj) as (_ & _ & _ & G). destruct (G i Hi) as (G1 & G2). rewrite G1, G2. pose proof (Hidx sj Hsj).
      replace (i * 2 * S + idx sj + 2) with ((idx sj + 2) + i * (2 * S)) by ring. rewrite Hst by (auto; lia).
      unfold srOptO, dO. destruct (Z.eqb_spec (idx sj + 2) 0); [lia|]. destruct (Z.eqb_spec (idx sj + 2) 1); [lia|]. split; reflexivity. }
    destruct (Cell si Hsi) as (C1 & C2). rewrite C1, C2. destruct (Hok (fst p) i Hp1 Hi) as (_ & ->). unfold dgemv_T.
    rewrite <- !rsum_scal, <- rsum_add. apply rsum_ext. intros sj Hsj. apply zrange_in in Hsj. destruct (Cell sj Hsj) as (D1 & D2). rewrite D1, D2.
    cbn. ring. }
  cbn zeta. rewrite (rsum_ext ps _ _ Loc). unfold ps. rewrite (procs_rsum groups (fun _ => 1) N smp) by (intros; lia). fold l.
  destruct (cgV me si Hsi) as (E1 & E2 & _ & _). rewrite E1, E2, xdot_rsum by assumption. pose proof (Hidx si Hsi) as Hp.
  rewrite avg_cg_first, avg_cg_diag by assumption.
  rewrite (rsum_ext _ (fun i => vstcO (V me) i * x i)%R (fun i => rmean l (fun s => fst (dO (idx i) s)) * x i)%R).
  2:{ intros i Hi. apply zrange_in in Hi. destruct (cgV me i Hi) as (F & _). rewrite F. pose proof (Hidx i Hi). now rewrite avg_cg_first. }
  replace (1 / total_weight l * rsum (counted l) (fun s => wgt s * rsum (zrange 0 nn) (fun sj => fst (Cmult (dO (idx si) s) (Cconj (dO (idx sj) s))) * x sj)))%R
    with (rmean l (fun s => rsum (zrange 0 nn) (fun sj => fst (Cmult (dO (idx si) s) (Cconj (dO (idx sj) s))) * x sj)%R)).
  2:{ unfold rmean. field. exact HW. }
  rewrite rmean_rsum. rewrite <- rsum_scal_r, <- rsum_sub.
  transitivity (rsum (zrange 0 nn) (fun sj => covO l (idx si) (idx sj) * x sj + (if Z.eqb sj si then covO l (idx sj) (idx sj) * del * x sj else 0)))%R.
  2:{ apply rsum_ext. intros sj _. rewrite (Z.eqb_sym sj si). destruct (Z.eqb_spec si sj) as [<-|]; ring. }
  rewrite rsum_add, (rsum_delta _ si (fun sj => covO l (idx sj) (idx sj) * del * x sj)%R) by (apply zrange_NoDup || now apply zrange_in).
  f_equal.
  apply rsum_ext. intros sj _.
  rewrite (rmean_ext l (fun s => fst (Cmult (dO (idx si) s) (Cconj (dO (idx sj) s))) * x sj)%R (fun s => x sj * fst (Cmult (dO (idx si) s) (Cconj (dO (idx sj) s))))%R) by (intros; ring).
  rewrite rmean_scal. unfold covO. ring.
Qed.
End Operator.
