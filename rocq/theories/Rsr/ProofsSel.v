From Coq Require Import ZArith List Bool Reals Lia Lra.
From Coquelicot Require Import Complex.
From Verif Require Import Base.ZLoop Base.RSum Par.Model Par.Proofs SR.Model SR.Spec SR.Proofs SR.ProofsSel SR.ProofsMat SR.ProofsCG SR.ProofsFin SR.ProofsEnd
  Rsr.Model Rsr.Spec Rsr.Proofs.
Import ListNotations.
Local Open Scope Z_scope.

(** ** which components a real run optimises *)
Lemma odd_component para i : component para (2 * i + 1) = snd (para i).
Proof. unfold component. rewrite odd_double. cbn [Z.eqb]. replace ((2 * i + 1) / 2) with i; [reflexivity|]. apply (Z.div_unique _ 2 _ 1); lia. Qed.
Lemma even_component para i : component para (2 * i) = fst (para i).
Proof. unfold component. rewrite even_double, half_even. reflexivity. Qed.
Definition imaginary_fixed (n : Z) (OptFlag : Z -> Z) (d : Z -> R) (cut : R) : Prop :=
  (forall p, 0 <= p < n -> OptFlag (2 * p + 1) <> 1) \/ ((0 < cut)%R /\ exists p, 0 <= p < n /\ (0 < d (2 * p)%Z)%R).
Lemma even_selected n F d cut k : 0 < n -> (forall p, 0 <= p < n -> d (2 * p + 1) = 0%R) -> imaginary_fixed n F d cut ->
  let s := select (2 * n) F d cut in
  0 <= k < nSmat s -> exists p, 0 <= p < n /\ smatToParaIdx s k = 2 * p.
Proof.
  intros Hn Hd HI s Hk. destruct (select_spec (2 * n) F d cut ltac:(lia)) as (m & (_ & Mm) & A & _). cbn zeta in A. fold s in A.
  destruct (A k Hk) as (Hr & Hf1 & Hf2). destruct (parity (smatToParaIdx s k)) as (p & [E|E]); [exists p; lia|]. exfalso.
  rewrite E in Hf1, Hf2. rewrite Hd in Hf2 by lia. destruct HI as [HI|(Hc & q & Hq & Pq)]; [apply (HI p); [lia|assumption]|].
  pose proof (Mm (2 * q) ltac:(lia)). pose proof (Rmult_lt_0_compat m cut ltac:(lra) Hc). lra.
Qed.
Lemma imaginary_unchanged n F d cut info r para i : 0 < n -> (forall p, 0 <= p < n -> d (2 * p + 1) = 0%R) -> imaginary_fixed n F d cut ->
  snd (update_para info (select (2 * n) F d cut) r para i) = snd (para i).
Proof.
  intros Hn Hd HI. pose proof (select_spec (2 * n) F d cut ltac:(lia)) as (m & _ & A). cbn zeta in A.
  destruct A as (_ & Inc & _ & _ & _ & _ & Hs & _).
  destruct (update_spec info (select (2 * n) F d cut) r para ltac:(lia) Inc) as (B & B').
  destruct (Z.eq_dec info 0) as [e|e]; [|now rewrite B]. destruct (B' e) as (_ & B2). rewrite <- !odd_component. apply B2.
  intros k Hk E. destruct (even_selected n F d cut k Hn Hd HI Hk) as (p & _ & E'). lia.
Qed.
Lemma rmax_unique n r m m' : is_rmax n r m -> is_rmax n r m' -> m = m'.
Proof. intros ((i & Hi & <-) & A) ((j & Hj & <-) & B). pose proof (A j Hj). pose proof (B i Hi). lra. Qed.
Lemma same_selection n F d d' cut p : 0 < n -> (forall p, 0 <= p < n -> d (2 * p) = d' p /\ d (2 * p + 1) = 0%R) ->
  (exists q, 0 <= q < n /\ (0 <= d' q)%R) -> 0 <= p < n ->
  optimises (select_real n F d' cut) p <-> optimises (select (2 * n) F d cut) (2 * p).
Proof.
  intros Hn Hd (q & Hq & Pq) Hp. unfold select_real, optimises.
  destruct (select_spec (2 * n) F d cut ltac:(lia)) as (m & Mm & A). destruct (select_spec n (fun pi => F (2 * pi)) d' cut Hn) as (m' & Mm' & B). cbn zeta in A, B.
  assert (E : m = m').
  { apply (rmax_unique (2 * n) d); [exact Mm|]. destruct Mm' as ((i & Hi & Ei) & U). split.
    - exists (2 * i). split; [lia|]. destruct (Hd i Hi) as (-> & _). exact Ei.
    - intros k Hk. pose proof (U q Hq). destruct (parity k) as (a & [-> | ->]).
      + destruct (Hd a ltac:(lia)) as (-> & _). apply U. lia.
      + destruct (Hd a ltac:(lia)) as (_ & ->). lra. }
  subst m'. destruct A as (A1 & _ & A2 & _), B as (B1 & _ & B2 & _). split; intros (k & Hk & Ek).
  - destruct (B1 k Hk) as (_ & F1 & F2). rewrite Ek in F1, F2. apply A2; [lia|]. split; [exact F1|]. destruct (Hd p Hp) as (-> & _). exact F2.
  - destruct (A1 k Hk) as (_ & F1 & F2). rewrite Ek in F1, F2. apply B2; [lia|]. split; [exact F1|]. destruct (Hd p Hp) as (<- & _). exact F2.
Qed.

(** ** the update of the conjugate-gradient variant *)
Lemma update_real_get s r para i : 0 <= nSmat s ->
  update_para_real 0 s r para i = Cplus (para i) (RtoC (rsum (zrange 0 (nSmat s)) (fun k => if smatToParaIdx s k =? i then r k else 0%R))).
Proof.
  intros Hn. unfold update_para_real. cbn [Z.eqb].
  apply (loop_inv (fun k pa => pa i = Cplus (para i) (RtoC (rsum (zrange 0 k) (fun k => if smatToParaIdx s k =? i then r k else 0%R))))); [lia| |].
  - rewrite zrange_nil by lia. cbn [rsum]. ring.
  - intros k pa Hk IH. rewrite zrange_snoc, rsum_snoc, RtoC_plus by lia. rewrite upd_get. rewrite (Z.eqb_sym i).
    destruct (Z.eqb_spec (smatToParaIdx s k) i) as [->|].
    + rewrite IH. ring.
    + rewrite IH. ring.
Qed.
Lemma update_real_spec info n F d cut r para : 0 < n ->
  let s := select_real n F d cut in
  (info <> 0 -> forall i, update_para_real info s r para i = para i) /\
  (info = 0 ->
   (forall k, 0 <= k < nSmat s -> update_para_real info s r para (smatToParaIdx s k) = Cplus (para (smatToParaIdx s k)) (RtoC (r k))) /\
   (forall i, ~ optimises s i -> update_para_real info s r para i = para i)).
Proof.
  intros Hn s. pose proof (select_spec n (fun pi => F (2 * pi)) d cut Hn) as (m & _ & A). cbn zeta in A.
  destruct A as (_ & Inc & _ & _ & _ & _ & Hs & _). fold (select_real n F d cut) in Inc, Hs. fold s in Inc, Hs.
  split; [|intros ->; split].
  - intros Hi i. unfold update_para_real. destruct (Z.eqb_spec info 0); [contradiction|reflexivity].
  - intros k Hk. rewrite update_real_get by lia. do 2 f_equal. rewrite (rsum_ext _ _ (fun j => if Z.eqb j k then r j else 0%R)).
    + apply rsum_delta; [apply zrange_NoDup|now apply zrange_in].
    + intros j Hj. apply zrange_in in Hj. destruct (Z.eqb_spec j k) as [->|]; [now rewrite Z.eqb_refl|].
      destruct (Z.eqb_spec (smatToParaIdx s j) (smatToParaIdx s k)) as [E|]; [|reflexivity].
      destruct (Z.lt_total j k) as [l|[l|l]]; [|contradiction|].
      * pose proof (Inc j k ltac:(lia) ltac:(lia)). lia.
      * pose proof (Inc k j ltac:(lia) ltac:(lia)). lia.
  - intros i Hi. rewrite update_real_get by lia. rewrite rsum_zero; [ring|]. intros j Hj. apply zrange_in in Hj.
    destruct (Z.eqb_spec (smatToParaIdx s j) i) as [E|]; [|reflexivity]. exfalso. apply Hi. now exists j.
Qed.

(** ** one process in conjugate-gradient mode *)
Lemma rcg_oo_get S m (st oo : Z -> R) : 0 < S -> 0 <= m ->
  let r := calculateOO_Store_real S true m st oo in
  forall i, 0 <= i < S ->
  r i = rsum (zrange 0 m) (fun j => st (i + j * S)) /\
  r (S + i) = rsum (zrange 0 m) (fun j => st (i + j * S)%Z * st (i + j * S)%Z)%R.
Proof.
  intros HS Hm. cbn zeta. unfold calculateOO_Store_real. set (n := S) in *.
  set (z := loop 0 n (fun i oo => upd (upd oo i 0%R) (i + n) 0%R) oo).
  assert (Z0 : forall i, 0 <= i < n -> z i = 0%R /\ z (n + i) = 0%R).
  { assert (T : forall i, 0 <= i < n -> i < n -> z i = 0%R /\ z (n + i) = 0%R).
    { unfold z. apply (loop_inv (fun e z => forall i, 0 <= i < n -> i < e -> z i = 0%R /\ z (n + i) = 0%R)); [lia| |].
      - intros. lia.
      - intros e q He IH i Hi Hie. rewrite !upd_get. destruct (Z.eqb_spec i (e + n)); [lia|]. destruct (Z.eqb_spec (n + i) (e + n)).
        + destruct (Z.eqb_spec i e); [|lia]. split; reflexivity.
        + destruct (Z.eqb_spec i e); [lia|]. destruct (Z.eqb_spec (n + i) e); [lia|]. apply IH; lia. }
    intros; apply T; lia. }
  assert (Row : forall (f : Z -> R) (g : Z -> R) q i, 0 <= i < n ->
     let r := loop 0 n (fun i oo => radd (radd oo i (f i)) (i + n) (g i)) q in r i = (q i + f i)%R /\ r (n + i) = (q (n + i)%Z + g i)%R).
  { intros f g q i Hi. cbn zeta.
    assert (T : forall i, 0 <= i < n -> let r := loop 0 n (fun i oo => radd (radd oo i (f i)) (i + n) (g i)) q in
      r i = (q i + (if i <? n then f i else 0))%R /\ r (n + i) = (q (n + i)%Z + (if i <? n then g i else 0))%R).
    { cbn zeta. apply (loop_inv (fun e r => forall i, 0 <= i < n -> r i = (q i + (if i <? e then f i else 0))%R /\ r (n + i) = (q (n + i)%Z + (if i <? e then g i else 0))%R)); [lia| |].
      - intros j Hj. destruct (Z.ltb_spec j 0); [lia|]. split; ring.
      - intros e r He IH j Hj. destruct (IH j Hj) as (A & B). rewrite !radd_get.
        destruct (Z.eqb_spec j (e + n)); [lia|]. destruct (Z.eqb_spec (e + n) e); [lia|]. destruct (Z.eqb_spec (n + j) e); [lia|].
        destruct (Z.eqb_spec j e) as [->|].
        + destruct (Z.eqb_spec (n + e) (e + n)); [|lia]. replace (e + n) with (n + e) by ring. rewrite A, B.
          destruct (Z.ltb_spec e e), (Z.ltb_spec e (e + 1)); try lia. split; ring.
        + destruct (Z.eqb_spec (n + j) (e + n)); [lia|]. rewrite A, B. destruct (Z.ltb_spec j e), (Z.ltb_spec j (e + 1)); try lia; split; reflexivity. }
    specialize (T i Hi). cbn zeta in T. destruct (Z.ltb_spec i n); [exact T|lia]. }
  apply (loop_inv (fun e r => forall i, 0 <= i < n ->
    r i = rsum (zrange 0 e) (fun j => st (i + j * n)) /\
    r (n + i) = rsum (zrange 0 e) (fun j => st (i + j * n)%Z * st (i + j * n)%Z)%R)); [lia| |].
  - intros i Hi. rewrite zrange_nil by lia. cbn [rsum]. now apply Z0.
  - intros e r He IH i Hi. destruct (IH i Hi) as (A & B). rewrite zrange_snoc, !rsum_snoc by lia. cbn zeta.
    destruct (Row (fun i => st (i + e * n)) (fun i => st (i + e * n)%Z * st (i + e * n)%Z)%R r i Hi) as (C1 & C2).
    cbn zeta in C1, C2. rewrite C1, C2, A, B. split; reflexivity.
Qed.
Lemma split_one N : 0 <= N -> split_loop N 0 1 = (0, N).
Proof.
  intros HN. pose proof (split_first N 1 HN ltac:(lia)) as A. pose proof (split_last N 1 HN ltac:(lia)) as B. unfold sl_start, sl_end in *. change (1 - 1) with 0 in B.
  destruct (split_loop N 0 1). cbn [fst snd] in *. now subst.
Qed.
Lemma rmain_cg S N smp st : 0 < S -> 0 <= N -> (forall i, 0 <= i < N -> ok (smp i) = true /\ wgt (smp i) = 1%R) ->
  let r := main_cal_real S true false N 1 0 smp st in
  rsumsHO S (part smp 0 N) (rHO r) /\
  (forall i j, 0 <= i < N -> 0 <= j < S -> rStore r (j + i * S) = srOptO_real (smp i) j) /\
  (forall j, 0 <= j < S -> rOO r j = rsum (part smp 0 N) (fun x => wgt x * srOptO_real x j)%R /\
     rOO r (S + j) = rsum (part smp 0 N) (fun x => wgt x * (srOptO_real x j * srOptO_real x j))%R).
Proof.
  intros HS HN Hok. cbn zeta. unfold main_cal_real. rewrite split_one by assumption. cbn [orb].
  pose proof (rloop_store S smp 0 N st HS HN) as (A & B & D).
  cbn [rWc rEtot rEtot2 rOO rHO rStore]. split; [exact B|].
  assert (St : forall i j, 0 <= i < N -> 0 <= j < S -> rStore (loop 0 N (fun i a => one_sample_real S true i (smp i) a) (rclear st)) (j + i * S) = srOptO_real (smp i) j).
  { intros i j Hi Hj. rewrite D by assumption. destruct (Hok i Hi) as (E1 & E2). rewrite E1, E2. destruct (Z.leb_spec 0 i), (Z.ltb_spec i N); try lia.
    cbn [andb]. rewrite sqrt_1. ring. }
  split; [exact St|]. intros j Hj. replace (N - 0) with N by ring.
  pose proof (rcg_oo_get S N (rStore (loop 0 N (fun i a => one_sample_real S true i (smp i) a) (rclear st))) (rOO (loop 0 N (fun i a => one_sample_real S true i (smp i) a) (rclear st))) HS HN j Hj) as (F1 & F2).
  rewrite F1, F2. rewrite part_all by (intros; now apply Hok). rewrite !rsum_map. split; apply rsum_ext; intros i Hi; apply zrange_in in Hi.
  - rewrite St by lia. destruct (Hok i Hi) as (_ & ->). ring.
  - rewrite St by lia. destruct (Hok i Hi) as (_ & ->). ring.
Qed.

(** ** the operator *)
Section Op.
Variables (S groups N nn : Z) (par : Z -> Z) (smp : Z -> Z -> sample) (st : Z * Z -> Z -> R) (me : Z * Z) (del dt : R).
Hypothesis HS : 0 < S.
Hypothesis HN : 0 <= N.
Hypothesis Hn : 0 <= nn.
Hypothesis Hok : forall g i, 0 <= g < groups -> 0 <= i < N -> ok (smp g i) = true /\ wgt (smp g i) = 1%R.
Let l := all_samples groups N smp.
Let ps := procs groups (fun _ => 1).
Let A := fun p => main_cal_real S true false N 1 (snd p) (smp (fst p)) (st p).
Hypothesis Hme : In me ps.
Hypothesis HW : total_weight l <> 0%R.
Hypothesis Hpar : forall k, 0 <= k < nn -> 0 <= par k < S - 1.
Let oo := average_real ps (total_weight l) (fun p => rOO (A p)) me.
Let ho := average_real ps (total_weight l) (fun p => rHO (A p)) me.
Let V := fun p => cg_init_real S N nn dt par oo ho (rStore (A p)).

Lemma cg_avg j : 0 <= j < S ->
  oo j = rmean l (fun x => srOptO_real x j) /\ oo (S + j) = rmean l (fun x => srOptO_real x j * srOptO_real x j)%R /\
  ho j = rmean l (fun x => fst (ene x) * srOptO_real x j)%R.
Proof.
  intros Hj. assert (Hg : forall g, 0 <= g < groups -> 1 <= (fun _ : Z => 1) g) by (intros; lia).
  assert (HA : forall p, In p ps -> rsumsHO S (p_part N (fun _ => 1) smp p) (rHO (A p)) /\
     rOO (A p) j = rsum (p_part N (fun _ => 1) smp p) (fun x => wgt x * srOptO_real x j)%R /\
     rOO (A p) (S + j) = rsum (p_part N (fun _ => 1) smp p) (fun x => wgt x * (srOptO_real x j * srOptO_real x j))%R).
  { intros p Hp. apply in_procs in Hp. destruct Hp as (H1 & H2). assert (E : snd p = 0) by lia. unfold A, p_part, p_start, p_end. rewrite E.
    rewrite split_one by assumption. cbn [fst snd]. destruct (rmain_cg S N (smp (fst p)) (st p) HS HN) as (B1 & _ & B2); [auto|]. split; [exact B1|]. now apply B2. }
  unfold oo, ho, rmean. split; [|split]; apply average_real_eq; try assumption; unfold l; rewrite <- (procs_rsum groups (fun _ => 1)) by assumption;
    apply rsum_ext; intros p Hp; destruct (HA p Hp) as (F & G1 & G2); auto.
Qed.
Lemma store_get p i j : In p ps -> 0 <= i < N -> 0 <= j < S -> rStore (A p) (j + i * S) = srOptO_real (smp (fst p) i) j.
Proof.
  intros Hp Hi Hj. apply in_procs in Hp. destruct Hp as (H1 & H2). assert (E : snd p = 0) by lia. unfold A. rewrite E.
  destruct (rmain_cg S N (smp (fst p)) (st p) HS HN) as (_ & B & _); auto.
Qed.
Lemma rtable (re : Z -> Z -> R) : forall i si, 0 <= i < N -> 0 <= si < nn ->
  loop 0 N (fun i st => loop 0 nn (fun si (st : Z -> R) => upd st (si + i * nn) (re i si)) st) (fun _ => 0%R) (si + i * nn) = re i si.
Proof.
  clear - HN Hn.
  assert (Inner : forall i (st : Z -> R) i' si, 0 <= si < nn ->
    loop 0 nn (fun si (st : Z -> R) => upd st (si + i * nn) (re i si)) st (si + i' * nn) = if i' =? i then re i si else st (si + i' * nn)).
  { intros i st i' si Hsi.
    assert (T : loop 0 nn (fun si (st : Z -> R) => upd st (si + i * nn) (re i si)) st (si + i' * nn) = if (i' =? i) && (si <? nn) then re i si else st (si + i' * nn)).
    { apply (loop_inv (fun e (r : Z -> R) => r (si + i' * nn) = if (i' =? i) && (si <? e) then re i si else st (si + i' * nn))); [lia| |].
      - destruct (Z.ltb_spec si 0); [lia|]. now rewrite andb_false_r.
      - intros e r He IH. rewrite upd_get. destruct (Z.eqb_spec (si + i' * nn) (e + i * nn)) as [E|E].
        + assert (i' = i) by nia. subst i'. assert (si = e) by nia. subst e. rewrite Z.eqb_refl. destruct (Z.ltb_spec si (si + 1)); [reflexivity|lia].
        + rewrite IH. destruct (Z.eqb_spec i' i) as [->|]; cbn [andb]; [|reflexivity].
          assert (si <> e) by (intros ->; now apply E). destruct (Z.ltb_spec si e), (Z.ltb_spec si (e + 1)); try lia; reflexivity. }
    rewrite T. destruct (Z.ltb_spec si nn); [|lia]. now rewrite andb_true_r. }
  intros i si Hi Hsi.
  assert (T : i < N -> loop 0 N (fun i st => loop 0 nn (fun si (st : Z -> R) => upd st (si + i * nn) (re i si)) st) (fun _ => 0%R) (si + i * nn) = re i si).
  { apply (loop_inv (fun e (st : Z -> R) => i < e -> st (si + i * nn) = re i si)); [lia| |].
    - intros. lia.
    - intros e st He IH Hie. rewrite Inner by assumption. destruct (Z.eqb_spec i e) as [->|]; [reflexivity|]. apply IH. lia. }
  apply T. lia.
Qed.
Lemma srO p x : 0 <= p -> srOptO_real x (p + 1) = reO p x.
Proof.
  intros Hp. unfold srOptO_real, reO, srOptO. replace (2 * (p + 1)) with (2 * p + 2) by ring.
  destruct (Z.eqb_spec (2 * p + 2) 0); [lia|]. destruct (Z.eqb_spec (2 * p + 2) 1); [lia|reflexivity].
Qed.
Lemma rV p si : 0 <= si < nn ->
  rvstcO (V p) si = rmean l (reO (par si)) /\ rvsdiag (V p) si = rcov l (par si) (par si) /\ rvg (V p) si = (- 2 * dt * rforce l (par si))%R /\
  forall i, 0 <= i < N -> In p ps -> rvOs (V p) (si + i * nn) = reO (par si) (smp (fst p) i).
Proof.
  intros Hsi. pose proof (Hpar si Hsi) as Hp. unfold V, cg_init_real.
  pose proof (cg_vectors nn (fun si => oo (par si + 1)) (fun si => - (2 * dt) * (ho (par si + 1)%Z - ho 0%Z * oo (par si + 1)%Z))%R
    (fun si => oo (S + (par si + 1))%Z - oo (par si + 1)%Z * oo (par si + 1)%Z)%R si Hsi) as U. cbn zeta in U. cbn zeta.
  match type of U with context [loop 0 nn ?f ?z] => set (stt := loop 0 nn f z) in *; change (loop 0 nn f z) with stt end.
  destruct stt as ((o, g), d). cbn [fst snd] in U. cbn [rvstcO rvsdiag rvg rvOs]. destruct U as (U1 & U2 & U3).
  destruct (cg_avg (par si + 1) ltac:(lia)) as (E1 & E2 & E3). destruct (cg_avg 0 ltac:(lia)) as (_ & _ & E0).
  assert (M1 : oo (par si + 1) = rmean l (reO (par si))). { rewrite E1. apply rmean_ext. intros x. apply srO. lia. }
  assert (M2 : oo (S + (par si + 1)) = rmean l (fun x => reO (par si) x * reO (par si) x)%R). { rewrite E2. apply rmean_ext. intros x. rewrite srO by lia. reflexivity. }
  assert (M3 : ho (par si + 1) = rmean l (fun x => fst (ene x) * reO (par si) x)%R). { rewrite E3. apply rmean_ext. intros x. rewrite srO by lia. reflexivity. }
  assert (M0 : ho 0 = rmean l (fun x => fst (ene x))). { rewrite E0. apply rmean_ext. intros x. unfold srOptO_real. change (srOptO x (2 * 0)) with (RtoC 1). cbn. ring. }
  split; [now rewrite U1|]. split; [rewrite U3, M1, M2; reflexivity|]. split.
  - rewrite U2, M3, M0, M1. unfold rforce. set (E := rmean l (fun x => fst (ene x))). set (Op := rmean l (reO (par si))).
    rewrite (rmean_ext l (fun x => (fst (ene x) - E) * (reO (par si) x - Op))%R (fun x => fst (ene x) * reO (par si) x - (Op * fst (ene x) + (E * reO (par si) x - E * Op)))%R) by (intros; ring).
    rewrite rmean_sub, rmean_add, rmean_sub, !rmean_scal, rmean_const by exact HW. fold E. fold Op. try change (rmean l (fun x => reO (par si) x)) with Op. ring.
  - intros i Hi Hpp. pose proof (rtable (fun i si => rStore (A p) (i * 1 * S + par si + 1)) i si Hi Hsi) as T. cbn beta in T. rewrite T.
    replace (i * 1 * S + par si + 1) with ((par si + 1) + i * S) by ring. rewrite store_get by (auto; lia). apply srO. lia.
Qed.
Lemma roperate x si : 0 <= si < nn ->
  operate_by_S_real nn N (total_weight l) del ps V me x si =
  rsum (zrange 0 nn) (fun sj => rcov l (par si) (par sj) * (if si =? sj then 1 + del else 1) * x sj)%R.
Proof.
  intros Hsi. unfold operate_by_S_real.
  assert (Loc : forall p, In p ps -> dgemv_N nn N (rvOs (V p)) (dgemv_T nn N (rvOs (V p)) x) si =
    rsum (p_part N (fun _ => 1) smp p) (fun s => wgt s * rsum (zrange 0 nn) (fun sj => reO (par si) s * reO (par sj) s * x sj))%R).
  { intros p Hp. pose proof (in_procs _ _ _ Hp) as (Hp1 & Hp2). unfold p_part, p_start, p_end. replace (snd p) with 0 by lia.
    rewrite split_one by assumption. cbn [fst snd]. rewrite part_all by (intros; now apply Hok). rewrite rsum_map.
    unfold dgemv_N. apply rsum_ext. intros i Hi. apply zrange_in in Hi.
    destruct (rV p si Hsi) as (_ & _ & _ & G). rewrite (G i Hi Hp). destruct (Hok (fst p) i Hp1 Hi) as (_ & ->). unfold dgemv_T.
    rewrite <- rsum_scal, Rmult_1_l. apply rsum_ext. intros sj Hsj. apply zrange_in in Hsj. destruct (rV p sj Hsj) as (_ & _ & _ & G'). rewrite (G' i Hi Hp). ring. }
  cbn zeta. rewrite (rsum_ext ps _ _ Loc). unfold ps. rewrite (procs_rsum groups (fun _ => 1) N smp) by (intros; lia). fold l.
  destruct (rV me si Hsi) as (E1 & E2 & _ & _). rewrite E1, E2, xdot_rsum by assumption.
  rewrite (rsum_ext _ (fun i => rvstcO (V me) i * x i)%R (fun i => rmean l (reO (par i)) * x i)%R).
  2:{ intros i Hi. apply zrange_in in Hi. destruct (rV me i Hi) as (F & _). now rewrite F. }
  replace (1 / total_weight l * rsum (counted l) (fun s => wgt s * rsum (zrange 0 nn) (fun sj => reO (par si) s * reO (par sj) s * x sj)))%R
    with (rmean l (fun s => rsum (zrange 0 nn) (fun sj => reO (par si) s * reO (par sj) s * x sj)%R)).
  2:{ unfold rmean. field. exact HW. }
  rewrite rmean_rsum. rewrite <- rsum_scal_r, <- rsum_sub.
  transitivity (rsum (zrange 0 nn) (fun sj => rcov l (par si) (par sj) * x sj + (if Z.eqb sj si then rcov l (par sj) (par sj) * del * x sj else 0)))%R.
  2:{ apply rsum_ext. intros sj _. rewrite (Z.eqb_sym sj si). destruct (Z.eqb_spec si sj) as [<-|]; ring. }
  rewrite rsum_add, (rsum_delta _ si (fun sj => rcov l (par sj) (par sj) * del * x sj)%R) by (apply zrange_NoDup || now apply zrange_in).
  f_equal. apply rsum_ext. intros sj _.
  rewrite (rmean_ext l (fun s => reO (par si) s * reO (par sj) s * x sj)%R (fun s => x sj * (reO (par si) s * reO (par sj) s))%R) by (intros; ring).
  rewrite rmean_scal. unfold rcov. ring.
Qed.
Lemma rcg_all :
  (forall x si, 0 <= si < nn -> operate_by_S_real nn N (total_weight l) del ps V me x si =
    rsum (zrange 0 nn) (fun sj => rcov l (par si) (par sj) * (if si =? sj then 1 + del else 1) * x sj)%R) /\
  (forall si, 0 <= si < nn -> rvg (V me) si = (- 2 * dt * rforce l (par si))%R) /\
  (forall p, 0 <= p < S - 1 -> cg_sdiag_real S oo p = rcov l p p).
Proof.
  split; [intros; now apply roperate|]. split; [intros si Hsi; apply (rV me si Hsi)|].
  intros p Hp. unfold cg_sdiag_real. destruct (cg_avg (p + 1) ltac:(lia)) as (-> & -> & _). unfold rcov.
  rewrite (rmean_ext l (fun x => srOptO_real x (p + 1) * srOptO_real x (p + 1))%R (fun x => reO p x * reO p x)%R) by (intros; rewrite srO by lia; reflexivity).
  rewrite (rmean_ext l (fun x => srOptO_real x (p + 1)) (reO p)) by (intros; apply srO; lia). reflexivity.
Qed.
End Op.

(** ** whole steps *)
Lemma same_system S groups gsize N smp st st' me nn par del dt S0 g0 old :
  0 < S -> 0 <= N -> (forall g, 0 <= g < groups -> 1 <= gsize g) ->
  let l := all_samples groups N smp in
  let ps := procs groups gsize in
  let A := fun p => main_cal_real S false false N (gsize (fst p)) (snd p) (smp (fst p)) (st p) in
  let B := fun p => main_cal S false false N (gsize (fst p)) (snd p) (smp (fst p)) (st' p) in
  In me ps -> total_weight l <> 0%R ->
  (forall k, 0 <= k < nn -> 0 <= par k < S - 1) -> real_derivatives l nn par ->
  let oo := average_real ps (total_weight l) (fun p => rOO (A p)) me in
  let ho := average_real ps (total_weight l) (fun p => rHO (A p)) me in
  let M := stcOptInit S del dt nn (fun k => 2 * par k) (spreadOO S oo ho old) (spreadHO S oo ho old) S0 g0 in
  let M' := stcOptInit S del dt nn (fun k => 2 * par k) (average_vec ps (total_weight l) (fun p => OO (B p)) me)
             (average_vec ps (total_weight l) (fun p => HO (B p)) me) S0 g0 in
  (forall i j, 0 <= i < nn -> 0 <= j < nn -> fst M (i + nn * j) = fst M' (i + nn * j)) /\
  (forall i, 0 <= i < nn -> snd M i = snd M' i).
Proof.
  intros HS HN Hg l ps A B Hm HW Hp Hr oo ho M M'.
  destruct (rassembled S groups gsize N smp st me nn par del dt S0 g0 old HS HN Hg Hm HW Hp) as (A1 & A2).
  destruct (assembled S groups gsize N smp st' me nn (fun k => 2 * par k) del dt S0 g0 HS HN Hg Hm HW) as (B1 & B2).
  { intros k Hk. specialize (Hp k Hk). lia. }
  split.
  - intros i j Hi Hj. unfold M, M'. etransitivity; [apply (A1 i j Hi Hj)|]. etransitivity; [|symmetry; apply (B1 i j Hi Hj)].
    fold l. now rewrite (same_cov l nn par i j Hr Hi Hj).
  - intros i Hi. unfold M, M'. etransitivity; [apply (A2 i Hi)|]. etransitivity; [|symmetry; apply (B2 i Hi)].
    fold l. now rewrite (same_force l nn par i Hr Hi).
Qed.
Lemma step_keeps_imaginary S groups gsize N smp st me old F cut info r para :
  1 < S -> 0 <= N -> (forall g, 0 <= g < groups -> 1 <= gsize g) ->
  let l := all_samples groups N smp in
  let ps := procs groups gsize in
  let A := fun p => main_cal_real S false false N (gsize (fst p)) (snd p) (smp (fst p)) (st p) in
  In me ps -> total_weight l <> 0%R ->
  (forall p, 0 <= p < S - 1 -> F (2 * p + 1) <> 1) \/ ((0 < cut)%R /\ exists p, 0 <= p < S - 1 /\ (0 < rcov l p p)%R) ->
  let oo := average_real ps (total_weight l) (fun p => rOO (A p)) me in
  let ho := average_real ps (total_weight l) (fun p => rHO (A p)) me in
  let s := select (2 * (S - 1)) F (sdiag S (spreadOO S oo ho old)) cut in
  (forall k, 0 <= k < nSmat s -> exists p, 0 <= p < S - 1 /\ smatToParaIdx s k = 2 * p) /\
  forall i, snd (update_para info s r para i) = snd (para i).
Proof.
  intros HS HN Hg l ps A Hm HW HF oo ho s.
  pose proof (rsdiag S groups gsize N smp st me old ltac:(lia) HN Hg Hm HW) as D. cbn zeta in D.
  assert (D1 : forall p, 0 <= p < S - 1 -> sdiag S (spreadOO S oo ho old) (2 * p + 1) = 0%R) by (intros p Hp; apply (D p Hp)).
  assert (HI : imaginary_fixed (S - 1) F (sdiag S (spreadOO S oo ho old)) cut).
  { destruct HF as [HF|(Hc & p & Hp & Pp)]; [now left|right]. split; [exact Hc|]. exists p. split; [exact Hp|].
    destruct (D p Hp) as (E & _). exact (eq_ind_r (fun z => (0 < z)%R) Pp E). }
  split.
  - intros k Hk. apply (even_selected (S - 1) F (sdiag S (spreadOO S oo ho old)) cut k ltac:(lia) D1 HI Hk).
  - intros i. apply (imaginary_unchanged (S - 1) F (sdiag S (spreadOO S oo ho old)) cut info r para i ltac:(lia) D1 HI).
Qed.
Lemma cg_same_selection S groups N smp st st' me old F cut p :
  1 < S -> 0 <= N -> (forall g i, 0 <= g < groups -> 0 <= i < N -> ok (smp g i) = true /\ wgt (smp g i) = 1%R) ->
  let l := all_samples groups N smp in
  let ps := procs groups (fun _ => 1) in
  let A := fun p => main_cal_real S true false N 1 (snd p) (smp (fst p)) (st p) in
  let B := fun p => main_cal_real S false false N 1 (snd p) (smp (fst p)) (st' p) in
  In me ps -> total_weight l <> 0%R -> (exists q, 0 <= q < S - 1 /\ (0 <= rcov l q q)%R) -> 0 <= p < S - 1 ->
  let oo := average_real ps (total_weight l) (fun p => rOO (A p)) me in
  let oo' := average_real ps (total_weight l) (fun p => rOO (B p)) me in
  let ho' := average_real ps (total_weight l) (fun p => rHO (B p)) me in
  optimises (select_real (S - 1) F (cg_sdiag_real S oo) cut) p <-> optimises (select (2 * (S - 1)) F (sdiag S (spreadOO S oo' ho' old)) cut) (2 * p).
Proof.
  intros HS HN Hok l ps A B Hm HW (q & Hq & Pq) Hp oo oo' ho'.
  destruct (rcg_all S groups N 0 (fun k => k) smp st me 0 0 ltac:(lia) HN ltac:(lia) Hok Hm HW ltac:(intros; lia)) as (_ & _ & D).
  pose proof (rsdiag S groups (fun _ => 1) N smp st' me old ltac:(lia) HN ltac:(intros; lia) Hm HW) as D'. cbn zeta in D'.
  apply same_selection; [lia| | |exact Hp].
  - intros k Hk. destruct (D' k Hk) as (E1 & E2). split; [|exact E2]. etransitivity; [exact E1|]. symmetry. exact (D k Hk).
  - exists q. split; [exact Hq|]. exact (eq_ind_r (fun z => (0 <= z)%R) Pq (D q Hq)).
Qed.

(** ** the two codes can choose different parameters *)
Definition cutsample (_ i : Z) : sample :=
  Smp true 1 (RtoC 0) (fun c => if c =? 2 then RtoC (10 + IZR i) else Cmult Ci (RtoC (10 + IZR i))) (fun _ => RtoC 0) (fun _ => RtoC 0).
Definition cutflag (c : Z) : Z := if c =? 0 then 1 else 0.
Lemma optimises_iff n F d cut c : 0 < n -> exists m, is_rmax n d m /\ (optimises (select n F d cut) c <-> 0 <= c < n /\ F c = 1 /\ (m * cut <= d c)%R).
Proof.
  intros Hn. destruct (select_spec n F d cut Hn) as (m & Mm & A1 & _ & A2 & _). exists m. split; [exact Mm|]. split.
  - intros (k & Hk & <-). destruct (A1 k Hk) as (H1 & H2 & H3). auto.
  - intros (H1 & H2 & H3). apply A2; [exact H1|]. now split.
Qed.
Lemma two_max d m : is_rmax 2 d m -> m = Rmax (d 0) (d 1).
Proof.
  intros ((i & Hi & E) & U). pose proof (U 0 ltac:(lia)). pose proof (U 1 ltac:(lia)). unfold Rmax.
  assert (i = 0 \/ i = 1) as [-> | ->] by lia; destruct (Rle_dec (d 0) (d 1)); lra.
Qed.
Lemma cut_refuted :
  exists S groups gsize N smp me old F cut,
  1 < S /\ 0 <= N /\ (forall g, 0 <= g < groups -> 1 <= gsize g) /\
  let l := all_samples groups N smp in
  let ps := procs groups gsize in
  let A := fun p => main_cal_real S false false N (gsize (fst p)) (snd p) (smp (fst p)) (fun _ => 0%R) in
  let B := fun p => main_cal S false false N (gsize (fst p)) (snd p) (smp (fst p)) (fun _ => RtoC 0) in
  let oo := average_real ps (total_weight l) (fun p => rOO (A p)) me in
  let ho := average_real ps (total_weight l) (fun p => rHO (A p)) me in
  In me ps /\ total_weight l <> 0%R /\ real_derivatives l (S - 1) (fun k => k) /\
  (forall x p, In x (counted l) -> 0 <= p < S - 1 -> der x (2 * p + 3) = Cmult Ci (der x (2 * p + 2))) /\
  (forall p, 0 <= p < S - 1 -> F (2 * p + 1) <> 1) /\
  exists p, 0 <= p < S - 1 /\
  optimises (select (2 * (S - 1)) F (sdiag S (spreadOO S oo ho old)) cut) (2 * p) /\
  ~ optimises (select (2 * (S - 1)) F (sdiag S (average_vec ps (total_weight l) (fun p => OO (B p)) me)) cut) (2 * p).
Proof.
  exists 2, 1, (fun _ => 1), 2, cutsample, (0, 0), (fun _ => RtoC 0), cutflag, (1/100)%R.
  split; [lia|]. split; [lia|]. split; [intros; lia|]. cbn zeta.
  set (l := all_samples 1 2 cutsample).
  assert (El : l = [cutsample 0 0; cutsample 0 1]) by reflexivity.
  assert (Ec : counted l = [cutsample 0 0; cutsample 0 1]) by reflexivity.
  assert (HW : total_weight l = 2%R). { unfold total_weight. rewrite Ec. unfold cutsample. cbn [rsum wgt]. ring. }
  assert (HW0 : total_weight l <> 0%R) by (rewrite HW; lra).
  assert (Hm : In (0, 0) (procs 1 (fun _ => 1))) by (left; reflexivity).
  split; [exact Hm|]. split; [exact HW0|]. split; [|split; [|split]].
  - intros x k Hx Hk. assert (k = 0) as -> by lia. rewrite Ec in Hx. destruct Hx as [<-|[<-|[]]]; reflexivity.
  - intros x k Hx Hk. assert (k = 0) as -> by lia. rewrite Ec in Hx. destruct Hx as [<-|[<-|[]]]; reflexivity.
  - intros p Hp. assert (p = 0) as -> by lia. discriminate.
  - exists 0. split; [lia|].
    pose proof (rsdiag 2 1 (fun _ => 1) 2 cutsample (fun _ _ => 0%R) (0, 0) (fun _ => RtoC 0) ltac:(lia) ltac:(lia) ltac:(intros; lia) Hm HW0 0 ltac:(lia)) as (D0 & D1).
    destruct (averages_direct 2 1 (fun _ => 1) 2 cutsample (fun _ _ => RtoC 0) (0, 0) ltac:(lia) ltac:(lia) ltac:(intros; lia) Hm HW0) as (_ & Av).
    pose proof (sdiag_cov 2 l _ _ 0 HW0 Av ltac:(lia)) as E0. pose proof (sdiag_cov 2 l _ _ 1 HW0 Av ltac:(lia)) as E1.
    cbn zeta in D0, D1. fold l in D0, D1, E0, E1. change (2 * 0) with 0 in *. change (0 + 1) with 1 in *.
    assert (V0 : rcov l 0 0 = (1/4)%R). { unfold rcov, rmean, reO. rewrite Ec, HW. unfold cutsample. cbn. field. }
    assert (W0 : covO l 0 0 = (1/4)%R). { unfold covO, rmean, dO. rewrite Ec, HW. unfold cutsample. cbn. field. }
    assert (W1 : covO l 1 1 = (221/2)%R). { unfold covO, rmean, dO. rewrite Ec, HW. unfold cutsample. cbn. field. }
    rewrite V0 in D0. rewrite W0 in E0. rewrite W1 in E1. change (2 * (2 - 1)) with 2. split.
    + match goal with |- optimises (select 2 ?F ?d ?c) 0 => destruct (optimises_iff 2 F d c 0 ltac:(lia)) as (m & Mm & ->); set (dd := d) in * end.
      apply two_max in Mm. split; [lia|]. split; [reflexivity|]. subst m. rewrite D0, D1. unfold Rmax. destruct (Rle_dec (1/4) 0); lra.
    + match goal with |- ~ optimises (select 2 ?F ?d ?c) 0 => destruct (optimises_iff 2 F d c 0 ltac:(lia)) as (m & Mm & ->); set (dd := d) in * end.
      apply two_max in Mm. intros (_ & _ & H). subst m. rewrite E0, E1 in H. revert H. unfold Rmax. destruct (Rle_dec (1/4) (221/2)); lra.
Qed.
