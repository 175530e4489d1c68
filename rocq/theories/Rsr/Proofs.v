From Coq Require Import ZArith List Bool Reals Lia Lra.
From Coquelicot Require Import Complex.
From Verif Require Import Base.ZLoop Base.RSum Par.Model Par.Proofs SR.Model SR.Spec SR.Proofs SR.ProofsSel SR.ProofsMat SR.ProofsCG SR.ProofsFin SR.ProofsEnd Rsr.Model Rsr.Spec.
Import ListNotations.
Local Open Scope Z_scope.

(** ** a sample seen by the real code *)
Definition real_sample (x : sample) : sample :=
  Smp (ok x) (wgt x) (RtoC (fst (ene x))) (fun i => if i mod 2 =? 0 then RtoC (fst (der x i)) else RtoC 0) (grn1 x) (grn2 x).
Definition real_samples (l : list sample) : list sample := map real_sample l.
Lemma counted_real l : counted (real_samples l) = map real_sample (counted l).
Proof. unfold counted, real_samples. induction l as [|x l IH]; cbn [map filter]; [reflexivity|]. cbn [real_sample ok] in *. destruct (ok x); cbn [map]; now rewrite IH. Qed.
Lemma total_real l : total_weight (real_samples l) = total_weight l.
Proof. unfold total_weight. rewrite counted_real, rsum_map. reflexivity. Qed.
Lemma rmean_real l f : rmean (real_samples l) f = rmean l (fun x => f (real_sample x)).
Proof. unfold rmean. rewrite total_real, counted_real, rsum_map. reflexivity. Qed.
Lemma cmean_real l f : cmean (real_samples l) f = cmean l (fun x => f (real_sample x)).
Proof. unfold cmean. rewrite total_real, counted_real, csum_map. reflexivity. Qed.
Lemma cmean_ext_in l f g : (forall x, In x (counted l) -> f x = g x) -> cmean l f = cmean l g.
Proof. intros H. unfold cmean. f_equal. apply csum_ext. intros x Hx. now rewrite H. Qed.
Lemma rmean_ext_in l f g : (forall x, In x (counted l) -> f x = g x) -> rmean l f = rmean l g.
Proof. intros H. unfold rmean. f_equal. apply rsum_ext. intros x Hx. now rewrite H. Qed.
Lemma cmean_RtoC l f : total_weight l <> 0%R -> cmean l (fun x => RtoC (f x)) = RtoC (rmean l f).
Proof.
  intros HW. unfold cmean, rmean.
  replace (csum (counted l) (fun x => Cmult (RtoC (wgt x)) (RtoC (f x)))) with (RtoC (rsum (counted l) (fun x => wgt x * f x)%R)).
  - unfold Cdiv. rewrite <- RtoC_inv by assumption. rewrite <- RtoC_mult. reflexivity.
  - induction (counted l) as [|x m IH]; cbn [rsum csum]; [reflexivity|]. rewrite <- IH, RtoC_plus, RtoC_mult. reflexivity.
Qed.
Lemma cmean_zero l : cmean l (fun _ => RtoC 0) = RtoC 0.
Proof. unfold cmean. rewrite csum_zero by (intros; ring). unfold Cdiv. ring. Qed.

Lemma even_double j : 2 * j mod 2 = 0. Proof. rewrite Z.mul_comm. apply Z.mod_mul. lia. Qed.
Lemma odd_double j : (2 * j + 1) mod 2 = 1. Proof. replace (2 * j + 1) with (1 + j * 2) by ring. rewrite Z.mod_add by lia. reflexivity. Qed.
Lemma srOptO_real_even x j : srOptO (real_sample x) (2 * j) = RtoC (srOptO_real x j).
Proof.
  unfold srOptO_real, srOptO, real_sample. cbn [der]. destruct (Z.eqb_spec (2 * j) 0); [reflexivity|]. destruct (Z.eqb_spec (2 * j) 1); [lia|].
  rewrite even_double. reflexivity.
Qed.
Lemma srOptO_real_odd x j : srOptO (real_sample x) (2 * j + 1) = RtoC 0.
Proof.
  unfold srOptO, real_sample. cbn [der]. destruct (Z.eqb_spec (2 * j + 1) 0); [lia|]. destruct (Z.eqb_spec (2 * j + 1) 1); [reflexivity|].
  rewrite odd_double. reflexivity.
Qed.
Lemma covO_real l p q : covO (real_samples l) (2 * p) (2 * q) = rcov l p q.
Proof.
  unfold covO, rcov, dO. rewrite !rmean_real. unfold real_sample. cbn [der].
  replace (2 * p + 2) with (2 * (p + 1)) by ring. replace (2 * q + 2) with (2 * (q + 1)) by ring. rewrite !even_double. cbn [Z.eqb].
  unfold reO. replace (2 * p + 2) with (2 * (p + 1)) by ring. replace (2 * q + 2) with (2 * (q + 1)) by ring.
  f_equal. apply rmean_ext. intros x. cbn. ring.
Qed.
Lemma covO_real_odd l p q : covO (real_samples l) (2 * p + 1) q = 0%R /\ covO (real_samples l) q (2 * p + 1) = 0%R.
Proof.
  assert (Z0 : rmean l (fun _ => 0%R) = 0%R). { unfold rmean. rewrite rsum_zero by (intros; ring). unfold Rdiv. ring. }
  assert (A : covO (real_samples l) (2 * p + 1) q = 0%R).
  { unfold covO, dO. rewrite !rmean_real. unfold real_sample. cbn [der]. replace (2 * p + 1 + 2) with (2 * (p + 1) + 1) by ring. rewrite odd_double. cbn [Z.eqb Pos.eqb].
    rewrite (rmean_ext l _ (fun _ => 0%R)) by (intros; cbn; ring). rewrite (rmean_ext l (fun x => fst (RtoC 0)) (fun _ => 0%R)) by reflexivity. rewrite Z0. ring. }
  split; [exact A|]. rewrite covO_sym. exact A.
Qed.
Lemma force_real l p : force (real_samples l) (2 * p) = rforce l p.
Proof.
  unfold force, rforce, dO. rewrite !rmean_real. unfold real_sample. cbn [der ene].
  replace (2 * p + 2) with (2 * (p + 1)) by ring. rewrite !even_double. cbn [Z.eqb]. unfold reO. replace (2 * p + 2) with (2 * (p + 1)) by ring.
  apply rmean_ext. intros x. cbn. ring.
Qed.

(** ** one process *)
Record rsums (l : list sample) (a : racc) : Prop := {
  rs_W : rWc a = rsum l wgt;
  rs_E : rEtot a = csum l (fun x => Cmult (RtoC (wgt x)) (ene x));
  rs_E2 : rEtot2 a = csum l (fun x => Cmult (RtoC (wgt x)) (Cmult (ene x) (Cconj (ene x))))
}.
Definition rsumsHO (S : Z) (l : list sample) (ho : Z -> R) : Prop :=
  forall j, 0 <= j < S -> ho j = rsum l (fun x => wgt x * (fst (ene x) * srOptO_real x j))%R.
Definition rsumsOO (S : Z) (l : list sample) (oo : Z -> R) : Prop :=
  forall i j, 0 <= i < S -> 0 <= j < S -> oo (i + j * S) = rsum l (fun x => wgt x * (srOptO_real x i * srOptO_real x j))%R.

Lemma cell_mod S i j : 0 <= i < S -> (i + j * S) mod S = i /\ (i + j * S) / S = j.
Proof. intros H. split; [rewrite Z.mod_add by lia; apply Z.mod_small; lia|]. rewrite Z.div_add by lia. rewrite Z.div_small by lia. lia. Qed.
Lemma dger_get S w x A i j : 0 <= i < S -> 0 <= j < S -> dger S w x A (i + j * S) = (A (i + j * S)%Z + w * x i * x j)%R.
Proof.
  intros Hi Hj. unfold dger. destruct (cell_mod S i j Hi) as (-> & ->). destruct (Z.leb_spec 0 (i + j * S)); [|nia].
  destruct (Z.ltb_spec (i + j * S) (S * S)); [|nia]. reflexivity.
Qed.
Lemma daxpy_get S a x y j : 0 <= j < S -> daxpy S a x y j = (y j + a * x j)%R.
Proof. intros H. unfold daxpy. destruct (Z.leb_spec 0 j), (Z.ltb_spec j S); try lia. reflexivity. Qed.
Lemma radd_get a i v j : radd a i v j = if j =? i then (a i + v)%R else a j.
Proof. unfold radd. rewrite upd_get. reflexivity. Qed.

Lemma rloop_direct S smp a b st : 0 < S -> a <= b ->
  let r := loop a b (fun i x => one_sample_real S false i (smp i) x) (rclear st) in
  rsums (part smp a b) r /\ rsumsOO S (part smp a b) (rOO r) /\ rsumsHO S (part smp a b) (rHO r).
Proof.
  intros HS Hab r. unfold r. clear r.
  apply (loop_inv (fun k r => rsums (part smp a k) r /\ rsumsOO S (part smp a k) (rOO r) /\ rsumsHO S (part smp a k) (rHO r))); [lia| |].
  - rewrite part_nil. repeat split; intros; reflexivity.
  - intros k x Hk ([W E E2] & Ho & Hh). rewrite part_snoc by lia. unfold one_sample_real. destruct (ok (smp k)).
    2:{ rewrite app_if_false. repeat split; assumption. }
    cbn [calculateOO_real]. unfold calculateOO_real. split; [|split]; cbn [rWc rEtot rEtot2 rOO rHO].
    + constructor; cbn [rWc rEtot rEtot2].
      * rewrite rsum_snoc, W. reflexivity.
      * rewrite csum_snoc, E. reflexivity.
      * rewrite csum_snoc, E2. f_equal. ring.
    + intros i j Hi Hj. rewrite rsum_snoc, dger_get, Ho by assumption. ring.
    + intros j Hj. rewrite rsum_snoc, daxpy_get, Hh by assumption. ring.
Qed.

Lemma rstore_sample_get S i w e (O st ho : Z -> R) : 0 <= S ->
  let r := store_sample_real S i w e O st ho in
  (forall k, fst r k = if (i * S <=? k) && (k <? (i + 1) * S) then (sqrt w * O (k - i * S)%Z)%R else st k) /\
  (forall j, 0 <= j < S -> snd r j = (ho j + w * (fst e * O j))%R).
Proof.
  intros HS r. unfold r, store_sample_real. clear r.
  assert (A : (fun m (x : (Z -> R) * (Z -> R)) =>
     (forall k, fst x k = if (i * S <=? k) && (k <? i * S + m) then (sqrt w * O (k - i * S)%Z)%R else st k) /\
     (forall j, 0 <= j < S -> snd x j = (ho j + (if j <? m then w * (fst e * O j) else 0))%R)) S
    (loop 0 S (fun i0 (x : (Z -> R) * (Z -> R)) => let (st, ho) := x in
    (upd st (i0 + i * S) (sqrt w * O i0)%R, radd ho i0 (fst (Cmult (RtoC w) e) * O i0)%R)) (st, ho))).
  { apply (loop_inv (fun m (x : (Z -> R) * (Z -> R)) =>
     (forall k, fst x k = if (i * S <=? k) && (k <? i * S + m) then (sqrt w * O (k - i * S)%Z)%R else st k) /\
     (forall j, 0 <= j < S -> snd x j = (ho j + (if j <? m then w * (fst e * O j) else 0))%R))); [lia| |].
    - split; [|intros j Hj; destruct (Z.ltb_spec j 0); [lia|]; cbn [snd]; ring].
      intros k. destruct (Z.leb_spec (i * S) k), (Z.ltb_spec k (i * S + 0)); try lia; reflexivity.
    - intros m (q, h) Hm (IHq & IHh). cbn [fst snd] in *. split.
      + intros k. rewrite upd_get. destruct (Z.eqb_spec k (m + i * S)) as [->|e0].
        * destruct (Z.leb_spec (i * S) (m + i * S)), (Z.ltb_spec (m + i * S) (i * S + (m + 1))); try lia.
          cbn [andb]. do 2 f_equal. lia.
        * rewrite IHq. destruct (Z.leb_spec (i * S) k), (Z.ltb_spec k (i * S + m)), (Z.ltb_spec k (i * S + (m + 1))); try lia; reflexivity.
      + intros j Hj. rewrite radd_get. destruct (Z.eqb_spec j m) as [->|e0]; rewrite IHh by lia.
        * destruct (Z.ltb_spec m m), (Z.ltb_spec m (m + 1)); try lia. cbn. ring.
        * destruct (Z.ltb_spec j m), (Z.ltb_spec j (m + 1)); try lia; ring. }
  destruct A as (A & B). split.
  - intros k. rewrite A. replace ((i + 1) * S) with (i * S + S) by ring. reflexivity.
  - intros j Hj. rewrite B by assumption. destruct (Z.ltb_spec j S); [reflexivity|lia].
Qed.
Lemma rloop_store S smp a b st : 0 < S -> a <= b ->
  let r := loop a b (fun i x => one_sample_real S true i (smp i) x) (rclear st) in
  rsums (part smp a b) r /\ rsumsHO S (part smp a b) (rHO r) /\
  (forall i j, 0 <= j < S -> rStore r (j + i * S) =
     if (a <=? i) && (i <? b) && ok (smp i) then (sqrt (wgt (smp i)) * srOptO_real (smp i) j)%R else st (j + i * S)).
Proof.
  intros HS Hab r. unfold r. clear r.
  apply (loop_inv (fun k r => rsums (part smp a k) r /\ rsumsHO S (part smp a k) (rHO r) /\
   (forall i j, 0 <= j < S -> rStore r (j + i * S) =
     if (a <=? i) && (i <? k) && ok (smp i) then (sqrt (wgt (smp i)) * srOptO_real (smp i) j)%R else st (j + i * S)))); [lia| |].
  - rewrite part_nil. split; [now constructor|]. split; [intros j Hj; reflexivity|].
    intros i j Hj. destruct (Z.leb_spec a i), (Z.ltb_spec i a); try lia; reflexivity.
  - intros k x Hk ([W E E2] & Hh & Hst). rewrite part_snoc by lia. unfold one_sample_real.
    destruct (ok (smp k)) eqn:Ek.
    2:{ rewrite app_if_false. split; [now constructor|]. split; [assumption|].
        intros i j Hj. rewrite Hst by assumption. destruct (Z.eq_dec i k) as [->|].
        - rewrite Ek. rewrite !andb_false_r. reflexivity.
        - destruct (Z.leb_spec a i), (Z.ltb_spec i k), (Z.ltb_spec i (k + 1)); try lia; reflexivity. }
    pose proof (rstore_sample_get S k (wgt (smp k)) (ene (smp k)) (srOptO_real (smp k)) (rStore x) (rHO x) ltac:(lia)) as (Fs & Fh).
    destruct (store_sample_real S k (wgt (smp k)) (ene (smp k)) (srOptO_real (smp k)) (rStore x) (rHO x)) as (st', ho). cbn [fst snd] in *.
    split; [|split]; cbn [rWc rEtot rEtot2 rOO rHO rStore].
    + constructor; cbn [rWc rEtot rEtot2].
      * rewrite rsum_snoc, W. reflexivity.
      * rewrite csum_snoc, E. reflexivity.
      * rewrite csum_snoc, E2. f_equal. ring.
    + intros j Hj. rewrite rsum_snoc, Fh, Hh by assumption. reflexivity.
    + intros i j Hj. rewrite Fs. destruct (Z.eq_dec i k) as [->|Nk].
      * destruct (Z.leb_spec (k * S) (j + k * S)), (Z.ltb_spec (j + k * S) ((k + 1) * S)); try lia.
        destruct (Z.leb_spec a k), (Z.ltb_spec k (k + 1)); try lia. rewrite Ek. cbn [andb]. do 2 f_equal. lia.
      * rewrite Hst by assumption.
        destruct (Z.leb_spec (k * S) (j + i * S)), (Z.ltb_spec (j + i * S) ((k + 1) * S)); cbn [andb];
          try (destruct (Z.leb_spec a i), (Z.ltb_spec i k), (Z.ltb_spec i (k + 1)); try lia; reflexivity). nia.
Qed.
Lemma rmain_direct S N size rank smp st : 0 < S -> 0 <= N -> 1 <= size -> 0 <= rank < size ->
  let a := fst (split_loop N rank size) in let b := snd (split_loop N rank size) in
  let r := main_cal_real S false false N size rank smp st in
  rsums (part smp a b) r /\ rsumsOO S (part smp a b) (rOO r) /\ rsumsHO S (part smp a b) (rHO r).
Proof.
  intros HS HN Hz Hr. cbn zeta. pose proof (split_within N size rank HN Hz Hr) as (W & _).
  unfold main_cal_real. destruct (split_loop N rank size) as (a, b). cbn [fst snd orb] in *.
  apply (rloop_direct S smp a b st HS). lia.
Qed.
Lemma rmain_store S N size rank smp st : 0 < S -> 0 <= N -> 1 <= size -> 0 <= rank < size ->
  let a := fst (split_loop N rank size) in let b := snd (split_loop N rank size) in
  a = 0 -> (forall i, a <= i < b -> ok (smp i) = true /\ (0 <= wgt (smp i))%R) ->
  let r := main_cal_real S false true N size rank smp st in
  rsums (part smp a b) r /\ rsumsOO S (part smp a b) (rOO r) /\ rsumsHO S (part smp a b) (rHO r).
Proof.
  intros HS HN Hz Hr. cbn zeta. pose proof (split_within N size rank HN Hz Hr) as (W & _).
  unfold main_cal_real. destruct (split_loop N rank size) as (a, b). cbn [fst snd orb] in *. intros -> Hok.
  pose proof (rloop_store S smp 0 b st HS ltac:(lia)) as (A & B & D). cbn [rWc rEtot rEtot2 rOO rHO rStore].
  split; [|split]; [destruct A; now constructor| |exact B].
  intros i j Hi Hj. rewrite part_all by (intros; now apply Hok). rewrite rsum_map.
  unfold calculateOO_Store_real, dgemm_NT. replace (b - 0) with b by ring.
  destruct (cell_mod S i j Hi) as (-> & ->). destruct (Z.leb_spec 0 (i + j * S)); [|nia]. destruct (Z.ltb_spec (i + j * S) (S * S)); [|nia]. cbn [andb].
  apply rsum_ext. intros k Hk. apply zrange_in in Hk. rewrite !D by lia.
  destruct (Hok k ltac:(lia)) as (Ek & Wk). rewrite Ek.
  destruct (Z.leb_spec 0 k), (Z.ltb_spec k b); try lia. cbn [andb].
  rewrite <- (sqrt_sqrt (wgt (smp k)) Wk) at 3. ring.
Qed.
Lemma rstore_equals_direct S N size rank smp st st' : 0 < S -> 0 <= N -> 1 <= size -> 0 <= rank < size ->
  fst (split_loop N rank size) = 0 ->
  (forall i, 0 <= i < snd (split_loop N rank size) -> ok (smp i) = true /\ (0 <= wgt (smp i))%R) ->
  let d := main_cal_real S false false N size rank smp st' in
  let r := main_cal_real S false true N size rank smp st in
  rWc r = rWc d /\ rEtot r = rEtot d /\ rEtot2 r = rEtot2 d /\
  (forall k, 0 <= k < S * S -> rOO r k = rOO d k) /\ (forall k, 0 <= k < S -> rHO r k = rHO d k).
Proof.
  intros HS HN Hz Hr H0 Hok d r.
  pose proof (rmain_direct S N size rank smp st' HS HN Hz Hr) as Hd. cbn zeta in Hd. rewrite H0 in Hd. fold d in Hd.
  pose proof (rmain_store S N size rank smp st HS HN Hz Hr) as Hs. cbn zeta in Hs. rewrite H0 in Hs. specialize (Hs eq_refl Hok). fold r in Hs.
  destruct Hd as ([d1 d2 d3] & d4 & d5), Hs as ([s1 s2 s3] & s4 & s5).
  rewrite d1, d2, d3, s1, s2, s3. repeat split; intros k Hk.
  - pose proof (Z.div_mod k S ltac:(lia)) as E. pose proof (Z.mod_pos_bound k S ltac:(lia)) as B.
    replace k with (k mod S + k / S * S) by lia.
    assert (0 <= k / S < S). { split; [apply Z.div_pos; lia|]. apply Z.div_lt_upper_bound; lia. }
    rewrite d4, s4 by lia. reflexivity.
  - rewrite d5, s5 by lia. reflexivity.
Qed.

(** ** averages over the processes *)
Lemma average_real_eq ps W v me i z : In me ps -> W <> 0%R -> rsum ps (fun p => v p i) = z -> average_real ps W v me i = (z / W)%R.
Proof.
  intros Hm HW E. unfold average_real. destruct (1 <? Z.of_nat (length ps)) eqn:B.
  - rewrite E. field. assumption.
  - rewrite (single_proc _ _ Hm B) in E. cbn [rsum] in E. rewrite Rplus_0_r in E. rewrite E. field. assumption.
Qed.
Definition is_average_real (S : Z) (l : list sample) (oo ho : Z -> R) : Prop :=
  (forall i j, 0 <= i < S -> 0 <= j < S -> oo (i + j * S) = rmean l (fun x => srOptO_real x i * srOptO_real x j)%R) /\
  (forall j, 0 <= j < S -> ho j = rmean l (fun x => fst (ene x) * srOptO_real x j)%R).
Lemma raverages_direct S groups gsize N smp st me :
  0 < S -> 0 <= N -> (forall g, 0 <= g < groups -> 1 <= gsize g) ->
  let l := all_samples groups N smp in
  let ps := procs groups gsize in
  let A := fun p => main_cal_real S false false N (gsize (fst p)) (snd p) (smp (fst p)) (st p) in
  In me ps -> total_weight l <> 0%R ->
  is_average_real S l (average_real ps (total_weight l) (fun p => rOO (A p)) me) (average_real ps (total_weight l) (fun p => rHO (A p)) me).
Proof.
  intros HS HN Hg l ps A Hm HW.
  assert (HA : forall p, In p ps -> rsums (p_part N gsize smp p) (A p) /\ rsumsOO S (p_part N gsize smp p) (rOO (A p)) /\ rsumsHO S (p_part N gsize smp p) (rHO (A p))).
  { intros p Hp. apply in_procs in Hp. destruct Hp as (H1 & H2). apply (rmain_direct S N (gsize (fst p)) (snd p) (smp (fst p)) (st p)); auto. }
  split.
  - intros i j Hi Hj. unfold rmean, Rdiv. apply average_real_eq; try assumption. unfold l. rewrite <- (procs_rsum groups gsize) by assumption.
    apply rsum_ext. intros p Hp. destruct (HA p Hp) as (_ & F & _). now apply F.
  - intros j Hj. unfold rmean. apply average_real_eq; try assumption. unfold l. rewrite <- (procs_rsum groups gsize) by assumption.
    apply rsum_ext. intros p Hp. destruct (HA p Hp) as (_ & _ & F). now apply F.
Qed.

(** ** the arrays the solver sees are the averages of the real samples *)
Lemma spread_cell S oo ho old i j : 0 < S -> 0 <= i <= 2 * S -> 0 <= j < 2 * S ->
  spread S oo ho old (i * (2 * S) + j) =
  if (j mod 2 =? 0) && (i mod 2 =? 0) then RtoC (memory_real S oo ho (j / 2 + i / 2 * S)) else RtoC 0.
Proof.
  intros HS Hi Hj. unfold spread. destruct (Z.leb_spec 0 (i * (2 * S) + j)); [|nia]. destruct (Z.ltb_spec (i * (2 * S) + j) (2 * S * (2 * S + 2))); [|nia].
  cbn [andb]. assert (M : (i * (2 * S) + j) mod (2 * S) = j) by (rewrite Z.add_comm, Z.mod_add by lia; apply Z.mod_small; lia).
  cbn zeta. rewrite M. replace (i * (2 * S) + j - j) with (i * (2 * S)) by ring. rewrite Z.div_mul by lia. reflexivity.
Qed.
Lemma parity k : exists j, k = 2 * j \/ k = 2 * j + 1.
Proof. exists (k / 2). pose proof (Z.div_mod k 2 ltac:(lia)). pose proof (Z.mod_pos_bound k 2 ltac:(lia)). lia. Qed.
Lemma half_even j : 2 * j / 2 = j. Proof. rewrite Z.mul_comm. apply Z.div_mul. lia. Qed.
Lemma spread_average S l oo ho old : 0 < S -> total_weight l <> 0%R -> is_average_real S l oo ho ->
  is_average S (real_samples l) (spreadOO S oo ho old) (spreadHO S oo ho old).
Proof.
  intros HS HW (A & B). split.
  - intros i j Hi Hj. unfold spreadOO. rewrite spread_cell by lia. rewrite cmean_real.
    destruct (parity i) as (a & [-> | ->]), (parity j) as (b & [-> | ->]); rewrite ?even_double, ?odd_double; cbn [Z.eqb andb].
    + rewrite !half_even. unfold memory_real. destruct (Z.ltb_spec (b + a * S) (S * S)); [|nia]. rewrite A by lia.
      rewrite <- cmean_RtoC by assumption. apply cmean_ext_in. intros x _. rewrite !srOptO_real_even. apply Ceq; cbn; ring.
    + symmetry. erewrite cmean_ext_in; [apply cmean_zero|]. intros x _. cbn beta. rewrite srOptO_real_odd. ring.
    + symmetry. erewrite cmean_ext_in; [apply cmean_zero|]. intros x _. cbn beta. rewrite (srOptO_real_odd x a), Cconj_0. ring.
    + symmetry. erewrite cmean_ext_in; [apply cmean_zero|]. intros x _. cbn beta. rewrite (srOptO_real_odd x b). ring.
  - intros j Hj. unfold spreadHO. rewrite spread_cell by lia. rewrite cmean_real. rewrite even_double, half_even. cbn [Z.eqb].
    destruct (parity j) as (b & [-> | ->]); rewrite ?even_double, ?odd_double; cbn [Z.eqb Pos.eqb andb].
    + rewrite half_even. unfold memory_real. destruct (Z.ltb_spec (b + S * S) (S * S)); [lia|]. replace (b + S * S - S * S) with b by ring. rewrite B by lia.
      rewrite <- cmean_RtoC by assumption. apply cmean_ext_in. intros x _. rewrite srOptO_real_even. apply Ceq; cbn; ring.
    + symmetry. erewrite cmean_ext_in; [apply cmean_zero|]. intros x _. cbn beta. rewrite srOptO_real_odd. ring.
Qed.

(** ** the linear system *)
Lemma rassembled S groups gsize N smp st me nn par del dt S0 g0 old :
  0 < S -> 0 <= N -> (forall g, 0 <= g < groups -> 1 <= gsize g) ->
  let l := all_samples groups N smp in
  let ps := procs groups gsize in
  let A := fun p => main_cal_real S false false N (gsize (fst p)) (snd p) (smp (fst p)) (st p) in
  In me ps -> total_weight l <> 0%R ->
  (forall k, 0 <= k < nn -> 0 <= par k < S - 1) ->
  let oo := average_real ps (total_weight l) (fun p => rOO (A p)) me in
  let ho := average_real ps (total_weight l) (fun p => rHO (A p)) me in
  let M := stcOptInit S del dt nn (fun k => 2 * par k) (spreadOO S oo ho old) (spreadHO S oo ho old) S0 g0 in
  (forall i j, 0 <= i < nn -> 0 <= j < nn -> fst M (i + nn * j) = (rcov l (par i) (par j) * (if i =? j then 1 + del else 1))%R) /\
  (forall i, 0 <= i < nn -> snd M i = (- 2 * dt * rforce l (par i))%R).
Proof.
  intros HS HN Hg l ps A Hm HW Hp oo ho M.
  assert (Av : is_average S (real_samples l) (spreadOO S oo ho old) (spreadHO S oo ho old)).
  { apply spread_average; try assumption. apply raverages_direct; assumption. }
  assert (HW' : total_weight (real_samples l) <> 0%R) by now rewrite total_real.
  assert (Hi : forall k, 0 <= k < nn -> 0 <= 2 * par k < 2 * S - 2) by (intros k Hk; specialize (Hp k Hk); lia).
  split.
  - intros i j Hii Hjj. unfold M. rewrite (smat_entry S nn (fun k => 2 * par k) (real_samples l) _ _ del dt HW' Av Hi) by assumption.
    now rewrite covO_real.
  - intros i Hii. unfold M. rewrite (force_entry S nn (fun k => 2 * par k) (real_samples l) _ _ del dt HW' Av Hi) by assumption.
    now rewrite force_real.
Qed.
Lemma rsdiag S groups gsize N smp st me old :
  0 < S -> 0 <= N -> (forall g, 0 <= g < groups -> 1 <= gsize g) ->
  let l := all_samples groups N smp in
  let ps := procs groups gsize in
  let A := fun p => main_cal_real S false false N (gsize (fst p)) (snd p) (smp (fst p)) (st p) in
  In me ps -> total_weight l <> 0%R ->
  let oo := average_real ps (total_weight l) (fun p => rOO (A p)) me in
  let ho := average_real ps (total_weight l) (fun p => rHO (A p)) me in
  forall p, 0 <= p < S - 1 -> sdiag S (spreadOO S oo ho old) (2 * p) = rcov l p p /\ sdiag S (spreadOO S oo ho old) (2 * p + 1) = 0%R.
Proof.
  intros HS HN Hg l ps A Hm HW oo ho p Hp.
  assert (Av : is_average S (real_samples l) (spreadOO S oo ho old) (spreadHO S oo ho old)).
  { apply spread_average; try assumption. apply raverages_direct; assumption. }
  assert (HW' : total_weight (real_samples l) <> 0%R) by now rewrite total_real.
  split.
  - rewrite (sdiag_cov S (real_samples l) _ _ (2 * p) HW' Av) by lia. apply covO_real.
  - rewrite (sdiag_cov S (real_samples l) _ _ (2 * p + 1) HW' Av) by lia. apply covO_real_odd.
Qed.

(** ** agreement with the complex code on real data *)
Lemma same_cov l n par i j : real_derivatives l n par -> 0 <= i < n -> 0 <= j < n ->
  covO l (2 * par i) (2 * par j) = rcov l (par i) (par j).
Proof.
  intros H Hi Hj. unfold covO, rcov, dO, reO. f_equal. apply rmean_ext_in. intros x Hx. unfold Cmult, Cconj. cbn [fst snd]. rewrite (H x i Hx Hi), (H x j Hx Hj). ring.
Qed.
Lemma same_force l n par i : real_derivatives l n par -> 0 <= i < n -> force l (2 * par i) = rforce l (par i).
Proof.
  intros H Hi. unfold force, rforce, dO. apply rmean_ext_in. intros x Hx. unfold Cmult, Cminus, Cplus, Copp, RtoC. cbn [fst snd]. rewrite (H x i Hx Hi). unfold reO. ring.
Qed.
