(** What the tables of an updater hold while hops are pending. *)
From Coq Require Import ZArith List Bool Lia Reals.
From Coquelicot Require Import Complex.
From Verif Require Import Base.ZLoop Base.Checked Base.RSum Pf.Pfaffian Pf.Spec Pf.Proofs Ltl.Model Ltl.Spec Ltl.Arr Blk.Model Blk.Spec Blk.Alg Blk.Kernel Blk.Arr.
Import ListNotations.
Local Open Scope Z_scope.

(** the configuration with the pending hops *)
Definition cur (s : tdi) : Z -> Z := loop 0 (tK s) (fun j c => upd c (tFrom s j) (tTo s j)) (tCfg s).

Lemma loop_hops k (fr to cfg : Z -> Z) i : 0 <= k -> (forall l, 0 <= l < k -> fr l <> i) -> loop 0 k (fun j c => upd c (fr j) (to j)) cfg i = cfg i.
Proof.
  intros Hk H. apply (loop_inv (fun m c => c i = cfg i)); [exact Hk|reflexivity|]. intros m c Hm IH. rewrite upd_other; [exact IH|]. intros E. now apply (H m Hm).
Qed.
Lemma loop_hop k (fr to cfg : Z -> Z) l : (forall l m, 0 <= l < k -> 0 <= m < k -> fr l = fr m -> l = m) -> 0 <= l < k -> loop 0 k (fun j c => upd c (fr j) (to j)) cfg (fr l) = to l.
Proof.
  intros Hinj Hl. apply (loop_inv (fun m c => l < m -> c (fr l) = to l) 0 k); [lia|lia| |lia]. intros m c Hm IH Hlm. destruct (Z.eq_dec l m) as [->|N]; [apply upd_same|]. rewrite upd_other; [apply IH; lia|]. intros E. apply Hinj in E; lia.
Qed.

Section State.
Variables (norbs n mmax : Z) (X : Z -> C).
Hypothesis HX : skew_array norbs X.
Hypothesis Hn : 0 < n.
Local Notation T := (at_ X norbs).
Local Notation amp := (amplitudes norbs X).

Lemma T_skew a b : 0 <= a < norbs -> 0 <= b < norbs -> T b a = Copp (T a b). Proof. intros; now apply HX. Qed.
Lemma T_diag a : 0 <= a < norbs -> T a a = RtoC 0.
Proof.
  intros Ha. pose proof (T_skew a a Ha Ha) as E. assert (D : Cplus (T a a) (T a a) = RtoC 0) by (rewrite E at 1; ring).
  destruct (T a a) as (x, y). unfold Cplus, RtoC in *. cbn in D. injection D as D1 D2. f_equal; Lra.lra.
Qed.
Lemma xij_is a b : 0 <= a < norbs -> 0 <= b < norbs -> xij norbs X a b = T a b.
Proof.
  intros Ha Hb. unfold xij. destruct (Z.eqb_spec a b) as [->|N]; [now rewrite T_diag|]. destruct (Z.ltb_spec a b); [reflexivity|]. symmetry. now apply T_skew.
Qed.

Record shape (s : tdi) : Prop := {
  shK : 0 <= tK s <= mmax; shNq : 0 <= tNq s <= tK s;
  shCfg : forall i, 0 <= i < n -> 0 <= tCfg s i < norbs;
  shFr : forall l, 0 <= l < tK s -> 0 <= tFrom s l < n;
  shTo : forall l, 0 <= l < tK s -> 0 <= tTo s l < norbs;
  shInj : forall l m, 0 <= l < tK s -> 0 <= m < tK s -> tFrom s l = tFrom s m -> l = m }.
(** the new row of electron i as hop l sees it *)
Definition seen (s : tdi) (i l : Z) : Z := if i =? tFrom s l then tCfg s i else cur s i.
Record tables (s : tdi) : Prop := {
  tbM : is_inverse n (full (tM s) n) (amp (tCfg s));
  tbPfa : tPfa s = pf (amp (tCfg s)) (zrange 0 n);
  tbU : forall i l, 0 <= i < n -> 0 <= l < tK s -> at_ (tU s) n i l = Cminus (T (seen s i l) (tTo s l)) (T (tCfg s i) (tCfg s (tFrom s l)));
  tbP : forall i o, 0 <= i < n -> 0 <= o < tK s -> at_ (tQ s) n i (mmax + o) = full (tM s) n i (tFrom s o);
  tbQ : forall i l, 0 <= i < n -> 0 <= l < tNq s -> at_ (tQ s) n i l = csum (zrange 0 n) (fun j => Cmult (full (tM s) n i j) (at_ (tU s) n j l));
  tbUMV : forall l o, 0 <= l < tK s -> 0 <= o < tK s -> at_ (tUMV s) mmax l o = csum (zrange 0 n) (fun i => Cmult (at_ (tU s) n i l) (full (tM s) n i (tFrom s o)));
  tbVMV : forall l o, 0 <= l < o -> o < tK s -> at_ (tVMV s) mmax l o = full (tM s) n (tFrom s l) (tFrom s o);
  tbW : forall l o, 0 <= l < o -> o < tK s -> at_ (tW s) mmax l o = Cplus (Copp (T (tTo s l) (tTo s o))) (T (tCfg s (tFrom s l)) (tCfg s (tFrom s o))) }.
(** the stored ratio is right unless it is zero, the mark of "not computed" *)
Record ratio_ok (s : tdi) : Prop := {
  raR : tRatio s <> RtoC 0 -> get_pfa s = pf (amp (cur s)) (zrange 0 n);
  ra0 : tK s = 0 -> tRatio s = RtoC 1;
  ra1 : tK s = 1 -> tRatio s <> RtoC 0 -> at_ (tCp s) (2 * mmax) 0 1 = Cminus (at_ (tUMV s) mmax 0 0) (RtoC 1) }.
Definition good (s : tdi) : Prop := shape s /\ tables s /\ ratio_ok s.

(** the amplitudes of a regular configuration are of different orbitals *)
Lemma cfg_inj M cfg i j : is_inverse n M (amp cfg) -> 0 <= i < n -> 0 <= j < n -> cfg i = cfg j -> i = j.
Proof.
  intros (_ & R & _) Hi Hj E. pose proof (R i j Hi Hj) as E1. pose proof (R j j Hj Hj) as E2.
  rewrite (csum_ext _ _ (fun k => Cmult (amp cfg j k) (M k j))) in E1 by (intros k _; unfold amplitudes; now rewrite E). rewrite E1 in E2. unfold kron in E2. rewrite Z.eqb_refl in E2.
  destruct (Z.eqb_spec i j); [assumption|]. injection E2 as E2. Lra.lra.
Qed.
Lemma cur_pending s l : shape s -> 0 <= l < tK s -> cur s (tFrom s l) = tTo s l.
Proof. intros H Hl. apply loop_hop; [apply (shInj s H)|exact Hl]. Qed.
Lemma cur_other s i : shape s -> (forall l, 0 <= l < tK s -> tFrom s l <> i) -> cur s i = tCfg s i.
Proof. intros H Hi. apply loop_hops; [apply (shK s H)|exact Hi]. Qed.
Lemma cur_range s i : shape s -> 0 <= i < n -> 0 <= cur s i < norbs.
Proof.
  intros H Hi. destruct (hop_dec (tK s) (tFrom s) i) as [(l & Hl & <-)|N]; [rewrite cur_pending by assumption; now apply (shTo s H)|]. rewrite cur_other by assumption. now apply (shCfg s H).
Qed.
Lemma seen_range s i l : shape s -> 0 <= i < n -> 0 <= seen s i l < norbs.
Proof. intros H Hi. unfold seen. destruct (Z.eqb _ _); [now apply (shCfg s H)|now apply cur_range]. Qed.

(** the site table of config_to_site *)
Lemma config_to_site_at cfg : (forall i j, 0 <= i < n -> 0 <= j < n -> cfg i = cfg j -> i = j) -> forall x,
  (0 <= config_to_site n cfg x < n /\ cfg (config_to_site n cfg x) = x) \/ (config_to_site n cfg x = -1 /\ forall i, 0 <= i < n -> cfg i <> x).
Proof.
  intros Hinj x. unfold config_to_site.
  apply (loop_inv (fun m site => (0 <= site x < m /\ cfg (site x) = x) \/ (site x = -1 /\ forall i, 0 <= i < m -> cfg i <> x)) 0 n); [lia|right; split; [reflexivity|lia]|].
  intros m site Hm IH. destruct (Z.eq_dec (cfg m) x) as [E|N].
  - left. rewrite <- E, upd_same. split; [lia|reflexivity].
  - rewrite !upd_other by congruence. destruct IH as [(I1 & I2)|(I1 & I2)]; [left; split; [lia|assumption]|right]. split; [assumption|]. intros i Hi. destruct (Z.eq_dec i m) as [->|]; [assumption|apply I2; lia].
Qed.
(** the column of U for a new hop *)
Lemma new_column cfg osi osj k U : (forall i j, 0 <= i < n -> 0 <= j < n -> cfg i = cfg j -> i = j) -> (forall i, 0 <= i < n -> 0 <= cfg i < norbs) -> 0 <= norbs ->
  forall i c, 0 <= i < n -> at_ (loop 0 norbs (fun x U => if 0 <=? config_to_site n cfg x then put U n (config_to_site n cfg x) k (Cminus (T x osi) (T x osj)) else U) U) n i c =
    if c =? k then Cminus (T (cfg i) osi) (T (cfg i) osj) else at_ U n i c.
Proof.
  intros Hinj Hr Hnb i c Hi.
  set (P := fun m V => at_ V n i c = if (c =? k) && (cfg i <? m) then Cminus (T (cfg i) osi) (T (cfg i) osj) else at_ U n i c).
  assert (G : P norbs (loop 0 norbs (fun x U => if 0 <=? config_to_site n cfg x then put U n (config_to_site n cfg x) k (Cminus (T x osi) (T x osj)) else U) U)).
  { apply (loop_inv P); [exact Hnb| |]; unfold P.
    - destruct (Z.ltb_spec (cfg i) 0); [specialize (Hr i Hi); lia|]. now rewrite andb_false_r.
    - intros m V Hm IH. destruct (config_to_site_at cfg Hinj m) as [(R & E)|(E & N)].
      + destruct (Z.leb_spec 0 (config_to_site n cfg m)); [|lia]. rewrite at_put by assumption. destruct (Z.eqb_spec i (config_to_site n cfg m)) as [->|Ni].
        * rewrite E in *. destruct (Z.eqb_spec c k) as [->|Nc]; cbn [andb] in *; [|exact IH]. destruct (Z.ltb_spec m (m + 1)); [reflexivity|lia].
        * cbn [andb]. rewrite IH. destruct (c =? k); cbn [andb]; [|reflexivity]. destruct (Z.ltb_spec (cfg i) m), (Z.ltb_spec (cfg i) (m + 1)); try reflexivity; try lia.
          assert (cfg i = m) by lia. destruct Ni. apply Hinj; [assumption..|congruence].
      + rewrite E. change (0 <=? -1) with false. cbv iota. rewrite IH. destruct (c =? k); cbn [andb]; [|reflexivity]. specialize (N i Hi). destruct (Z.ltb_spec (cfg i) m), (Z.ltb_spec (cfg i) (m + 1)); try reflexivity; lia. }
  unfold P in G. rewrite G. destruct (c =? k); cbn [andb]; [|reflexivity]. destruct (Z.ltb_spec (cfg i) norbs); [reflexivity|]. specialize (Hr i Hi). lia.
Qed.

(** a sum in which one term's factor changes *)
Lemma csum_change m (w x y : Z -> C) : 0 <= m < n -> (forall j, 0 <= j < n -> j <> m -> y j = x j) ->
  csum (zrange 0 n) (fun j => Cmult (w j) (y j)) = Cplus (csum (zrange 0 n) (fun j => Cmult (w j) (x j))) (Cmult (Cminus (y m) (x m)) (w m)).
Proof.
  intros Hm H. rewrite (csum_ext _ _ (fun j => Cplus (Cmult (w j) (x j)) (Cmult (kron m j) (Cmult (Cminus (y m) (x m)) (w j))))).
  - rewrite csum_add. f_equal. now apply (csum_kron n m (fun j => Cmult (Cminus (y m) (x m)) (w j))).
  - intros j Hj. apply zrange_in in Hj. unfold kron. destruct (Z.eqb_spec m j) as [<-|N]; [ring|]. rewrite H by lia. ring.
Qed.
Lemma csum_change' m (w x y : Z -> C) : 0 <= m < n -> (forall j, 0 <= j < n -> j <> m -> y j = x j) ->
  csum (zrange 0 n) (fun j => Cmult (y j) (w j)) = Cplus (csum (zrange 0 n) (fun j => Cmult (x j) (w j))) (Cmult (Cminus (y m) (x m)) (w m)).
Proof.
  intros Hm H. rewrite (csum_ext _ _ (fun j => Cmult (w j) (y j))) by (intros; ring). rewrite (csum_change m w x y Hm H). f_equal. apply csum_ext. intros; ring.
Qed.

(** the rows of the earlier hops: what the loop of touches leaves.  [e l] is the new entry of row msj, [h l] the new entry of column k. *)
Lemma touch_at k msj l v U Q UMV : 0 <= k < mmax -> 0 <= msj < n -> 0 <= l < k -> let '(U', Q', UMV') := touch n mmax k msj l v (U, Q, UMV) in let d := Cminus v (at_ U n msj l) in
  (forall i c, 0 <= i < n -> at_ U' n i c = if (i =? msj) && (c =? l) then v else at_ U n i c) /\
  (forall i c, 0 <= i < n -> at_ Q' n i c = if c =? l then Cplus (at_ Q n i l) (Cmult d (at_ Q n i (mmax + k))) else at_ Q n i c) /\
  (forall r o, 0 <= r < mmax -> at_ UMV' mmax r o = if (r =? l) && (0 <=? o) && (o <? k) then Cplus (at_ UMV mmax l o) (Cmult d (at_ Q n msj (mmax + o))) else at_ UMV mmax r o).
Proof.
  intros Hk Hm Hl. unfold touch. cbv zeta. rewrite at_put_same by assumption. set (d := Cminus v (at_ U n msj l)).
  set (Q' := loop 0 n (fun i Q => upd Q (l * n + i) (Cplus (Q (l * n + i)) (Cmult d (at_ Q n i (mmax + k))))) Q).
  assert (HQ : forall i c, 0 <= i < n -> at_ Q' n i c = if c =? l then Cplus (at_ Q n i l) (Cmult d (at_ Q n i (mmax + k))) else at_ Q n i c).
  { intros i c Hi. unfold Q'. rewrite (loop_column n 0 n l _ (fun i B => Cplus (at_ B n i l) (Cmult d (at_ B n i (mmax + k))))); [|lia|lia| |intros i0 B B' Hi0 HB|exact Hi].
    - destruct (Z.eqb_spec c l); cbn [andb]; [|reflexivity]. destruct (Z.leb_spec 0 i), (Z.ltb_spec i n); try lia. reflexivity.
    - intros i0 B Hi0. unfold put, at_. rewrite (Z.add_comm (l * n)). reflexivity.
    - f_equal; [apply HB; [assumption|now left]|]. f_equal. apply HB; [assumption|lia]. }
  split; [intros i c Hi; now rewrite at_put by assumption|]. split; [exact HQ|].
  intros r o Hr. rewrite (loop_row mmax 0 k l _ (fun o x => Cplus x (Cmult d (at_ Q' n msj (mmax + o))))); [|lia|lia|reflexivity|exact Hr].
  destruct (Z.eqb_spec r l) as [->|]; cbn [andb]; [|reflexivity]. destruct (Z.leb_spec 0 o), (Z.ltb_spec o k); cbn [andb]; try reflexivity.
  rewrite HQ by assumption. destruct (Z.eqb_spec (mmax + o) l); [lia|reflexivity].
Qed.
Lemma touches_at k msj (fr : Z -> Z) (e h : Z -> C) U Q UMV : 0 <= k < mmax -> 0 <= msj < n -> (forall l, 0 <= l < k -> 0 <= fr l < n /\ fr l <> msj) ->
  (forall l m, 0 <= l < k -> 0 <= m < k -> fr l = fr m -> l = m) ->
  let '(U', Q', UMV') := loop 0 k (fun l a => let '(U, Q, UMV) := a in touch n mmax k msj l (e l) (put U n (fr l) k (h l), Q, UMV)) (U, Q, UMV) in
  (forall i c, 0 <= i < n -> c < k -> 0 <= c -> at_ U' n i c = if i =? msj then e c else at_ U n i c) /\
  (forall l, 0 <= l < k -> at_ U' n (fr l) k = h l) /\
  (forall i, 0 <= i < n -> (forall l, 0 <= l < k -> fr l <> i) -> at_ U' n i k = at_ U n i k) /\
  (forall i l, 0 <= i < n -> 0 <= l < k -> at_ Q' n i l = Cplus (at_ Q n i l) (Cmult (Cminus (e l) (at_ U n msj l)) (at_ Q n i (mmax + k)))) /\
  (forall i c, 0 <= i < n -> k <= c -> at_ Q' n i c = at_ Q n i c) /\
  (forall l o, 0 <= l < k -> 0 <= o < k -> at_ UMV' mmax l o = Cplus (at_ UMV mmax l o) (Cmult (Cminus (e l) (at_ U n msj l)) (at_ Q n msj (mmax + o)))).
Proof.
  intros Hk Hm Hfr Hinj.
  set (P := fun m a => let '(U', Q', UMV') := a in
    (forall i c, 0 <= i < n -> 0 <= c < k -> at_ U' n i c = if (i =? msj) && (c <? m) then e c else at_ U n i c) /\
    (forall l, 0 <= l < m -> at_ U' n (fr l) k = h l) /\
    (forall i, 0 <= i < n -> (forall l, 0 <= l < m -> fr l <> i) -> at_ U' n i k = at_ U n i k) /\
    (forall i c, 0 <= i < n -> 0 <= c -> at_ Q' n i c = if c <? m then Cplus (at_ Q n i c) (Cmult (Cminus (e c) (at_ U n msj c)) (at_ Q n i (mmax + k))) else at_ Q n i c) /\
    (forall l o, 0 <= l < mmax -> 0 <= o < k -> at_ UMV' mmax l o = if l <? m then Cplus (at_ UMV mmax l o) (Cmult (Cminus (e l) (at_ U n msj l)) (at_ Q n msj (mmax + o))) else at_ UMV mmax l o)).
  match goal with |- context [loop 0 k ?f ?a] => set (R := loop 0 k f a); assert (G : P k R) end.
  { apply (loop_inv P 0 k); [lia| |].
    - unfold P. split; [|split; [|split; [|split]]].
      + intros i c Hi Hc. destruct (Z.ltb_spec c 0); [lia|]. now rewrite andb_false_r.
      + lia. + reflexivity.
      + intros i c Hi Hc. destruct (Z.ltb_spec c 0); [lia|reflexivity].
      + intros l o Hl Ho. destruct (Z.ltb_spec l 0); [lia|reflexivity].
    - intros m [[U1 Q1] V1] Hmk (I1 & I2 & I3 & I4 & I5). destruct (Hfr m Hmk) as (F1 & F2).
      pose proof (touch_at k msj m (e m) (put U1 n (fr m) k (h m)) Q1 V1 Hk Hm Hmk) as TT. cbv zeta in TT. destruct (touch n mmax k msj m (e m) (put U1 n (fr m) k (h m), Q1, V1)) as [[U2 Q2] V2].
      destruct TT as (T1 & T2 & T3). rewrite at_put_other in T2, T3 by (assumption || lia). rewrite (I1 msj m) in T2, T3 by lia.
      rewrite Z.eqb_refl in T2, T3. replace (m <? m) with false in T2, T3 by (symmetry; apply Z.ltb_ge; lia). cbn [andb] in T2, T3.
      unfold P. split; [|split; [|split; [|split]]].
      + intros i c Hi Hc. rewrite T1 by assumption. destruct (Z.eqb_spec c m) as [->|Nc].
        * rewrite andb_true_r. destruct (Z.ltb_spec m (m + 1)); [|lia]. rewrite andb_true_r. destruct (Z.eqb_spec i msj); [reflexivity|]. rewrite at_put_other by (assumption || lia). rewrite I1 by lia. destruct (Z.eqb_spec i msj); [lia|reflexivity].
        * rewrite andb_false_r. rewrite at_put_other by (assumption || lia). rewrite I1 by assumption. destruct (Z.ltb_spec c m), (Z.ltb_spec c (m + 1)); try lia; reflexivity.
      + intros l Hl. destruct (Hfr l ltac:(lia)) as (L1 & L2). rewrite T1 by assumption. destruct (Z.eqb_spec (fr l) msj); [lia|]. cbn [andb]. destruct (Z.eq_dec l m) as [->|N]; [now rewrite at_put_same|].
        rewrite at_put_other; [apply I2; lia|assumption..|]. left. intros E. apply Hinj in E; lia.
      + intros i Hi N. rewrite T1 by assumption. destruct (Z.eqb_spec k m); [lia|]. rewrite andb_false_r. rewrite at_put_other; [|assumption..|left; intros E; apply (N m); [lia|now symmetry]]. apply I3; [assumption|]. intros l Hl. apply N. lia.
      + intros i c Hi Hc. rewrite T2 by assumption. destruct (Z.eqb_spec c m) as [->|Nc].
        * rewrite !I4 by lia. destruct (Z.ltb_spec m m), (Z.ltb_spec m (m + 1)), (Z.ltb_spec (mmax + k) m); try lia. reflexivity.
        * rewrite I4 by assumption. destruct (Z.ltb_spec c m), (Z.ltb_spec c (m + 1)); try lia; reflexivity.
      + intros l o Hl Ho. rewrite T3 by assumption. destruct (Z.leb_spec 0 o), (Z.ltb_spec o k); try lia. rewrite !andb_true_r. destruct (Z.eqb_spec l m) as [->|Nc].
        * rewrite I4, I5 by lia. destruct (Z.ltb_spec m m), (Z.ltb_spec m (m + 1)), (Z.ltb_spec (mmax + o) m); try lia. reflexivity.
        * rewrite I5 by assumption. destruct (Z.ltb_spec l m), (Z.ltb_spec l (m + 1)); try lia; reflexivity. }
  clearbody R. destruct R as [[U' Q'] V']. destruct G as (I1 & I2 & I3 & I4 & I5). split; [|split; [|split; [|split; [|split]]]].
  - intros i c Hi Hc Hc0. rewrite I1 by lia. destruct (Z.ltb_spec c k); [now rewrite andb_true_r|lia].
  - exact I2. - exact I3.
  - intros i l Hi Hl. rewrite I4 by lia. destruct (Z.ltb_spec l k); [reflexivity|lia].
  - intros i c Hi Hc. rewrite I4 by lia. destruct (Z.ltb_spec c k); [lia|reflexivity].
  - intros l o Hl Ho. rewrite I5 by lia. destruct (Z.ltb_spec l k); [reflexivity|lia].
Qed.
End State.
