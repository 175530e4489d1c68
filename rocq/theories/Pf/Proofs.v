From Coq Require Import ZArith List Bool Reals Lia Lra.
From Coquelicot Require Import Complex.
From Verif Require Import Base.ZLoop Base.RSum Pf.Pfaffian Pf.Algebra Pf.Model Pf.Spec.
Import ListNotations.
Local Open Scope Z_scope.

(** ** loops over complex arrays *)
Lemma csum_snoc' a b (f : Z -> C) : a <= b -> csum (zrange a (b + 1)) f = Cplus (csum (zrange a b) f) (f b).
Proof. intros H. rewrite zrange_snoc, csum_app by assumption. cbn [csum]. ring. Qed.
Lemma loop_cadditive a b (f : Z -> (Z -> C) -> Z -> C) (d : Z -> C) c j :
  a <= b -> (forall i c, a <= i < b -> f i c j = Cplus (c j) (d i)) -> loop a b f c j = Cplus (c j) (csum (zrange a b) d).
Proof.
  intros Hab H. apply (loop_inv (fun e g => g j = Cplus (c j) (csum (zrange a e) d))); [assumption| |].
  - rewrite zrange_nil by lia. cbn. ring.
  - intros e g He IH. rewrite H, IH, csum_snoc' by lia. ring.
Qed.
Lemma loop_csum a b (d : Z -> C) c : a <= b -> loop a b (fun i z => Cplus z (d i)) c = Cplus c (csum (zrange a b) d).
Proof.
  intros Hab. apply (loop_inv (fun e z => z = Cplus c (csum (zrange a e) d))); [assumption| |].
  - rewrite zrange_nil by lia. cbn. ring.
  - intros e z He ->. rewrite csum_snoc' by lia. ring.
Qed.
Lemma loop_set a b (d : Z -> C) c j : a <= b -> loop a b (fun i v => upd v i (d i)) c j = if (a <=? j) && (j <? b) then d j else c j.
Proof.
  intros Hab. apply (loop_inv (fun e z => z j = if (a <=? j) && (j <? e) then d j else c j)); [assumption| |].
  - destruct (Z.leb_spec a j), (Z.ltb_spec j a); try reflexivity; lia.
  - intros e z He IH. rewrite upd_get. destruct (Z.eqb_spec j e) as [->|].
    + destruct (Z.leb_spec a e), (Z.ltb_spec e (e + 1)); try reflexivity; lia.
    + rewrite IH. destruct (Z.leb_spec a j), (Z.ltb_spec j e), (Z.ltb_spec j (e + 1)); try reflexivity; lia.
Qed.
Lemma cadd_at c i v j : cadd c i v j = Cplus (c j) (if j =? i then v else RtoC 0).
Proof. unfold cadd. rewrite upd_get. destruct (Z.eqb_spec j i) as [->|]; [reflexivity|ring]. Qed.

(** ** positions in the array of inverses *)
Definition pos (N q i j : Z) : Z := q * N * N + i * N + j.
Lemma pos_inj N q i j q' i' j' : 0 <= i < N -> 0 <= j < N -> 0 <= i' < N -> 0 <= j' < N ->
  pos N q i j = pos N q' i' j' -> q = q' /\ i = i' /\ j = j'.
Proof.
  unfold pos. intros Hi Hj Hi' Hj' E.
  assert (E1 : (q * N + i) * N + j = (q' * N + i') * N + j') by lia.
  assert (Hq : q * N + i = q' * N + i' /\ j = j').
  { destruct (Z.div_mod_unique N (q * N + i) (q' * N + i') j j'); [lia|lia|lia|auto]. }
  destruct Hq as (Hq & ->).
  destruct (Z.div_mod_unique N q q' i i'); [lia|lia|lia|auto].
Qed.
Lemma pos_eqb N q i j q' i' j' : 0 <= i < N -> 0 <= j < N -> 0 <= i' < N -> 0 <= j' < N ->
  (pos N q i j =? pos N q' i' j') = (q =? q') && (i =? i') && (j =? j').
Proof.
  intros. destruct (Z.eqb_spec (pos N q i j) (pos N q' i' j')) as [E|E].
  - destruct (pos_inj _ _ _ _ _ _ _ H H0 H1 H2 E) as (-> & -> & ->). now rewrite !Z.eqb_refl.
  - destruct (Z.eqb_spec q q'), (Z.eqb_spec i i'), (Z.eqb_spec j j'); subst; tauto || reflexivity.
Qed.
Lemma csum_pick (l : list Z) x (c : bool) (f : Z -> C) : NoDup l -> In x l ->
  csum l (fun i => if c && (x =? i) then f i else RtoC 0) = if c then f x else RtoC 0.
Proof.
  intros Hnd Hx. destruct c; cbn [andb].
  - rewrite (csum_ext l _ (fun i => Cmult (delta x i) (f i))).
    + now apply csum_delta.
    + intros i Hi. unfold delta. destruct (x =? i); ring.
  - apply csum_zero. reflexivity.
Qed.
(** [for j: A[pos q i j] += f j] *)
Lemma row_add N q i (f : Z -> C) c q' i' j' : 0 <= i < N -> 0 <= i' < N -> 0 <= j' < N ->
  loop 0 N (fun j c => cadd c (q * N * N + i * N + j) (f j)) c (pos N q' i' j') =
  Cplus (c (pos N q' i' j')) (if (q' =? q) && (i' =? i) then f j' else RtoC 0).
Proof.
  intros Hi Hi' Hj'. rewrite (loop_cadditive 0 N _ (fun j => if ((q' =? q) && (i' =? i)) && (j' =? j) then f j else RtoC 0)); [|lia|].
  - rewrite csum_pick; [reflexivity|apply zrange_NoDup|apply zrange_in; lia].
  - intros j c' Hj. rewrite cadd_at. change (q * N * N + i * N + j) with (pos N q i j). now rewrite pos_eqb by lia.
Qed.
Lemma one_add N q i j v c q' i' j' : 0 <= i < N -> 0 <= j < N -> 0 <= i' < N -> 0 <= j' < N ->
  cadd c (q * N * N + i * N + j) v (pos N q' i' j') = Cplus (c (pos N q' i' j')) (if (q' =? q) && (i' =? i) && (j' =? j) then v else RtoC 0).
Proof. intros. rewrite cadd_at. change (q * N * N + i * N + j) with (pos N q i j). now rewrite pos_eqb by lia. Qed.

Lemma left_inverse_spec N X M : left_inverse (zrange 0 N) X M <-> (forall i j, 0 <= i < N -> 0 <= j < N -> csum (zrange 0 N) (fun k => Cmult (X i k) (M k j)) = kron i j).
Proof. unfold left_inverse. split; intros H i j Hi Hj; apply H; apply zrange_in in Hi || apply zrange_in; auto; now apply zrange_in in Hj || now apply zrange_in. Qed.
Lemma skew_spec N X : skewsym X (zrange 0 N) <-> (forall i j, 0 <= i < N -> 0 <= j < N -> X j i = Copp (X i j)).
Proof. unfold skewsym. split; intros H i j Hi Hj; apply H; apply zrange_in in Hi || apply zrange_in; auto; now apply zrange_in in Hj || now apply zrange_in. Qed.
Lemma is_inverse_intro N X M : skewsym X (zrange 0 N) -> skewsym M (zrange 0 N) -> left_inverse (zrange 0 N) X M -> is_inverse N X M.
Proof.
  intros HX HM Hl. split; [now apply left_inverse_spec|]. split; [|now apply skew_spec].
  intros i j Hi Hj. rewrite left_inverse_spec in Hl. rewrite skew_spec in HX, HM.
  transitivity (kron j i); [|unfold kron; now rewrite Z.eqb_sym].
  rewrite <- Hl by assumption. apply csum_ext. intros k Hk. apply zrange_in in Hk. rewrite (HX j k), (HM k i) by assumption. ring.
Qed.
Lemma is_inverse_elim N X M : is_inverse N X M -> left_inverse (zrange 0 N) X M /\ skewsym X (zrange 0 N).
Proof. intros (H1 & _ & H3). split; [now apply left_inverse_spec|now apply skew_spec]. Qed.

Section Updates.
Variables (Nsite Ne : Z).
Hypothesis HNe : 0 < Ne.
Variable Sl : Z -> C.
Notation N := (2 * Ne).
Notation L := (zrange 0 N).
Notation PM := (pair_matrix Nsite Ne Sl).

Lemma spin_of_label m s : electron Ne m s -> (m + s * Ne) / Ne = s /\ 0 <= m + s * Ne < N.
Proof.
  intros (Hm & Hs). split.
  - rewrite Z.div_add by lia. rewrite Z.div_small by lia. lia.
  - destruct Hs; subst; lia.
Qed.
Lemma label_spin k : 0 <= k < N -> k / Ne = 0 \/ k / Ne = 1.
Proof. intros Hk. assert (0 <= k / Ne < 2) by (split; [apply Z.div_pos; lia|apply Z.div_lt_upper_bound; lia]). lia. Qed.
Definition in_table (eleIdx : Z -> Z) : Prop := forall k, 0 <= k < N -> 0 <= orbital Nsite Ne eleIdx k < 2 * Nsite.
Lemma orbital_range eleIdx k : on_lattice Nsite N eleIdx -> 0 <= k < N -> 0 <= orbital Nsite Ne eleIdx k < 2 * Nsite.
Proof. intros Hl Hk. unfold orbital. pose proof (Hl k Hk). destruct (label_spin k Hk) as [-> | ->]; lia. Qed.
Lemma on_lattice_upd eleIdx k r : on_lattice Nsite N eleIdx -> 0 <= r < Nsite -> on_lattice Nsite N (upd eleIdx k r).
Proof. intros H Hr x Hx. rewrite upd_get. destruct (x =? k); [assumption|now apply H]. Qed.
Lemma lattice_table eleIdx : on_lattice Nsite N eleIdx -> in_table eleIdx.
Proof. intros H k Hk. now apply orbital_range. Qed.
Lemma lattice_site k r : 0 <= k < N -> 0 <= r < Nsite -> 0 <= r + k / Ne * Nsite < 2 * Nsite.
Proof. intros Hk Hr. destruct (label_spin k Hk) as [-> | ->]; lia. Qed.
Lemma PM_skew eleIdx q : skew_table Nsite Sl q -> in_table eleIdx -> skewsym (PM q eleIdx) L.
Proof.
  intros Hs Hl. apply skew_spec. intros i j Hi Hj. unfold pair_matrix. apply Hs; now apply Hl.
Qed.
Lemma in_table_upd eleIdx k r : in_table eleIdx -> 0 <= r + k / Ne * Nsite < 2 * Nsite -> in_table (upd eleIdx k r).
Proof. intros H Hr x Hx. unfold orbital. rewrite upd_get. destruct (Z.eqb_spec x k) as [->|]; [assumption|now apply H]. Qed.

(** moving electron a replaces row and column a *)
Lemma PM_move eleIdx q a r i j : skew_table Nsite Sl q -> in_table eleIdx -> 0 <= r + a / Ne * Nsite < 2 * Nsite -> 0 <= a < N -> 0 <= i < N -> 0 <= j < N ->
  PM q (upd eleIdx a r) i j = setrow (PM q eleIdx) a (PM q (upd eleIdx a r) a) i j.
Proof.
  intros Hs Hl Hr Ha Hi Hj.
  pose proof (PM_skew (upd eleIdx a r) q Hs (in_table_upd _ a r Hl Hr)) as Hsk. rewrite skew_spec in Hsk.
  unfold setrow. destruct (Z.eqb_spec i a) as [->|Hia], (Z.eqb_spec j a) as [->|Hja].
  - apply C_self_opp. now apply Hsk.
  - reflexivity.
  - now apply Hsk.
  - unfold pair_matrix, orbital. rewrite !upd_other by congruence. reflexivity.
Qed.
Lemma PM_diag eleIdx q i : skew_table Nsite Sl q -> in_table eleIdx -> 0 <= i < N -> PM q eleIdx i i = RtoC 0.
Proof. intros Hs Hl Hi. apply C_self_opp. pose proof (PM_skew eleIdx q Hs Hl) as H. rewrite skew_spec in H. now apply H. Qed.

(** *** one electron *)
Lemma ratio_one eleIdx InvM PfM pfN m s qpStart qpEnd q : electron Ne m s -> 0 <= q < qpEnd - qpStart ->
  calculate_new_pfm Nsite Ne N Sl m s eleIdx qpStart qpEnd InvM PfM pfN q =
  Cmult (Copp (csum L (fun j => Cmult (stored N InvM q (m + s * Ne) j) (PM (q + qpStart) eleIdx (m + s * Ne) j)))) (PfM q).
Proof.
  intros He Hq. destruct (spin_of_label m s He) as (Hs & Hr). unfold calculate_new_pfm.
  rewrite loop_set by lia. destruct (Z.leb_spec 0 q), (Z.ltb_spec q (qpEnd - qpStart)); try lia. cbn [andb].
  rewrite !loop_csum by lia. do 2 f_equal. rewrite (zrange_app 0 Ne N), csum_app by lia.
  unfold czero. rewrite Cplus_0_l. f_equal; apply csum_ext; intros j Hj; apply zrange_in in Hj; unfold stored, pair_matrix, orbital, Nsite2; rewrite Hs.
  - rewrite (Z.div_small j) by lia. do 3 f_equal. lia.
  - replace (j / Ne) with 1; [do 3 f_equal; lia|]. apply Z.div_unique with (r := j - Ne); lia.
Qed.
Lemma calc_outside eleIdx InvM PfM pfN m s qpStart qpEnd q : ~ 0 <= q < qpEnd - qpStart -> 0 <= qpEnd - qpStart ->
  calculate_new_pfm Nsite Ne N Sl m s eleIdx qpStart qpEnd InvM PfM pfN q = pfN q.
Proof.
  intros Hq Hle. unfold calculate_new_pfm. rewrite loop_set by lia. destruct (Z.leb_spec 0 q), (Z.ltb_spec q (qpEnd - qpStart)); try lia; reflexivity.
Qed.

Lemma vec_add (d : Z -> C) c i : 0 <= i < N -> loop 0 N (fun i v => cadd v i (d i)) c i = Cplus (c i) (d i).
Proof.
  intros Hi. rewrite (loop_cadditive 0 N _ (fun k => if true && (i =? k) then d k else RtoC 0)); [|lia|].
  - rewrite csum_pick; [reflexivity|apply zrange_NoDup|apply zrange_in; lia].
  - intros k c' Hk. now rewrite cadd_at.
Qed.
Lemma one_child eleIdx InvM PfM m s qpStart q : electron Ne m s -> skewsym (stored N InvM q) L ->
  let a := m + s * Ne in let X := stored N InvM q in let v := PM (q + qpStart) eleIdx a in
  let st := update_mall_child Nsite Ne N Sl m s eleIdx qpStart q InvM PfM in
  (forall q' i j, 0 <= i < N -> 0 <= j < N -> stored N (fst st) q' i j = if q' =? q then inv1 L X a v i j else stored N InvM q' i j) /\
  (forall q', snd st q' = if q' =? q then Cmult (PfM q) (Copp (pvec L X v a)) else PfM q').
Proof.
  intros He Hsk a X v st. destruct (spin_of_label m s He) as (Hs & Hr). fold a in Hs, Hr. rewrite skew_spec in Hsk. fold X in Hsk.
  unfold update_mall_child in st. cbv zeta in st. fold a in st.
  set (vec1 := loop 0 N (fun msj vec1 => loop 0 N (fun msi vec1 => cadd vec1 msi (Cmult (Copp (InvM (q * N * N + msj * N + msi))) (Sl ((q + qpStart) * Nsite2 Nsite * Nsite2 Nsite + (eleIdx a + s * Nsite) * Nsite2 Nsite + (eleIdx msj + msj / Ne * Nsite))))) vec1) (fun _ => czero)) in st.
  assert (E1 : forall i, 0 <= i < N -> vec1 i = pvec L X v i).
  { intros i Hi. unfold vec1. rewrite (loop_cadditive 0 N _ (fun j => Cmult (X i j) (v j))); [cbv beta; unfold czero; rewrite Cplus_0_l; reflexivity|lia|].
    intros j c Hj. cbv zeta. rewrite (vec_add (fun i => Cmult (Copp (InvM (q * N * N + j * N + i))) _)) by assumption. f_equal.
    change (InvM (q * N * N + j * N + i)) with (X j i). rewrite (Hsk i j) by assumption.
    match goal with |- context [Sl ?z] => replace (Sl z) with (v j) end; [ring|]. unfold v, pair_matrix, orbital, Nsite2. rewrite Hs. reflexivity. }
  clearbody vec1.
  set (vec2 := loop 0 N (fun msi vec2 => upd vec2 msi (Cmult (InvM (q * N * N + a * N + msi)) (Copp (Cinv (vec1 a))))) (fun _ => czero)) in st.
  assert (E2 : forall i, 0 <= i < N -> vec2 i = Cmult (X a i) (Copp (Cinv (pvec L X v a)))).
  { intros i Hi. unfold vec2. rewrite (loop_set 0 N (fun i => Cmult (InvM (q * N * N + a * N + i)) (Copp (Cinv (vec1 a))))) by lia.
    destruct (Z.leb_spec 0 i), (Z.ltb_spec i N); try lia. cbn [andb]. rewrite E1 by assumption. reflexivity. }
  clearbody vec2. split.
  - intros q' i j Hi Hj. unfold st, stored at 1. cbn [fst]. change (q' * N * N + i * N + j) with (pos N q' i j).
    rewrite row_add by assumption.
    rewrite (loop_cadditive 0 N _ (fun k => if (q' =? q) && (i =? k) then Cplus (Cminus (Cmult (vec1 k) (vec2 j)) (Cmult (vec1 j) (vec2 k))) (if j =? a then Copp (vec2 k) else RtoC 0) else RtoC 0)).
    + rewrite csum_pick; [|apply zrange_NoDup|apply zrange_in; lia].
      destruct (Z.eqb_spec q' q) as [->|]; cbn [andb].
      * unfold inv1. rewrite !E1, !E2 by assumption. fold (stored N InvM q i j). change (InvM (pos N q i j)) with (X i j). unfold delta.
        destruct (Z.eqb_spec j a), (Z.eqb_spec i a); ring.
      * change (InvM (pos N q' i j)) with (stored N InvM q' i j). ring.
    + lia.
    + intros k c Hk. cbv zeta. rewrite one_add, row_add by assumption. destruct (q' =? q), (i =? k), (j =? a); cbn [andb]; ring.
  - intros q'. unfold st. cbn [snd]. rewrite upd_get, E1 by assumption. reflexivity.
Qed.

(** the loop over projections, each working on its own slice *)
Lemma is_inverse_ext M X Y : (forall i j, 0 <= i < N -> 0 <= j < N -> X i j = Y i j) -> is_inverse N X M -> is_inverse N Y M.
Proof.
  intros H (H1 & H2 & H3). split; [|split]; intros i j Hi Hj.
  - rewrite <- H1 by assumption. apply csum_ext. intros k Hk. apply zrange_in in Hk. now rewrite H.
  - rewrite <- H2 by assumption. apply csum_ext. intros k Hk. apply zrange_in in Hk. now rewrite H.
  - rewrite <- !H by assumption. now apply H3.
Qed.
Lemma slices (child : Z -> (Z -> C) * (Z -> C) -> (Z -> C) * (Z -> C)) eleIdx ele' qpStart qpEnd InvM PfM :
  current Nsite Ne Sl qpStart qpEnd eleIdx InvM PfM ->
  (forall e I P, 0 <= e < qpEnd - qpStart -> is_inverse N (stored N I e) (PM (e + qpStart) eleIdx) -> P e = pf (PM (e + qpStart) eleIdx) L ->
    let st := child e (I, P) in
    snd st e = pf (PM (e + qpStart) ele') L /\ is_inverse N (stored N (fst st) e) (PM (e + qpStart) ele') /\
    forall q, q <> e -> snd st q = P q /\ forall i j, 0 <= i < N -> 0 <= j < N -> stored N (fst st) q i j = stored N I q i j) ->
  let st := loop 0 (qpEnd - qpStart) child (InvM, PfM) in
  current Nsite Ne Sl qpStart qpEnd ele' (fst st) (snd st).
Proof.
  intros Hcur Hch. cbv zeta. intros q0 Hq0.
  set (I0 := fun e (st : (Z -> C) * (Z -> C)) => forall q, 0 <= q < qpEnd - qpStart ->
    if q <? e then snd st q = pf (PM (q + qpStart) ele') L /\ is_inverse N (stored N (fst st) q) (PM (q + qpStart) ele')
    else snd st q = pf (PM (q + qpStart) eleIdx) L /\ is_inverse N (stored N (fst st) q) (PM (q + qpStart) eleIdx)).
  assert (G : I0 (qpEnd - qpStart) (loop 0 (qpEnd - qpStart) child (InvM, PfM))).
  2:{ specialize (G q0 Hq0). cbv beta in G. destruct (Z.ltb_spec q0 (qpEnd - qpStart)); [exact G|lia]. }
  apply (loop_inv I0); [lia| |]; clear q0 Hq0.
  - intros q Hq. destruct (Z.ltb_spec q 0); [lia|]. exact (Hcur q Hq).
  - intros e (I, P) He IH q Hq.
    pose proof (IH e He) as IHe. cbv beta in IHe. destruct (Z.ltb_spec e e); [lia|]. destruct IHe as (Pe & Ie). cbn [fst snd] in Pe, Ie.
    destruct (Hch e I P He Ie Pe) as (K1 & K2 & K3).
    destruct (Z.eq_dec q e) as [->|Hne].
    + destruct (Z.ltb_spec e (e + 1)); [|lia]. split; assumption.
    + specialize (IH q Hq). cbv beta in IH. cbn [fst snd] in IH. destruct (K3 q Hne) as (KP & KI).
      assert (Sw : forall M, is_inverse N (stored N I q) M -> is_inverse N (stored N (fst (child e (I, P))) q) M).
      { intros M HM. apply (is_inverse_ext M (stored N I q)); [|assumption]. intros. symmetry. now apply KI. }
      destruct (Z.ltb_spec q e), (Z.ltb_spec q (e + 1)); try lia; rewrite KP; destruct IH; split; auto.
Qed.
Lemma update_one_table eleIdx InvM PfM m s r qpStart qpEnd :
  (forall q, 0 <= q < qpEnd - qpStart -> skew_table Nsite Sl (q + qpStart)) ->
  electron Ne m s -> 0 <= r + s * Nsite < 2 * Nsite -> in_table eleIdx ->
  current Nsite Ne Sl qpStart qpEnd eleIdx InvM PfM ->
  regular Nsite Ne Sl qpStart qpEnd (upd eleIdx (m + s * Ne) r) ->
  let st := update_mall Nsite Ne N Sl m s (upd eleIdx (m + s * Ne) r) qpStart qpEnd (InvM, PfM) in
  current Nsite Ne Sl qpStart qpEnd (upd eleIdx (m + s * Ne) r) (fst st) (snd st).
Proof.
  intros Hsl He Hr Hlat Hcur Hreg. destruct (spin_of_label m s He) as (Hs & Ha). assert (Hr' : 0 <= r + (m + s * Ne) / Ne * Nsite < 2 * Nsite) by (rewrite Hs; exact Hr). set (a := m + s * Ne) in *. set (ele' := upd eleIdx a r) in *.
  unfold update_mall. apply (slices _ eleIdx); [assumption|].
  intros e I P He' HI HP. cbn [fst snd].
  destruct (is_inverse_elim _ _ _ HI) as (LiI & SkI).
  destruct (one_child ele' I P m s qpStart e He SkI) as (RI & RP). fold a in RI, RP.
  set (st := update_mall_child _ _ _ _ _ _ _ _ _ _ _) in *. cbv zeta.
  set (v := PM (e + qpStart) ele' a) in *. set (X := stored N I e) in *.
  assert (Esk : skewsym (PM (e + qpStart) eleIdx) L) by (apply PM_skew; auto).
  assert (Esk' : skewsym (PM (e + qpStart) ele') L) by (apply PM_skew; [auto|now apply in_table_upd]).
  assert (Hva : v a = RtoC 0) by (apply PM_diag; [auto|now apply in_table_upd|assumption]).
  assert (Epf : pf (PM (e + qpStart) ele') L = Cmult (Copp (pvec L X v a)) (P e)).
  { rewrite (pf_ext _ (setrow (PM (e + qpStart) eleIdx) a v) (length L)); [|apply le_n|].
    - rewrite (pf1 L (PM (e + qpStart) eleIdx) X a v); [now rewrite HP|apply zrange_NoDup|assumption..|now apply zrange_in].
    - intros i j Hi Hj. apply zrange_in in Hi, Hj. apply PM_move; auto. }
  assert (Hp : pvec L X v a <> RtoC 0). { intros E. apply (Hreg e He'). rewrite Epf, E. ring. }
  split; [|split].
  - rewrite RP, Z.eqb_refl, Epf. ring.
  - apply is_inverse_intro; [|assumption|].
    + apply skew_spec. intros i j Hi Hj. rewrite !RI, Z.eqb_refl by assumption.
      pose proof (inv1_skew L X a v SkI) as K. rewrite skew_spec in K. now apply K.
    + apply left_inverse_spec. intros i k Hi Hk.
      rewrite (csum_ext L _ (fun j => Cmult (inv1 L X a v i j) (setrow (PM (e + qpStart) eleIdx) a v j k))).
      * apply (inv1_row L (PM (e + qpStart) eleIdx) X a v); try assumption; try apply zrange_NoDup; now apply zrange_in.
      * intros j Hj. apply zrange_in in Hj. rewrite RI, Z.eqb_refl by assumption. f_equal. apply PM_move; auto.
  - intros q Hne. assert (Hqe : (q =? e) = false) by now apply Z.eqb_neq. split; [now rewrite RP, Hqe|]. intros i j Hi Hj. now rewrite RI, Hqe.
Qed.
Lemma update_one eleIdx InvM PfM m s r qpStart qpEnd :
  (forall q, 0 <= q < qpEnd - qpStart -> skew_table Nsite Sl (q + qpStart)) ->
  electron Ne m s -> 0 <= r < Nsite -> on_lattice Nsite N eleIdx ->
  current Nsite Ne Sl qpStart qpEnd eleIdx InvM PfM ->
  regular Nsite Ne Sl qpStart qpEnd (upd eleIdx (m + s * Ne) r) ->
  let st := update_mall Nsite Ne N Sl m s (upd eleIdx (m + s * Ne) r) qpStart qpEnd (InvM, PfM) in
  current Nsite Ne Sl qpStart qpEnd (upd eleIdx (m + s * Ne) r) (fst st) (snd st).
Proof.
  intros Hsl He Hr Hlat. apply update_one_table; [assumption..| |now apply lattice_table]. destruct (spin_of_label m s He) as (Hs & Ha). pose proof (lattice_site _ r Ha Hr) as K. rewrite Hs in K. exact K.
Qed.
Lemma calc_one_table eleIdx InvM PfM pfN m s r qpStart qpEnd :
  (forall q, 0 <= q < qpEnd - qpStart -> skew_table Nsite Sl (q + qpStart)) ->
  electron Ne m s -> 0 <= r + s * Nsite < 2 * Nsite -> in_table eleIdx ->
  current Nsite Ne Sl qpStart qpEnd eleIdx InvM PfM ->
  forall q, 0 <= q < qpEnd - qpStart ->
    calculate_new_pfm Nsite Ne N Sl m s (upd eleIdx (m + s * Ne) r) qpStart qpEnd InvM PfM pfN q = pf (PM (q + qpStart) (upd eleIdx (m + s * Ne) r)) L.
Proof.
  intros Hsl He Hr Hlat Hcur q Hq. destruct (spin_of_label m s He) as (Hs & Ha). assert (Hr' : 0 <= r + (m + s * Ne) / Ne * Nsite < 2 * Nsite) by (rewrite Hs; exact Hr). rewrite ratio_one by assumption.
  set (a := m + s * Ne) in *. set (ele' := upd eleIdx a r) in *.
  destruct (Hcur q Hq) as (HP & HI). destruct (is_inverse_elim _ _ _ HI) as (Hli & Hskx).
  set (X := stored N InvM q) in *. set (v := PM (q + qpStart) ele' a) in *.
  rewrite (pf_ext (PM (q + qpStart) ele') (setrow (PM (q + qpStart) eleIdx) a v) (length L)); [|apply le_n|].
  - rewrite (pf1 L (PM (q + qpStart) eleIdx) X a v); [now rewrite HP|apply zrange_NoDup| |assumption|assumption|now apply zrange_in]. apply PM_skew; auto.
  - intros i j Hi Hj. apply zrange_in in Hi, Hj. apply PM_move; auto.
Qed.
Lemma calc_one eleIdx InvM PfM pfN m s r qpStart qpEnd :
  (forall q, 0 <= q < qpEnd - qpStart -> skew_table Nsite Sl (q + qpStart)) ->
  electron Ne m s -> 0 <= r < Nsite -> on_lattice Nsite N eleIdx ->
  current Nsite Ne Sl qpStart qpEnd eleIdx InvM PfM ->
  forall q, 0 <= q < qpEnd - qpStart ->
    calculate_new_pfm Nsite Ne N Sl m s (upd eleIdx (m + s * Ne) r) qpStart qpEnd InvM PfM pfN q = pf (PM (q + qpStart) (upd eleIdx (m + s * Ne) r)) L.
Proof.
  intros Hsl He Hr Hlat. apply calc_one_table; [assumption..| |now apply lattice_table]. destruct (spin_of_label m s He) as (Hs & Ha). pose proof (lattice_site _ r Ha Hr) as K. rewrite Hs in K. exact K.
Qed.
End Updates.
