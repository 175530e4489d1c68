(** Proofs about the parameter renormalisation. *)
From Coq Require Import ZArith List Bool Lia Reals Lra.
From Coquelicot Require Import Complex.
From Verif Require Import Base.ZLoop Base.RSum Proj.Model Proj.Spec Para.Model Para.Spec.
Import ListNotations.
Local Open Scope Z_scope.

(** ** sums of counters *)
Lemma pair_sum (x : Z -> Z) N : 0 <= N ->
  2 * zsum (zrange 0 N) (fun i => zsum (zrange (i + 1) N) (fun j => x i * x j)) =
  zsum (zrange 0 N) x * zsum (zrange 0 N) x - zsum (zrange 0 N) (fun i => x i * x i).
Proof.
  intros H. revert N H. apply natlike_ind.
  - reflexivity.
  - intros N HN IH. unfold Z.succ. rewrite !zrange_snoc by lia. rewrite !zsum_app. cbn [zsum].
    rewrite (zrange_nil (N + 1) (N + 1)) by lia. cbn [zsum].
    rewrite (zsum_ext (zrange 0 N) (fun i => zsum (zrange (i + 1) (N + 1)) (fun j => x i * x j))
                      (fun i => zsum (zrange (i + 1) N) (fun j => x i * x j) + x N * x i)).
    + rewrite zsum_add, zsum_mul. nia.
    + intros i Hi. apply zrange_in in Hi. rewrite zrange_snoc by lia. rewrite zsum_app. cbn [zsum]. nia.
Qed.

Lemma zsum_cells (N K : Z) (idx v : Z -> Z) : (forall r, 0 <= r < N -> 0 <= idx r < K) ->
  zsum (zrange 0 K) (fun k => zsum (zrange 0 N) (fun r => if idx r =? k then v r else 0)) = zsum (zrange 0 N) v.
Proof.
  intros H. rewrite zsum_swap. apply zsum_ext. intros r Hr. apply zrange_in in Hr.
  rewrite (zsum_ext _ _ (fun k => if k =? idx r then v r else 0)).
  - rewrite zsum_delta_range. specialize (H r Hr). destruct (0 <=? idx r) eqn:E1, (idx r <? K) eqn:E2; cbn; lia.
  - intros k _. rewrite Z.eqb_sym. reflexivity.
Qed.

Lemma hd_gen (l : list Z) (f : Z -> Z) : (forall r, In r l -> f r = 0 \/ f r = 1 \/ f r = 2) ->
  count l (fun r => f r =? 0) = Z.of_nat (length l) - zsum l f + count l (fun r => f r =? 2) /\
  zsum l (fun r => (f r - 1) * (f r - 1)) = count l (fun r => f r =? 0) + count l (fun r => f r =? 2).
Proof.
  unfold count. induction l as [|x l IH]; intros H; cbn [zsum length]; [split; reflexivity|].
  destruct (IH (fun r Hr => H r (or_intror Hr))) as (A & B).
  destruct (H x (or_introl eq_refl)) as [E|[E|E]]; rewrite E; cbn [Z.eqb Pos.eqb]; nia.
Qed.

Section Counts.
Variables (T : tables) (e : Z -> Z).
Hypotheses (wf : wf_tables T) (Ho : occ01 (Nsite T) e).
Notation N := (Nsite T).
Definition D : Z := count (zrange 0 N) (doublon T e).
Definition H : Z := count (zrange 0 N) (holon T e).

Lemma occ_cases r : 0 <= r < N -> occ T e r = 0 \/ occ T e r = 1 \/ occ T e r = 2.
Proof. intros Hr. unfold occ. destruct (Ho r), (Ho (r + N)); lia. Qed.
Lemma occ_total : zsum (zrange 0 N) (occ T e) = electrons N e.
Proof.
  pose proof (wf_site T wf). unfold electrons, occ. rewrite zsum_add.
  rewrite (zsum_range_app 0 N (2 * N)) by lia. f_equal.
  replace (zrange N (2 * N)) with (zrange (0 + N) (N + N)) by (f_equal; lia). now rewrite zrange_shift, zsum_map.
Qed.
Lemma count_hd : H = N - electrons N e + D /\
  zsum (zrange 0 N) (fun r => (occ T e r - 1) * (occ T e r - 1)) = H + D.
Proof.
  pose proof (wf_site T wf). unfold H, D, holon, doublon.
  destruct (hd_gen (zrange 0 N) (occ T e)) as (A & B); [intros r Hr; apply zrange_in in Hr; now apply occ_cases|].
  rewrite zrange_length, Z2Nat.id, occ_total in A by lia. unfold count in *. split; lia.
Qed.
Lemma sum_gutz : 0 < NGutzwillerIdx T -> zsum (zrange 0 (NGutzwillerIdx T)) (spec_gutz T e) = D.
Proof.
  intros Hg. unfold spec_gutz, D, count.
  rewrite <- (zsum_cells N (NGutzwillerIdx T) (GutzwillerIdx T) (fun r => if doublon T e r then 1 else 0)) by (apply (wf_g T wf Hg)).
  apply zsum_ext. intros k _. apply zsum_ext. intros r _. destruct (_ =? k); reflexivity.
Qed.
Lemma sum_jast : 0 < NJastrowIdx T ->
  2 * zsum (zrange 0 (NJastrowIdx T)) (spec_jast T e) = (electrons N e - N) * (electrons N e - N) - (H + D).
Proof.
  intros Hj. pose proof (wf_site T wf) as HN. unfold spec_jast. rewrite zsum_swap.
  rewrite (zsum_ext _ _ (fun ri => zsum (zrange (ri + 1) N) (fun rj => (occ T e ri - 1) * (occ T e rj - 1)))).
  - rewrite pair_sum by assumption. rewrite (proj2 count_hd). rewrite zsum_sub, occ_total, zsum_const, zrange_length.
    rewrite Z2Nat.id by lia. nia.
  - intros ri Hri. apply zrange_in in Hri. rewrite zsum_swap. apply zsum_ext. intros rj Hrj. apply zrange_in in Hrj.
    rewrite (zsum_ext _ _ (fun k => if k =? JastrowIdx T ri rj then (occ T e ri - 1) * (occ T e rj - 1) else 0)) by (intros; now rewrite Z.eqb_sym).
    rewrite zsum_delta_range. pose proof (wf_j T wf Hj ri rj ltac:(lia) ltac:(lia) ltac:(lia)).
    destruct (0 <=? JastrowIdx T ri rj) eqn:E1, (JastrowIdx T ri rj <? NJastrowIdx T) eqn:E2; cbn; lia.
Qed.
Lemma sum_dh2 xn xi : 0 <= xi <= 1 ->
  spec_dh2 T e xn xi 0 + spec_dh2 T e xn xi 1 + spec_dh2 T e xn xi 2 = if xi =? 0 then H else D.
Proof.
  intros Hx. unfold spec_dh2, H, D, count. rewrite <- !zsum_add.
  transitivity (zsum (zrange 0 N) (fun r => if (if xi =? 0 then holon T e else doublon T e) r then 1 else 0)); [|destruct (xi =? 0); reflexivity].
  apply zsum_ext. intros r _. set (b := (if xi =? 0 then holon T e else doublon T e) r).
  assert (P : 0 <= partners2 T e xn xi r <= 2).
  { unfold partners2, count. cbn [zsum]. destruct (xi =? 0), ((_ : Z -> bool) (DoublonHolon2siteIdx T xn (2 * r + 0))), ((_ : Z -> bool) (DoublonHolon2siteIdx T xn (2 * r + 1))); lia. }
  destruct b; cbn [andb]; [|reflexivity].
  destruct (Z.eqb_spec (partners2 T e xn xi r) 0), (Z.eqb_spec (partners2 T e xn xi r) 1), (Z.eqb_spec (partners2 T e xn xi r) 2); lia.
Qed.
Lemma sum_dh4 xn xi : 0 <= xi <= 1 ->
  spec_dh4 T e xn xi 0 + spec_dh4 T e xn xi 1 + spec_dh4 T e xn xi 2 + spec_dh4 T e xn xi 3 + spec_dh4 T e xn xi 4 =
  if xi =? 0 then H else D.
Proof.
  intros Hx. unfold spec_dh4, H, D, count. rewrite <- !zsum_add.
  transitivity (zsum (zrange 0 N) (fun r => if (if xi =? 0 then holon T e else doublon T e) r then 1 else 0)); [|destruct (xi =? 0); reflexivity].
  apply zsum_ext. intros r _. set (b := (if xi =? 0 then holon T e else doublon T e) r).
  assert (P : 0 <= partners4 T e xn xi r <= 4).
  { unfold partners4, count. cbn [zsum].
    destruct ((if xi =? 0 then _ else _) (DoublonHolon4siteIdx T xn (4 * r + 0))), ((if xi =? 0 then _ else _) (DoublonHolon4siteIdx T xn (4 * r + 1))),
      ((if xi =? 0 then _ else _) (DoublonHolon4siteIdx T xn (4 * r + 2))), ((if xi =? 0 then _ else _) (DoublonHolon4siteIdx T xn (4 * r + 3))); lia. }
  destruct b; cbn [andb]; [|reflexivity].
  destruct (Z.eqb_spec (partners4 T e xn xi r) 0), (Z.eqb_spec (partners4 T e xn xi r) 1), (Z.eqb_spec (partners4 T e xn xi r) 2),
    (Z.eqb_spec (partners4 T e xn xi r) 3), (Z.eqb_spec (partners4 T e xn xi r) 4); lia.
Qed.
End Counts.

(** ** the logarithm of the correlation factor *)
Lemma loop_rsum a b (f : Z -> R) s : loop a b (fun i z => (z + f i)%R) s = (s + rsum (zrange a b) f)%R.
Proof.
  unfold loop. generalize (zrange a b). intros l. revert s. induction l as [|x l IH]; intros s; cbn [fold_left rsum]; [ring|].
  rewrite IH. ring.
Qed.
Lemma log_sum T p c : log_proj_val T p c = rsum (zrange 0 (NProj T)) (fun j => (fst (p j) * IZR (c j))%R).
Proof. unfold log_proj_val. rewrite (loop_rsum 0 (NProj T) (fun j => (fst (p j) * IZR (c j))%R)). ring. Qed.
Lemma log_upd T p c k v : 0 <= k < NProj T ->
  log_proj_val T (upd p k v) c = (log_proj_val T p c + (fst v - fst (p k)) * IZR (c k))%R.
Proof.
  intros Hk. rewrite !log_sum.
  rewrite (rsum_ext _ _ (fun j => (fst (p j) * IZR (c j) + (if Z.eqb j k then (fst v - fst (p k)) * IZR (c k) else 0))%R)).
  - rewrite rsum_add, (rsum_delta _ k); [reflexivity|apply zrange_NoDup|now apply zrange_in].
  - intros j _. rewrite upd_get. destruct (Z.eqb_spec j k) as [->|]; ring.
Qed.
Lemma log_sub T p c k s : 0 <= k < NProj T ->
  log_proj_val T (sub_at p k s) c = (log_proj_val T p c - s * IZR (c k))%R.
Proof. intros Hk. unfold sub_at. rewrite log_upd by assumption. cbn. ring. Qed.
(** adding one real to the factors of [0,n) *)
Lemma log_add_range T p c n g : 0 <= n <= NProj T ->
  log_proj_val T (loop 0 n (fun i p => upd p i (Cplus (p i) (RtoC g))) p) c =
  (log_proj_val T p c + g * IZR (zsum (zrange 0 n) c))%R.
Proof.
  intros Hn. pattern n, (loop 0 n (fun i p => upd p i (Cplus (p i) (RtoC g))) p).
  apply loop_inv; [lia|rewrite zrange_nil by lia; cbn; ring|].
  intros i q Hi IH. rewrite log_upd by lia. rewrite IH, zrange_snoc, zsum_app, plus_IZR by lia. cbn [zsum].
  rewrite plus_IZR. cbn. ring.
Qed.
Lemma log_sub_range T p c n g : 0 <= n <= NProj T ->
  log_proj_val T (loop 0 n (fun i p => sub_at p i g) p) c = (log_proj_val T p c - g * IZR (zsum (zrange 0 n) c))%R.
Proof.
  intros Hn. pattern n, (loop 0 n (fun i p => sub_at p i g) p).
  apply loop_inv; [lia|rewrite zrange_nil by lia; cbn; ring|].
  intros i q Hi IH. rewrite log_sub by lia. rewrite IH, zrange_snoc, zsum_app, plus_IZR by lia. cbn [zsum].
  rewrite plus_IZR. cbn. ring.
Qed.

(** what is known of a counter vector *)
Record counted (T : tables) (e c : Z -> Z) : Prop := {
  k_g : 0 < NGutzwillerIdx T -> zsum (zrange 0 (NGutzwillerIdx T)) c = D T e;
  k_gj : 0 < NGutzwillerIdx T -> 0 < NJastrowIdx T ->
    2 * zsum (zrange 0 (NGutzwillerIdx T + NJastrowIdx T)) c =
    (electrons (Nsite T) e - Nsite T) * (electrons (Nsite T) e - Nsite T) + electrons (Nsite T) e - Nsite T;
  k_2 : forall xn, 0 <= xn < 2 * NDoublonHolon2siteIdx T ->
    let n0 := NGutzwillerIdx T + NJastrowIdx T + xn in
    c n0 + c (n0 + 2 * NDoublonHolon2siteIdx T) + c (n0 + 4 * NDoublonHolon2siteIdx T) =
    if xn <? NDoublonHolon2siteIdx T then H T e else D T e;
  k_4 : forall xn, 0 <= xn < 2 * NDoublonHolon4siteIdx T ->
    let n0 := NGutzwillerIdx T + NJastrowIdx T + 6 * NDoublonHolon2siteIdx T + xn in
    let s := NDoublonHolon4siteIdx T in
    c n0 + c (n0 + 2 * s) + c (n0 + 4 * s) + c (n0 + 6 * s) + c (n0 + 8 * s) = if xn <? s then H T e else D T e;
  k_hd : H T e = Nsite T - electrons (Nsite T) e + D T e
}.
Lemma counted_ok T e c : wf_tables T -> occ01 (Nsite T) e -> is_proj_cnt T e c -> counted T e c.
Proof.
  intros wf Ho K. pose proof (wf_nj T wf). pose proof (wf_ng T wf).
  assert (G : 0 < NGutzwillerIdx T -> zsum (zrange 0 (NGutzwillerIdx T)) c = D T e).
  { intros Hg. rewrite <- sum_gutz by assumption. apply zsum_ext. intros k Hk. apply zrange_in in Hk. now apply (cnt_gutz T e c K). }
  pose proof (proj1 (count_hd T e wf Ho)) as HD. constructor; try assumption.
  - intros Hg Hj. rewrite (zsum_range_app 0 (NGutzwillerIdx T)) by lia. rewrite G by assumption.
    replace (NGutzwillerIdx T + NJastrowIdx T) with (NJastrowIdx T + NGutzwillerIdx T) by lia.
    replace (zrange (NGutzwillerIdx T)) with (zrange (0 + NGutzwillerIdx T)) by (f_equal; lia).
    rewrite zsum_range_shift. rewrite (zsum_ext _ _ (spec_jast T e)).
    + pose proof (sum_jast T e wf Ho Hj). nia.
    + intros k Hk. apply zrange_in in Hk. rewrite Z.add_comm. now apply (cnt_jast T e c K).
  - intros xn Hx n0. subst n0. set (M := NDoublonHolon2siteIdx T) in *. destruct (Z.ltb_spec xn M).
    + pose proof (sum_dh2 T e xn 0 ltac:(lia)) as S. cbn [Z.eqb] in S. rewrite <- S.
      rewrite <- !(cnt_dh2 T e c K) by (fold M; lia). fold M. repeat apply (f_equal2 Z.add); apply f_equal; lia.
    + pose proof (sum_dh2 T e (xn - M) 1 ltac:(lia)) as S. cbn [Z.eqb] in S. rewrite <- S.
      rewrite <- !(cnt_dh2 T e c K) by (fold M; lia). fold M. repeat apply (f_equal2 Z.add); apply f_equal; lia.
  - intros xn Hx n0 M. subst n0. destruct (Z.ltb_spec xn M).
    + pose proof (sum_dh4 T e xn 0 ltac:(lia)) as S. cbn [Z.eqb] in S. rewrite <- S.
      rewrite <- !(cnt_dh4 T e c K) by (fold M; lia). fold M. repeat apply (f_equal2 Z.add); apply f_equal; lia.
    + pose proof (sum_dh4 T e (xn - M) 1 ltac:(lia)) as S. cbn [Z.eqb] in S. rewrite <- S.
      rewrite <- !(cnt_dh4 T e c K) by (fold M; lia). fold M. repeat apply (f_equal2 Z.add); apply f_equal; lia.
Qed.

(** every shift of the doublon-holon factors lowers the logarithm by a*H + b*D and returns a + b *)
Definition dh_shift (T : tables) (p : Z -> C) (r : R * (Z -> C)) : Prop :=
  exists a b : R, fst r = (a + b)%R /\ forall e c, counted T e c ->
    log_proj_val T (snd r) c = (log_proj_val T p c - a * IZR (H T e) - b * IZR (D T e))%R.
Lemma dh_step T p g q s (q' : Z -> C) (b : bool) : dh_shift T p (g, q) ->
  (forall e c, counted T e c -> log_proj_val T q' c = (log_proj_val T q c - s * IZR (if b then H T e else D T e))%R) ->
  dh_shift T p ((g + s)%R, q').
Proof.
  intros (a0 & b0 & E & L) Hs. cbn [fst snd] in *. destruct b.
  - exists (a0 + s)%R, b0. cbn [fst snd]. split; [rewrite E; ring|]. intros e c K. rewrite (Hs e c K), (L e c K). ring.
  - exists a0, (b0 + s)%R. cbn [fst snd]. split; [rewrite E; ring|]. intros e c K. rewrite (Hs e c K), (L e c K). ring.
Qed.
Lemma dh_zero T p : dh_shift T p (0%R, p).
Proof. exists 0%R, 0%R. cbn. split; [ring|]. intros. ring. Qed.

Lemma shift_dh2_log T p : wf_tables T -> dh_shift T p (shift_dh2 T p).
Proof.
  intros wf. destruct wf as [_ Hg Hj H2 H4 _ _ _ _]. unfold shift_dh2.
  destruct (Z.eqb_spec (NDoublonHolon2siteIdx T) 0); [apply dh_zero|].
  apply (loop_inv (fun _ st => dh_shift T p st)); [lia|apply dh_zero|].
  intros xn (g, q) Hx IH. eapply dh_step with (b := xn <? NDoublonHolon2siteIdx T); [exact IH|].
  intros e c K. pose proof (k_2 T e c K xn ltac:(lia)) as E. cbn zeta in E.
  rewrite !log_sub by (unfold NProj; lia). rewrite <- E, !plus_IZR. ring.
Qed.
Lemma shift_dh4_log T p : wf_tables T -> dh_shift T p (shift_dh4 T p).
Proof.
  intros wf. destruct wf as [_ Hg Hj H2 H4 _ _ _ _]. unfold shift_dh4.
  destruct (Z.eqb_spec (NDoublonHolon4siteIdx T) 0); [apply dh_zero|].
  apply (loop_inv (fun _ st => dh_shift T p st)); [lia|apply dh_zero|].
  intros xn (g, q) Hx IH. eapply dh_step with (b := xn <? NDoublonHolon4siteIdx T); [exact IH|].
  intros e c K. pose proof (k_4 T e c K xn ltac:(lia)) as E. cbn zeta in E.
  rewrite !log_sub by (unfold NProj; lia). rewrite <- E, !plus_IZR. ring.
Qed.
Lemma dh_trans T p r r' : dh_shift T p r -> dh_shift T (snd r) r' -> dh_shift T p ((fst r + fst r')%R, snd r').
Proof.
  intros (a & b & E & L) (a' & b' & E' & L'). exists (a + a')%R, (b + b')%R. cbn [fst snd]. split; [rewrite E, E'; ring|].
  intros e c K. rewrite (L' e c K), (L e c K). ring.
Qed.

(** the flags computed from the optimisation flags *)
Lemma some_fixed_spec f a b : some_fixed f a b = false <-> forall i, a <= i < b -> optimised f i.
Proof.
  unfold some_fixed, optimised. split.
  - intros E i Hi. destruct (Z.eqb_spec (f (2 * i)) 1) as [|n]; [assumption|].
    assert (X : existsb (fun i => negb (f (2 * i) =? 1)) (zrange a b) = true); [|congruence].
    apply existsb_exists. exists i. split; [now apply zrange_in|]. destruct (Z.eqb_spec (f (2 * i)) 1); [contradiction|reflexivity].
  - intros E. destruct (existsb _ _) eqn:X; [|reflexivity]. apply existsb_exists in X. destruct X as (i & Hi & X).
    apply zrange_in in Hi. rewrite (E i Hi) in X. discriminate.
Qed.
Record flags_ok (T : tables) (f : Z -> Z) (F : flags) : Prop := {
  o_g : (fGJ F = 1 \/ fDH2 F = 1 \/ fDH4 F = 1) -> 0 < NGutzwillerIdx T /\ forall i, 0 <= i < NGutzwillerIdx T -> optimised f i;
  o_j : fGJ F = 1 -> forall i, NGutzwillerIdx T <= i < NGutzwillerIdx T + NJastrowIdx T -> optimised f i;
  o_2 : fDH2 F = 1 -> forall i, NGutzwillerIdx T + NJastrowIdx T <= i < NGutzwillerIdx T + NJastrowIdx T + 6 * NDoublonHolon2siteIdx T -> optimised f i;
  o_4 : fDH4 F = 1 -> forall i, NGutzwillerIdx T + NJastrowIdx T + 6 * NDoublonHolon2siteIdx T <= i < NProj T -> optimised f i
}.
Lemma flags_spec T f : wf_tables T -> flags_ok T f (set_flag_shift T f).
Proof.
  intros wf. destruct wf as [_ Hg Hj H2 H4 _ _ _ _]. unfold set_flag_shift.
  destruct (Z.eqb_spec (NGutzwillerIdx T) 0) as [|n]; [constructor; cbn; [intros [X|[X|X]]; discriminate X|intros X; discriminate X..]|].
  cbn zeta. rewrite !Z.add_0_l.
  destruct (some_fixed f 0 (NGutzwillerIdx T)) eqn:Eg; [constructor; cbn; [intros [X|[X|X]]; discriminate X|intros X; discriminate X..]|].
  pose proof (proj1 (some_fixed_spec _ _ _) Eg) as Og. clear Eg. set (f1 := if 0 <? NJastrowIdx T then _ else _).
  assert (A1 : fst f1 = NGutzwillerIdx T + NJastrowIdx T /\ (snd f1 = 1 -> forall i, NGutzwillerIdx T <= i < NGutzwillerIdx T + NJastrowIdx T -> optimised f i)).
  { unfold f1. destruct (Z.ltb_spec 0 (NJastrowIdx T)); cbn [fst snd]; [split; [reflexivity|]|split; [lia|discriminate]].
    destruct (some_fixed _ _ _) eqn:E; [discriminate|]. intros _. exact (proj1 (some_fixed_spec _ _ _) E). }
  destruct f1 as (f1, gj). cbn [fst snd] in A1. destruct A1 as (-> & A1).
  set (f2 := if 0 <? NDoublonHolon2siteIdx T then _ else _).
  assert (A2 : fst f2 = NGutzwillerIdx T + NJastrowIdx T + 6 * NDoublonHolon2siteIdx T /\ (snd f2 = 1 -> forall i,
     NGutzwillerIdx T + NJastrowIdx T <= i < NGutzwillerIdx T + NJastrowIdx T + 6 * NDoublonHolon2siteIdx T -> optimised f i)).
  { unfold f2. destruct (Z.ltb_spec 0 (NDoublonHolon2siteIdx T)); cbn [fst snd]; [split; [reflexivity|]|split; [lia|discriminate]].
    destruct (some_fixed _ _ _) eqn:E; [discriminate|]. intros _. exact (proj1 (some_fixed_spec _ _ _) E). }
  destruct f2 as (f2, d2). cbn [fst snd] in A2. destruct A2 as (-> & A2).
  set (f3 := if 0 <? NDoublonHolon4siteIdx T then _ else _).
  assert (A3 : snd f3 = 1 -> forall i, NGutzwillerIdx T + NJastrowIdx T + 6 * NDoublonHolon2siteIdx T <= i < NProj T -> optimised f i).
  { unfold f3. destruct (Z.ltb_spec 0 (NDoublonHolon4siteIdx T)); cbn [fst snd]; [|discriminate].
    destruct (some_fixed _ _ _) eqn:E; [discriminate|]. intros _ i Hi. apply (proj1 (some_fixed_spec _ _ _) E). unfold NProj in Hi. lia. }
  destruct f3 as (f3, d4). cbn [snd] in A3. constructor; cbn; auto. intros _. split; [lia|exact Og].
Qed.

Lemma sync_log T f p : wf_tables T -> forall n, exists k : R, forall e c, occ01 (Nsite T) e -> is_proj_cnt T e c ->
  electrons (Nsite T) e = n -> log_proj_val T (sync_proj T (set_flag_shift T f) p) c = (log_proj_val T p c + k)%R.
Proof.
  intros wf n. pose proof (flags_spec T f wf) as HF. set (F := set_flag_shift T f) in *. unfold sync_proj.
  pose proof wf as [_ Hg Hj H2 H4 _ _ _ _].
  set (r2 := if fDH2 F =? 1 then _ else _).
  assert (D2 : dh_shift T p r2 /\ (fDH2 F <> 1 -> fst r2 = 0%R /\ snd r2 = p)).
  { unfold r2. destruct (Z.eqb_spec (fDH2 F) 1) as [e|e]; [|split; [apply dh_zero|split; reflexivity]]. split; [|contradiction].
    pose proof (shift_dh2_log T p wf) as X. destruct (shift_dh2 T p) as (s, q). replace (0 + s)%R with s by ring. exact X. }
  destruct r2 as (g2, q2). cbn [fst snd] in D2. destruct D2 as (D2 & D2').
  set (r4 := if fDH4 F =? 1 then _ else _).
  assert (D4 : dh_shift T p r4 /\ (fDH2 F <> 1 -> fDH4 F <> 1 -> fst r4 = 0%R)).
  { unfold r4. destruct (Z.eqb_spec (fDH4 F) 1) as [e|e].
    - split; [|contradiction]. pose proof (shift_dh4_log T q2 wf) as X. destruct (shift_dh4 T q2) as (s, q).
      exact (dh_trans T p (g2, q2) (s, q) D2 X).
    - split; [exact D2|]. intros e2 _. now apply D2'. }
  destruct r4 as (g, q). cbn [fst snd] in D4. destruct D4 as ((a & b & Ea & L) & D4'). cbn [fst snd] in *.
  set (q' := loop 0 (NGutzwillerIdx T) _ q).
  assert (L1 : exists k, forall e c, counted T e c -> electrons (Nsite T) e = n -> log_proj_val T q' c = (log_proj_val T p c + k)%R).
  { exists (- a * (IZR (Nsite T) - IZR n))%R. intros e c K En. unfold q'. rewrite log_add_range by (unfold NProj; lia).
    rewrite (L e c K). pose proof (k_hd T e c K) as Eh. rewrite En in Eh. rewrite Eh, plus_IZR, minus_IZR.
    destruct (Z.eq_dec (NGutzwillerIdx T) 0) as [e0|e0].
    - (* no Gutzwiller factor: no flag is set *)
      assert (fDH2 F <> 1 /\ fDH4 F <> 1) as (N2 & N4).
      { split; intros X; [destruct (o_g T f F HF) as (Y & _)|destruct (o_g T f F HF) as (Y & _)]; auto; lia. }
      specialize (D4' N2 N4). rewrite e0, zrange_nil by lia. cbn [zsum]. rewrite D4' in Ea.
      replace b with (- a)%R by lra. ring.
    - rewrite (k_g T e c K) by lia. rewrite Ea. ring. }
  destruct L1 as (k1 & L1). destruct (Z.eqb_spec (fGJ F) 1) as [eg|eg].
  - unfold shift_gj. destruct (Z.eqb_spec (NGutzwillerIdx T) 0) as [z0|z0]; cbn [orb].
    { exists k1. intros e c Ho K En. apply (L1 e c); [now apply counted_ok|assumption]. }
    destruct (Z.eqb_spec (NJastrowIdx T) 0) as [z1|z1].
    { exists k1. intros e c Ho K En. apply (L1 e c); [now apply counted_ok|assumption]. }
    set (s := (_ / _)%R). exists (k1 - s * IZR ((n - Nsite T) * (n - Nsite T) + n - Nsite T) / 2)%R.
    intros e c Ho K En. pose proof (counted_ok T e c wf Ho K) as K'. rewrite log_sub_range by (unfold NProj; lia).
    rewrite (L1 e c K' En). pose proof (k_gj T e c K' ltac:(lia) ltac:(lia)) as Eg. rewrite En in Eg. rewrite <- Eg, mult_IZR. field.
  - exists k1. intros e c Ho K En. apply (L1 e c); [now apply counted_ok|assumption].
Qed.

(** ** which factors change *)
Lemma sub_at_get p n s j : sub_at p n s j = if j =? n then Cminus (p n) (RtoC s) else p j.
Proof. unfold sub_at. apply upd_get. Qed.
Lemma shift_dh2_get T p j : wf_tables T ->
  j < NGutzwillerIdx T + NJastrowIdx T \/ NGutzwillerIdx T + NJastrowIdx T + 6 * NDoublonHolon2siteIdx T <= j ->
  snd (shift_dh2 T p) j = p j.
Proof.
  intros wf Hj. destruct wf as [_ _ _ H2 _ _ _ _ _]. unfold shift_dh2. destruct (Z.eqb_spec (NDoublonHolon2siteIdx T) 0); [reflexivity|].
  apply (loop_inv (fun _ st => snd st j = p j)); [lia|reflexivity|].
  intros xn (g, q) Hx IH. cbn [snd] in *. rewrite !sub_at_get.
  repeat match goal with |- context [j =? ?x] => destruct (Z.eqb_spec j x); [lia|] end. exact IH.
Qed.
Lemma shift_dh4_get T p j : wf_tables T ->
  j < NGutzwillerIdx T + NJastrowIdx T + 6 * NDoublonHolon2siteIdx T \/ NProj T <= j -> snd (shift_dh4 T p) j = p j.
Proof.
  intros wf Hj. destruct wf as [_ _ _ _ H4 _ _ _ _]. unfold NProj in Hj. unfold shift_dh4. destruct (Z.eqb_spec (NDoublonHolon4siteIdx T) 0); [reflexivity|].
  apply (loop_inv (fun _ st => snd st j = p j)); [lia|reflexivity|].
  intros xn (g, q) Hx IH. cbn [snd] in *. rewrite !sub_at_get.
  repeat match goal with |- context [j =? ?x] => destruct (Z.eqb_spec j x); [lia|] end. exact IH.
Qed.
Lemma loop_upd_get {V} n (f : Z -> V -> V) (p : Z -> V) j :
  loop 0 n (fun i p => upd p i (f i (p i))) p j = if (0 <=? j) && (j <? n) then f j (p j) else p j.
Proof.
  destruct (Z.le_gt_cases n 0) as [Hn|Hn].
  { rewrite loop_nil by assumption. destruct (Z.leb_spec 0 j), (Z.ltb_spec j n); try reflexivity; lia. }
  assert (A : (fun k q => forall j, q j = if (0 <=? j) && (j <? k) then f j (p j) else p j) n (loop 0 n (fun i p => upd p i (f i (p i))) p)).
  { apply loop_inv; [lia|intros x; destruct (Z.leb_spec 0 x), (Z.ltb_spec x 0); try reflexivity; lia|].
    intros i q Hi IH x. rewrite upd_get. destruct (Z.eqb_spec x i) as [->|Hx].
    - rewrite IH. destruct (Z.leb_spec 0 i), (Z.ltb_spec i i), (Z.ltb_spec i (i + 1)); try reflexivity; lia.
    - rewrite IH. destruct (Z.leb_spec 0 x), (Z.ltb_spec x i), (Z.ltb_spec x (i + 1)); try reflexivity; lia. }
  apply A.
Qed.
Lemma shift_gj_get T p j : shift_gj T p j = p j \/
  (0 < NGutzwillerIdx T + NJastrowIdx T -> 0 <= j < NGutzwillerIdx T + NJastrowIdx T /\ snd (shift_gj T p j) = snd (p j)).
Proof.
  unfold shift_gj. destruct (_ || _); [now left|]. unfold sub_at.
  rewrite (loop_upd_get _ (fun i v => Cminus v (RtoC _)) p j).
  destruct (Z.leb_spec 0 j), (Z.ltb_spec j (NGutzwillerIdx T + NJastrowIdx T)); cbn [andb]; try (now left).
  right. intros _. split; [lia|]. cbn. ring.
Qed.

Lemma sync_fixed T f p : wf_tables T -> forall i, 0 <= i < NProj T -> ~ optimised f i ->
  sync_proj T (set_flag_shift T f) p i = p i.
Proof.
  intros wf i Hi Hf. pose proof (flags_spec T f wf) as HF. set (F := set_flag_shift T f) in *. unfold sync_proj.
  pose proof wf as [_ Hg Hj H2 H4 _ _ _ _].
  set (r2 := if fDH2 F =? 1 then _ else _).
  assert (D2 : snd r2 i = p i /\ (fDH2 F <> 1 -> fst r2 = 0%R)).
  { unfold r2. destruct (Z.eqb_spec (fDH2 F) 1) as [e|e]; [|split; reflexivity].
    split; [|contradiction]. pose proof (o_2 T f F HF e) as O2.
    pose proof (shift_dh2_get T p i wf) as X. destruct (shift_dh2 T p) as (s, q). cbn [snd] in *. apply X.
    destruct (Z.lt_ge_cases i (NGutzwillerIdx T + NJastrowIdx T)); [now left|].
    destruct (Z.le_gt_cases (NGutzwillerIdx T + NJastrowIdx T + 6 * NDoublonHolon2siteIdx T) i); [now right|].
    destruct Hf. apply O2. lia. }
  destruct r2 as (g2, q2). cbn [fst snd] in D2. destruct D2 as (E2 & Z2).
  set (r4 := if fDH4 F =? 1 then _ else _).
  assert (D4 : snd r4 i = p i /\ (fDH2 F <> 1 -> fDH4 F <> 1 -> fst r4 = 0%R)).
  { unfold r4. destruct (Z.eqb_spec (fDH4 F) 1) as [e|e]; [|split; [exact E2|intros X _; exact (Z2 X)]].
    split; [|contradiction]. pose proof (o_4 T f F HF e) as O4.
    pose proof (shift_dh4_get T q2 i wf) as X. destruct (shift_dh4 T q2) as (s, q). cbn [snd] in *. rewrite X; [exact E2|].
    destruct (Z.lt_ge_cases i (NGutzwillerIdx T + NJastrowIdx T + 6 * NDoublonHolon2siteIdx T)); [now left|].
    destruct Hf. apply O4. lia. }
  destruct r4 as (g, q). cbn [fst snd] in D4. destruct D4 as (E4 & Z4).
  set (q' := loop 0 (NGutzwillerIdx T) _ q).
  assert (E5 : q' i = p i).
  { unfold q'. rewrite (loop_upd_get _ (fun _ v => Cplus v (RtoC g)) q i).
    destruct (Z.leb_spec 0 i), (Z.ltb_spec i (NGutzwillerIdx T)); cbn [andb]; try exact E4. rewrite E4.
    assert (N : fDH2 F <> 1 /\ fDH4 F <> 1).
    { split; intros X; (destruct (o_g T f F HF) as (_ & Og); [tauto|]); apply Hf, Og; lia. }
    rewrite Z4 by apply N. destruct (p i). unfold Cplus, RtoC. cbn. f_equal; ring. }
  destruct (Z.eqb_spec (fGJ F) 1) as [e|e]; [|exact E5].
  destruct (shift_gj_get T q' i) as [X|X]; [rewrite X; exact E5|].
  destruct (o_g T f F HF (or_introl e)) as (Pg & Og). destruct (X ltac:(lia)) as (Y & _). destruct Hf.
  destruct (Z.lt_ge_cases i (NGutzwillerIdx T)); [apply Og; lia|apply (o_j T f F HF e); lia].
Qed.

(** ** rescaling *)
Lemma max_abs_spec n a : 1 <= n -> is_max_mod n a (max_abs n a).
Proof.
  intros Hn. unfold max_abs, is_max_mod. apply loop_inv; [lia| |].
  - split; [exists 0; split; [lia|reflexivity]|]. intros i Hi. replace i with 0 by lia. lra.
  - intros i x Hi ((k & Hk & Ek) & M). destruct (Rlt_dec x (Cmod (a i))) as [L|L].
    + split; [exists i; split; [lia|reflexivity]|]. intros j Hj. destruct (Z.eq_dec j i) as [->|Hji]; [lra|].
      specialize (M j ltac:(lia)). lra.
    + split; [exists k; split; [lia|exact Ek]|]. intros j Hj. destruct (Z.eq_dec j i) as [->|Hji]; [lra|].
      apply M. lia.
Qed.
Lemma max_abs_pos n a : 1 <= n -> (exists i, 0 <= i < n /\ a i <> RtoC 0) -> (0 < max_abs n a)%R.
Proof.
  intros Hn (i & Hi & Ni). destruct (max_abs_spec n a Hn) as (_ & M). specialize (M i Hi).
  apply Cmod_gt_0 in Ni. lra.
Qed.
Lemma rescale_get n amp a j : 0 <= j < n -> rescale n amp a j = Cmult (RtoC (amp / max_abs n a)) (a j).
Proof.
  intros Hj. unfold rescale. rewrite (loop_upd_get n (fun _ v => Cmult v (RtoC (amp / max_abs n a))) a j).
  destruct (Z.leb_spec 0 j), (Z.ltb_spec j n); cbn [andb]; try lia. apply Cmult_comm.
Qed.
Lemma rescale_ok n amp a : (0 < amp)%R -> 1 <= n -> (exists i, 0 <= i < n /\ a i <> RtoC 0) ->
  is_max_mod n (rescale n amp a) amp /\ rescaled n a (rescale n amp a).
Proof.
  intros Ha Hn Hz. pose proof (max_abs_pos n a Hn Hz) as Hp. pose proof (max_abs_spec n a Hn) as ((k & Hk & Ek) & M).
  assert (Hr : (0 < amp / max_abs n a)%R) by (apply Rdiv_lt_0_compat; assumption).
  assert (CM : forall j, 0 <= j < n -> Cmod (rescale n amp a j) = (amp / max_abs n a * Cmod (a j))%R).
  { intros j Hj. rewrite rescale_get by assumption. rewrite Cmod_mult, Cmod_R, Rabs_right by lra. reflexivity. }
  split; [split|].
  - exists k. split; [exact Hk|]. rewrite CM, Ek by assumption. field. lra.
  - intros j Hj. rewrite CM by assumption. specialize (M j Hj).
    apply Rle_trans with (amp / max_abs n a * max_abs n a)%R; [apply Rmult_le_compat_l; lra|]. right. field. lra.
  - exists (amp / max_abs n a)%R. split; [exact Hr|]. intros j Hj. now apply rescale_get.
Qed.
(** ratios of amplitudes *)
Lemma rescaled_ratio n a a' i j : rescaled n a a' -> 0 <= i < n -> 0 <= j < n -> a j <> RtoC 0 ->
  Cdiv (a' i) (a' j) = Cdiv (a i) (a j).
Proof.
  intros (c & Hc & E) Hi Hj Nj. rewrite !E by assumption. field. split; [exact Nj|]. intros X. apply (f_equal fst) in X. cbn in X. lra.
Qed.

(** ** normal form after the shifts *)
Lemma shift_dh2_norm T p : wf_tables T -> forall xn, 0 <= xn < 2 * NDoublonHolon2siteIdx T ->
  let n0 := NGutzwillerIdx T + NJastrowIdx T + xn in let q := snd (shift_dh2 T p) in
  (fst (q n0) + fst (q (n0 + 2 * NDoublonHolon2siteIdx T)%Z) + fst (q (n0 + 4 * NDoublonHolon2siteIdx T)%Z) = 0)%R.
Proof.
  intros wf xn Hx n0 q. subst n0 q. destruct wf as [_ _ _ H2 _ _ _ _ _]. unfold shift_dh2.
  destruct (Z.eqb_spec (NDoublonHolon2siteIdx T) 0); [lia|]. set (M := NDoublonHolon2siteIdx T) in *.
  set (o := NGutzwillerIdx T + NJastrowIdx T).
  apply (loop_inv (fun k st => forall x, 0 <= x < k -> (fst (snd st (o + x)%Z) + fst (snd st (o + x + 2 * M)%Z) + fst (snd st (o + x + 4 * M)%Z) = 0)%R)
     0 (2 * M)); [lia|intros; lia| |exact Hx].
  clear xn Hx. intros xn (g, q) Hx IH x Hx'. cbn [snd] in *. rewrite !sub_at_get.
  destruct (Z.eq_dec x xn) as [->|Nx].
  - repeat match goal with |- context [?a =? ?b] => destruct (Z.eqb_spec a b); try lia end. cbn. field.
  - repeat match goal with |- context [?a =? ?b] => destruct (Z.eqb_spec a b); try lia end. apply IH. lia.
Qed.
Lemma shift_dh4_norm T p : wf_tables T -> forall xn, 0 <= xn < 2 * NDoublonHolon4siteIdx T ->
  let n0 := NGutzwillerIdx T + NJastrowIdx T + 6 * NDoublonHolon2siteIdx T + xn in let q := snd (shift_dh4 T p) in
  let M := NDoublonHolon4siteIdx T in
  (fst (q n0) + fst (q (n0 + 2 * M)%Z) + fst (q (n0 + 4 * M)%Z) + fst (q (n0 + 6 * M)%Z) + fst (q (n0 + 8 * M)%Z) = 0)%R.
Proof.
  intros wf xn Hx n0 q M. subst n0 q. destruct wf as [_ _ _ _ H4 _ _ _ _]. unfold shift_dh4.
  destruct (Z.eqb_spec (NDoublonHolon4siteIdx T) 0); [lia|]. fold M in Hx, n |- *.
  set (o := NGutzwillerIdx T + NJastrowIdx T + 6 * NDoublonHolon2siteIdx T).
  apply (loop_inv (fun k st => forall x, 0 <= x < k -> (fst (snd st (o + x)%Z) + fst (snd st (o + x + 2 * M)%Z) + fst (snd st (o + x + 4 * M)%Z)
     + fst (snd st (o + x + 6 * M)%Z) + fst (snd st (o + x + 8 * M)%Z) = 0)%R)
     0 (2 * M)); [lia|intros; lia| |exact Hx].
  clear xn Hx. intros xn (g, q) Hx IH x Hx'. cbn [snd] in *. rewrite !sub_at_get.
  destruct (Z.eq_dec x xn) as [->|Nx].
  - repeat match goal with |- context [?a =? ?b] => destruct (Z.eqb_spec a b); try lia end. cbn. field.
  - repeat match goal with |- context [?a =? ?b] => destruct (Z.eqb_spec a b); try lia end. apply IH. lia.
Qed.
Lemma shift_gj_norm T p : wf_tables T -> 0 < NGutzwillerIdx T -> 0 < NJastrowIdx T ->
  rsum (zrange 0 (NGutzwillerIdx T + NJastrowIdx T)) (fun i => fst (shift_gj T p i)) = 0%R.
Proof.
  intros wf Hg Hj. unfold shift_gj. destruct (Z.eqb_spec (NGutzwillerIdx T) 0); [lia|]. destruct (Z.eqb_spec (NJastrowIdx T) 0); [lia|].
  cbn [orb]. set (n' := NGutzwillerIdx T + NJastrowIdx T). rewrite (loop_rsum 0 n' (fun i => fst (p i))).
  set (s := (_ / _)%R). rewrite (rsum_ext _ _ (fun i => (fst (p i) - s)%R)).
  - rewrite rsum_sub, rsum_const, zrange_length. rewrite Z.sub_0_r.
    assert (IZR n' <> 0%R) by (apply IZR_neq; lia). unfold s.
    rewrite INR_IZR_INZ, Z2Nat.id by lia. field. assumption.
  - intros i Hi. apply zrange_in in Hi. unfold sub_at. rewrite (loop_upd_get n' (fun i v => Cminus v (RtoC s)) p i).
    destruct (Z.leb_spec 0 i), (Z.ltb_spec i n'); cbn [andb]; try lia. reflexivity.
Qed.

(** ** the shape of the synchronised factors *)
Definition after2 T (F : flags) (p : Z -> C) : Z -> C := if fDH2 F =? 1 then snd (shift_dh2 T p) else p.
Definition after4 T (F : flags) (p : Z -> C) : Z -> C :=
  if fDH4 F =? 1 then snd (shift_dh4 T (after2 T F p)) else after2 T F p.
Definition gshift T (F : flags) (p : Z -> C) : R :=
  ((if (fDH2 F =? 1)%Z then fst (shift_dh2 T p) else 0) + (if (fDH4 F =? 1)%Z then fst (shift_dh4 T (after2 T F p)) else 0))%R.
Definition afterg T (F : flags) (p : Z -> C) : Z -> C :=
  loop 0 (NGutzwillerIdx T) (fun i q => upd q i (Cplus (q i) (RtoC (gshift T F p)))) (after4 T F p).
Lemma sync_shape T F p : sync_proj T F p = if fGJ F =? 1 then shift_gj T (afterg T F p) else afterg T F p.
Proof.
  unfold sync_proj, afterg, gshift, after4, after2. destruct (fDH2 F =? 1).
  - destruct (shift_dh2 T p) as (s, q). cbn [fst snd]. destruct (fDH4 F =? 1).
    + destruct (shift_dh4 T q) as (s', q'). cbn [fst snd]. replace (0 + s + s')%R with (s + s')%R by ring. reflexivity.
    + replace (0 + s)%R with (s + 0)%R by ring. reflexivity.
  - destruct (fDH4 F =? 1).
    + destruct (shift_dh4 T p) as (s', q'). cbn [fst snd]. reflexivity.
    + replace (0 + 0)%R with 0%R by ring. reflexivity.
Qed.
Lemma afterg_get T F p j : afterg T F p j =
  if (0 <=? j) && (j <? NGutzwillerIdx T) then Cplus (after4 T F p j) (RtoC (gshift T F p)) else after4 T F p j.
Proof. unfold afterg. apply (loop_upd_get _ (fun _ v => Cplus v (RtoC (gshift T F p)))). Qed.
Lemma sync_high T F p j : wf_tables T -> NGutzwillerIdx T + NJastrowIdx T <= j -> sync_proj T F p j = after4 T F p j.
Proof.
  intros wf Hj. destruct wf as [_ Hg Hj' _ _ _ _ _ _]. rewrite sync_shape.
  assert (E : afterg T F p j = after4 T F p j).
  { rewrite afterg_get. destruct (Z.leb_spec 0 j), (Z.ltb_spec j (NGutzwillerIdx T)); try reflexivity. lia. }
  destruct (fGJ F =? 1); [|exact E]. unfold shift_gj. destruct (_ || _); [exact E|]. unfold sub_at.
  rewrite (loop_upd_get _ (fun i v => Cminus v (RtoC _)) (afterg T F p) j).
  destruct (Z.leb_spec 0 j), (Z.ltb_spec j (NGutzwillerIdx T + NJastrowIdx T)); cbn [andb]; try exact E; lia.
Qed.

(** *** imaginary parts *)
Lemma shift_dh2_im T p j : snd (snd (shift_dh2 T p) j) = snd (p j).
Proof.
  unfold shift_dh2. destruct (Z.eqb_spec (NDoublonHolon2siteIdx T) 0); [reflexivity|].
  destruct (Z.le_gt_cases (2 * NDoublonHolon2siteIdx T) 0); [now rewrite loop_nil|].
  apply (loop_inv (fun _ st => snd (snd st j) = snd (p j))); [lia|reflexivity|].
  intros xn (g, q) Hx IH. cbn [snd] in *. rewrite <- IH. clear IH. rewrite !sub_at_get.
  repeat match goal with |- context [?a =? ?x] => destruct (Z.eqb_spec a x) as [->|]; try (cbn; ring) end; try (cbn; ring).
Qed.
Lemma shift_dh4_im T p j : snd (snd (shift_dh4 T p) j) = snd (p j).
Proof.
  unfold shift_dh4. destruct (Z.eqb_spec (NDoublonHolon4siteIdx T) 0); [reflexivity|].
  destruct (Z.le_gt_cases (2 * NDoublonHolon4siteIdx T) 0); [now rewrite loop_nil|].
  apply (loop_inv (fun _ st => snd (snd st j) = snd (p j))); [lia|reflexivity|].
  intros xn (g, q) Hx IH. cbn [snd] in *. rewrite <- IH. clear IH.
  assert (S : forall p n s, snd (sub_at p n s j) = snd (p j)).
  { intros p' n' s'. rewrite sub_at_get. destruct (Z.eqb_spec j n') as [->|]; [cbn; ring|reflexivity]. }
  rewrite !S. reflexivity.
Qed.
Lemma sync_im T F p j : snd (sync_proj T F p j) = snd (p j).
Proof.
  assert (E : snd (afterg T F p j) = snd (p j)).
  { rewrite afterg_get. transitivity (snd (after4 T F p j)); [destruct (_ && _); cbn; ring|].
    unfold after4, after2. destruct (fDH4 F =? 1); rewrite ?shift_dh4_im; destruct (fDH2 F =? 1); rewrite ?shift_dh2_im; reflexivity. }
  rewrite sync_shape. destruct (fGJ F =? 1); [|exact E].
  unfold shift_gj. destruct (_ || _); [exact E|]. unfold sub_at.
  rewrite (loop_upd_get _ (fun i v => Cminus v (RtoC _)) (afterg T F p) j). rewrite <- E.
  destruct (_ && _); cbn; ring.
Qed.

(** *** the flags, exactly *)
Lemma set_flag_iff T f : wf_tables T ->
  let G := 0 < NGutzwillerIdx T /\ forall i, 0 <= i < NGutzwillerIdx T -> optimised f i in
  let o2 := NGutzwillerIdx T + NJastrowIdx T in let o4 := o2 + 6 * NDoublonHolon2siteIdx T in
  let F := set_flag_shift T f in
  (fGJ F = 1 <-> G /\ 0 < NJastrowIdx T /\ forall i, NGutzwillerIdx T <= i < o2 -> optimised f i) /\
  (fDH2 F = 1 <-> G /\ 0 < NDoublonHolon2siteIdx T /\ forall i, o2 <= i < o4 -> optimised f i) /\
  (fDH4 F = 1 <-> G /\ 0 < NDoublonHolon4siteIdx T /\ forall i, o4 <= i < NProj T -> optimised f i).
Proof.
  intros wf G o2 o4 F. destruct wf as [_ Hg Hj H2 H4 _ _ _ _].
  assert (FIX : forall a b (Q : Prop), (Q <-> forall i, a <= i < b -> optimised f i) -> ((if some_fixed f a b then 0 else 1) = 1 <-> Q)).
  { intros a b Q E. pose proof (some_fixed_spec f a b) as X. destruct (some_fixed f a b).
    - split; [discriminate|]. intros q. pose proof (proj2 X (proj1 E q)). discriminate.
    - split; [|reflexivity]. intros _. exact (proj2 E (proj1 X eq_refl)). }
  unfold F, set_flag_shift. destruct (Z.eqb_spec (NGutzwillerIdx T) 0) as [z|z].
  { cbn. unfold G. repeat split; intros; try discriminate; lia. }
  cbn zeta. rewrite !Z.add_0_l. pose proof (some_fixed_spec f 0 (NGutzwillerIdx T)) as X. destruct (some_fixed f 0 (NGutzwillerIdx T)).
  { cbn. assert (~ G) by (intros (_ & g); pose proof (proj2 X g); discriminate). repeat split; intros; try discriminate; tauto. }
  assert (g : G) by (split; [lia|exact (proj1 X eq_refl)]). clear X. fold o2.
  replace (if 0 <? NJastrowIdx T then (o2, if some_fixed f (NGutzwillerIdx T) o2 then 0 else 1) else (NGutzwillerIdx T, 0))
    with (o2, if 0 <? NJastrowIdx T then if some_fixed f (NGutzwillerIdx T) o2 then 0 else 1 else 0)
    by (unfold o2; destruct (Z.ltb_spec 0 (NJastrowIdx T)); [reflexivity|f_equal; lia]).
  cbn iota beta. fold o4.
  replace (if 0 <? NDoublonHolon2siteIdx T then (o4, if some_fixed f o2 o4 then 0 else 1) else (o2, 0))
    with (o4, if 0 <? NDoublonHolon2siteIdx T then if some_fixed f o2 o4 then 0 else 1 else 0)
    by (unfold o4; destruct (Z.ltb_spec 0 (NDoublonHolon2siteIdx T)); [reflexivity|f_equal; lia]).
  cbn iota beta. set (o5 := o4 + 10 * NDoublonHolon4siteIdx T).
  replace (if 0 <? NDoublonHolon4siteIdx T then (o5, if some_fixed f o4 o5 then 0 else 1) else (o4, 0))
    with (o5, if 0 <? NDoublonHolon4siteIdx T then if some_fixed f o4 o5 then 0 else 1 else 0)
    by (unfold o5; destruct (Z.ltb_spec 0 (NDoublonHolon4siteIdx T)); [reflexivity|f_equal; lia]).
  cbn [fGJ fDH2 fDH4]. replace (NProj T) with o5 by (unfold NProj, o5, o4, o2; lia).
  split; [|split].
  - destruct (Z.ltb_spec 0 (NJastrowIdx T)); [apply FIX; tauto|]. split; [discriminate|]. intros (_ & L & _). lia.
  - destruct (Z.ltb_spec 0 (NDoublonHolon2siteIdx T)); [apply FIX; tauto|]. split; [discriminate|]. intros (_ & L & _). lia.
  - destruct (Z.ltb_spec 0 (NDoublonHolon4siteIdx T)); [apply FIX; tauto|]. split; [discriminate|]. intros (_ & L & _). lia.
Qed.

(** ** centring and idempotence *)
Lemma sync_centred T F p : wf_tables T -> centred T F (sync_proj T F p).
Proof.
  intros wf. pose proof wf as [_ Hg Hj H2 H4 _ _ _ _]. constructor.
  - intros e xn Hx n0. pose proof (shift_dh2_norm T p wf xn Hx) as N. cbn zeta in N. fold n0 in N.
    assert (E : forall j, NGutzwillerIdx T + NJastrowIdx T <= j < NGutzwillerIdx T + NJastrowIdx T + 6 * NDoublonHolon2siteIdx T ->
       sync_proj T F p j = snd (shift_dh2 T p) j).
    { intros j Hj'. rewrite sync_high by (assumption || lia). unfold after4.
      transitivity (after2 T F p j); [destruct (fDH4 F =? 1); [apply shift_dh4_get; [assumption|lia]|reflexivity]|].
      unfold after2. rewrite e. reflexivity. }
    rewrite !E by (unfold n0; lia). exact N.
  - intros e xn Hx n0 M. pose proof (shift_dh4_norm T (after2 T F p) wf xn Hx) as N. cbn zeta in N. fold n0 M in N.
    assert (E : forall j, n0 <= j -> sync_proj T F p j = snd (shift_dh4 T (after2 T F p)) j).
    { intros j Hj'. rewrite sync_high by (unfold n0 in *; assumption || lia). unfold after4. rewrite e. reflexivity. }
    rewrite !E by (unfold n0, M; lia). exact N.
  - intros e G J. rewrite sync_shape, e. cbn [Z.eqb Pos.eqb]. now apply shift_gj_norm.
Qed.

Lemma dh2_idem T q : (forall xn, 0 <= xn < 2 * NDoublonHolon2siteIdx T -> let n0 := NGutzwillerIdx T + NJastrowIdx T + xn in
    (fst (q n0) + fst (q (n0 + 2 * NDoublonHolon2siteIdx T)%Z) + fst (q (n0 + 4 * NDoublonHolon2siteIdx T)%Z) = 0)%R) ->
  fst (shift_dh2 T q) = 0%R /\ forall j, snd (shift_dh2 T q) j = q j.
Proof.
  intros Z0. unfold shift_dh2. destruct (Z.eqb_spec (NDoublonHolon2siteIdx T) 0); [split; reflexivity|].
  destruct (Z.le_gt_cases (2 * NDoublonHolon2siteIdx T) 0); [rewrite loop_nil by assumption; split; reflexivity|].
  apply (loop_inv (fun _ st => fst st = 0%R /\ forall j, snd st j = q j)); [lia|split; reflexivity|].
  intros xn (g, q') Hx (IHg & IH). cbn [fst snd] in *. specialize (Z0 xn ltac:(lia)). cbn zeta in Z0. rewrite !IH.
  set (s := (_ / 3)%R). assert (s0 : s = 0%R) by (unfold s; rewrite Z0; field). split; [rewrite IHg, s0; ring|].
  assert (S : forall p n, (forall j, p j = q j) -> forall j, sub_at p n s j = q j).
  { intros p m E j. rewrite sub_at_get, s0, !E. destruct (Z.eqb_spec j m) as [->|]; [|reflexivity].
    destruct (q m). unfold Cminus, Cplus, Copp, RtoC. cbn. f_equal; ring. }
  repeat (apply S). exact IH.
Qed.
Lemma dh4_idem T q : (forall xn, 0 <= xn < 2 * NDoublonHolon4siteIdx T ->
    let n0 := NGutzwillerIdx T + NJastrowIdx T + 6 * NDoublonHolon2siteIdx T + xn in let M := NDoublonHolon4siteIdx T in
    (fst (q n0) + fst (q (n0 + 2 * M)%Z) + fst (q (n0 + 4 * M)%Z) + fst (q (n0 + 6 * M)%Z) + fst (q (n0 + 8 * M)%Z) = 0)%R) ->
  fst (shift_dh4 T q) = 0%R /\ forall j, snd (shift_dh4 T q) j = q j.
Proof.
  intros Z0. unfold shift_dh4. destruct (Z.eqb_spec (NDoublonHolon4siteIdx T) 0); [split; reflexivity|].
  destruct (Z.le_gt_cases (2 * NDoublonHolon4siteIdx T) 0); [rewrite loop_nil by assumption; split; reflexivity|].
  apply (loop_inv (fun _ st => fst st = 0%R /\ forall j, snd st j = q j)); [lia|split; reflexivity|].
  intros xn (g, q') Hx (IHg & IH). cbn [fst snd] in *. specialize (Z0 xn ltac:(lia)). cbn zeta in Z0. rewrite !IH.
  set (s := (_ / 5)%R). assert (s0 : s = 0%R) by (unfold s; rewrite Z0; field). split; [rewrite IHg, s0; ring|].
  assert (S : forall p n, (forall j, p j = q j) -> forall j, sub_at p n s j = q j).
  { intros p m E j. rewrite sub_at_get, s0, !E. destruct (Z.eqb_spec j m) as [->|]; [|reflexivity].
    destruct (q m). unfold Cminus, Cplus, Copp, RtoC. cbn. f_equal; ring. }
  repeat (apply S). exact IH.
Qed.
Lemma gj_idem T q : (0 < NGutzwillerIdx T -> 0 < NJastrowIdx T ->
    rsum (zrange 0 (NGutzwillerIdx T + NJastrowIdx T)) (fun i => fst (q i)) = 0%R) -> wf_tables T ->
  forall j, shift_gj T q j = q j.
Proof.
  intros Z0 wf j. pose proof wf as [_ Hg Hj _ _ _ _ _ _]. unfold shift_gj.
  destruct (Z.eqb_spec (NGutzwillerIdx T) 0); [reflexivity|]. destruct (Z.eqb_spec (NJastrowIdx T) 0); [reflexivity|].
  cbn [orb]. rewrite (loop_rsum 0 _ (fun i => fst (q i))). rewrite Z0 by lia. set (s := (_ / _)%R).
  assert (s0 : s = 0%R) by (unfold s, Rdiv; ring). unfold sub_at.
  rewrite (loop_upd_get _ (fun i v => Cminus v (RtoC s)) q j). rewrite s0.
  destruct (_ && _); [|reflexivity]. destruct (q j). unfold Cminus, Cplus, Copp, RtoC. cbn. f_equal; ring.
Qed.
Lemma sync_centred_id T F q : wf_tables T -> centred T F q -> forall j, sync_proj T F q j = q j.
Proof.
  intros wf [C2 C4 CJ].
  assert (E2 : (if fDH2 F =? 1 then fst (shift_dh2 T q) else 0%R) = 0%R /\ forall j, after2 T F q j = q j).
  { unfold after2. destruct (Z.eqb_spec (fDH2 F) 1) as [e|e]; [|split; reflexivity]. apply dh2_idem. now apply C2. }
  destruct E2 as (G2 & E2).
  assert (E4 : (if fDH4 F =? 1 then fst (shift_dh4 T (after2 T F q)) else 0%R) = 0%R /\ forall j, after4 T F q j = q j).
  { unfold after4. destruct (Z.eqb_spec (fDH4 F) 1) as [e|e]; [|split; [reflexivity|exact E2]].
    destruct (dh4_idem T (after2 T F q)) as (A & B).
    - intros xn Hx n0 M. rewrite !E2. now apply C4.
    - split; [exact A|]. intros j. rewrite B. apply E2. }
  destruct E4 as (G4 & E4).
  assert (EG : forall j, afterg T F q j = q j).
  { intros j. rewrite afterg_get. unfold gshift. rewrite G2, G4, E4. destruct (_ && _); [|reflexivity].
    destruct (q j). unfold Cplus, RtoC. cbn. f_equal; ring. }
  intros j. rewrite sync_shape. destruct (Z.eqb_spec (fGJ F) 1) as [e|e]; [|apply EG].
  rewrite gj_idem; [apply EG| |assumption]. intros G J. erewrite rsum_ext; [apply (CJ e G J)|]. intros i _. cbn beta. now rewrite EG.
Qed.
Lemma sync_idem T F p : wf_tables T -> forall j, sync_proj T F (sync_proj T F p) j = sync_proj T F p j.
Proof. intros wf. apply sync_centred_id; [assumption|now apply sync_centred]. Qed.

Lemma max_unique n a m m' : is_max_mod n a m -> is_max_mod n a m' -> m = m'.
Proof.
  intros ((i & Hi & E) & M) ((j & Hj & E') & M'). specialize (M j Hj). specialize (M' i Hi). lra.
Qed.
Lemma rescale_idem n amp a : (0 < amp)%R -> 1 <= n -> (exists i, 0 <= i < n /\ a i <> RtoC 0) ->
  forall j, 0 <= j < n -> rescale n amp (rescale n amp a) j = rescale n amp a j.
Proof.
  intros Ha Hn Hz j Hj. rewrite rescale_get by assumption.
  rewrite (max_unique n (rescale n amp a) (max_abs n (rescale n amp a)) amp).
  - replace (amp / amp)%R with 1%R by (field; lra). destruct (rescale n amp a j). unfold Cmult, RtoC. cbn. f_equal; ring.
  - now apply max_abs_spec.
  - now apply rescale_ok.
Qed.

(** ** the statements of Properties.v *)
Lemma sync_scaled : forall T, wf_tables T -> forall OptFlag p n,
  exists K : R, (0 < K)%R /\ forall e c, occ01 (Nsite T) e -> is_proj_cnt T e c -> electrons (Nsite T) e = n ->
    exp (log_proj_val T (sync_proj T (set_flag_shift T OptFlag) p) c) = (K * exp (log_proj_val T p c))%R.
Proof.
  intros T wf f p n. destruct (sync_log T f p wf n) as (k & E). exists (exp k). split; [apply exp_pos|].
  intros e c Ho K En. rewrite (E e c Ho K En), exp_plus. ring.
Qed.
Lemma sync_ratio : forall T, wf_tables T -> forall OptFlag p e1 c1 e2 c2,
  occ01 (Nsite T) e1 -> is_proj_cnt T e1 c1 -> occ01 (Nsite T) e2 -> is_proj_cnt T e2 c2 ->
  electrons (Nsite T) e1 = electrons (Nsite T) e2 ->
  let q := sync_proj T (set_flag_shift T OptFlag) p in
  (log_proj_val T q c1 - log_proj_val T q c2 = log_proj_val T p c1 - log_proj_val T p c2)%R.
Proof.
  intros T wf f p e1 c1 e2 c2 O1 K1 O2 K2 E q. destruct (sync_log T f p wf (electrons (Nsite T) e2)) as (k & L).
  unfold q. rewrite (L e1 c1), (L e2 c2) by (assumption || reflexivity). ring.
Qed.
Lemma sync_centred_im : forall T, wf_tables T -> forall F p,
  centred T F (sync_proj T F p) /\ forall j, snd (sync_proj T F p j) = snd (p j).
Proof. intros T wf F p. split; [now apply sync_centred|]. intros j. apply sync_im. Qed.

Lemma some_not_all (f : Z -> Z) (a b i : Z) : a <= i < b -> ~ optimised f i -> ~ forall i, a <= i < b -> optimised f i.
Proof. intros Hi N A. exact (N (A i Hi)). Qed.
Lemma sync_gutz_fixed : forall T, wf_tables T -> forall OptFlag p i, 0 <= i < NGutzwillerIdx T ->
  ~ optimised OptFlag i -> forall j, sync_proj T (set_flag_shift T OptFlag) p j = p j.
Proof.
  intros T wf f p i Hi N. destruct (set_flag_iff T f wf) as (A & B & D). set (F := set_flag_shift T f) in *.
  pose proof (some_not_all f _ _ i Hi N) as NG. apply sync_centred_id; [assumption|].
  constructor; intros e; [apply B in e|apply D in e|apply A in e]; tauto.
Qed.
Lemma sync_family_fixed : forall T, wf_tables T -> forall OptFlag p i j,
  let o2 := NGutzwillerIdx T + NJastrowIdx T in let o4 := o2 + 6 * NDoublonHolon2siteIdx T in
  ~ optimised OptFlag i ->
  (o2 <= i < o4 -> o2 <= j < o4 -> sync_proj T (set_flag_shift T OptFlag) p j = p j) /\
  (o4 <= i < NProj T -> o4 <= j < NProj T -> sync_proj T (set_flag_shift T OptFlag) p j = p j) /\
  (NGutzwillerIdx T <= i < o2 -> NGutzwillerIdx T <= j < o2 -> sync_proj T (set_flag_shift T OptFlag) p j = p j).
Proof.
  intros T wf f p i j o2 o4 N. destruct (set_flag_iff T f wf) as (A & B & D). set (F := set_flag_shift T f) in *.
  fold o2 in A, B, D. fold o4 in B, D. destruct wf as [Hs Hg Hj H2 H4 W1 W2 W3 W4].
  assert (wf : wf_tables T) by (now constructor).
  split; [|split]; intros Hi Hj'; pose proof (some_not_all f _ _ i Hi N) as NA.
  - rewrite sync_high by (assumption || lia). unfold after4, after2.
    destruct (Z.eqb_spec (fDH2 F) 1) as [e|e]; [apply B in e; tauto|].
    destruct (fDH4 F =? 1); [|reflexivity]. apply shift_dh4_get; [assumption|]. fold o2 o4. lia.
  - assert (0 <= o2) by (unfold o2; lia). assert (o2 <= o4) by (unfold o4; lia).
    rewrite sync_high by (assumption || lia). unfold after4, after2.
    destruct (Z.eqb_spec (fDH4 F) 1) as [e|e]; [apply D in e; tauto|].
    destruct (fDH2 F =? 1); [|reflexivity]. apply shift_dh2_get; [assumption|]. fold o2 o4. lia.
  - rewrite sync_shape. destruct (Z.eqb_spec (fGJ F) 1) as [e|e]; [apply A in e; tauto|].
    rewrite afterg_get. destruct (Z.leb_spec 0 j), (Z.ltb_spec j (NGutzwillerIdx T)); cbn [andb]; try lia.
    unfold after4, after2. assert (o2 <= o4) by (unfold o4; lia).
    assert (X2 : snd (shift_dh2 T p) j = p j) by (apply shift_dh2_get; [assumption|fold o2 o4; lia]).
    destruct (fDH4 F =? 1), (fDH2 F =? 1); rewrite ?shift_dh4_get by (assumption || (fold o2 o4; lia)); auto.
Qed.
Lemma sync_at0 T F nS nT fl size P r : 1 <= size -> 0 <= r < size ->
  sync T F nS nT fl size P r = modify T F nS nT fl (P 0).
Proof. intros Hs Hr. unfold sync. destruct (Z.ltb_spec 1 size); [reflexivity|]. replace r with 0 by lia. reflexivity. Qed.
Lemma sync_slater : forall T F NSlater NOptTrans FlagOptTrans size P r, 1 <= NSlater -> 1 <= size -> 0 <= r < size ->
  (exists i, 0 <= i < NSlater /\ Slater (P 0) i <> RtoC 0) ->
  let a := Slater (sync T F NSlater NOptTrans FlagOptTrans size P r) in
  is_max_mod NSlater a 4%R /\ rescaled NSlater (Slater (P 0)) a /\
  forall i j, 0 <= i < NSlater -> 0 <= j < NSlater -> Slater (P 0) j <> RtoC 0 ->
    Cdiv (a i) (a j) = Cdiv (Slater (P 0) i) (Slater (P 0) j).
Proof.
  intros T F nS nT fl size P r Hn Hs Hr Hz a. unfold a. rewrite sync_at0 by assumption. cbn [modify Slater].
  destruct (rescale_ok nS 4%R (Slater (P 0)) ltac:(lra) Hn Hz) as (A & B). split; [exact A|]. split; [exact B|].
  intros i j Hi Hj Nj. now apply (rescaled_ratio nS).
Qed.
Lemma sync_trans : forall T F NSlater NOptTrans FlagOptTrans size P r, 1 <= NOptTrans -> 1 <= size ->
  0 <= r < size -> 0 < FlagOptTrans -> (exists i, 0 <= i < NOptTrans /\ OptTrans (P 0) i <> RtoC 0) ->
  let a := OptTrans (sync T F NSlater NOptTrans FlagOptTrans size P r) in
  is_max_mod NOptTrans a 1%R /\ rescaled NOptTrans (OptTrans (P 0)) a.
Proof.
  intros T F nS nT fl size P r Hn Hs Hr Hf Hz a. unfold a. rewrite sync_at0 by assumption. cbn [modify OptTrans].
  destruct (Z.ltb_spec 0 fl); [|lia]. apply (rescale_ok nT 1%R (OptTrans (P 0)) ltac:(lra) Hn Hz).
Qed.
Lemma sync_agree : forall T F NSlater NOptTrans FlagOptTrans size P Q r r', 1 < size -> P 0 = Q 0 ->
  sync T F NSlater NOptTrans FlagOptTrans size P r = sync T F NSlater NOptTrans FlagOptTrans size Q r'.
Proof. intros T F nS nT fl size P Q r r' Hs E. unfold sync. destruct (Z.ltb_spec 1 size); [now rewrite E|lia]. Qed.
Lemma sync_sync : forall T, wf_tables T -> forall F NSlater NOptTrans FlagOptTrans size P r,
  1 <= NSlater -> 1 <= size -> 0 <= r < size -> (exists i, 0 <= i < NSlater /\ Slater (P 0) i <> RtoC 0) ->
  (0 < FlagOptTrans -> 1 <= NOptTrans /\ exists i, 0 <= i < NOptTrans /\ OptTrans (P 0) i <> RtoC 0) ->
  let S := sync T F NSlater NOptTrans FlagOptTrans size in
  (forall j, Proj (S (S P) r) j = Proj (S P r) j) /\
  (forall j, 0 <= j < NSlater -> Slater (S (S P) r) j = Slater (S P r) j) /\
  (forall j, 0 <= j < NOptTrans -> OptTrans (S (S P) r) j = OptTrans (S P r) j).
Proof.
  intros T wf F nS nT fl size P r Hn Hs Hr Hz Ht S. unfold S. rewrite (sync_at0 T F nS nT fl size _ r), !sync_at0 by (assumption || lia).
  cbn [modify Proj Slater OptTrans]. split; [|split].
  - now apply sync_idem.
  - apply rescale_idem; try assumption; lra.
  - destruct (Z.ltb_spec 0 fl) as [L|L]; [|reflexivity]. destruct (Ht L) as (A & B). apply rescale_idem; try assumption; lra.
Qed.
Lemma max_abs_is n a m : 1 <= n -> is_max_mod n a m -> max_abs n a = m.
Proof. intros Hn M. apply (max_unique n a); [now apply max_abs_spec|exact M]. Qed.
