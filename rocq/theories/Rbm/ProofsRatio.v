From Coq Require Import ZArith List Bool Reals Lia Lra.
From Coquelicot Require Import Complex.
From Verif Require Import Base.ZLoop Base.Checked Base.RSum Rbm.Model Rbm.Spec Rbm.Proofs.
Import ListNotations.
Local Open Scope Z_scope.

(** ** exponentials *)
Lemma cexp_plus a b : cexp (Cplus a b) = Cmult (cexp a) (cexp b).
Proof. unfold cexp, Cplus, Cmult. cbn [fst snd]. rewrite exp_plus, cos_plus, sin_plus. f_equal; ring. Qed.
Lemma cexp_0 : cexp (RtoC 0) = RtoC 1.
Proof. unfold cexp, RtoC. cbn [fst snd]. rewrite exp_0, cos_0, sin_0. f_equal; ring. Qed.
Lemma C1_0 : RtoC 1 <> RtoC 0.
Proof. intros H. apply RtoC_inj in H. lra. Qed.
Lemma cexp_neq0 a : cexp a <> RtoC 0.
Proof.
  intros H. assert (E : Cmult (cexp a) (cexp (Copp a)) = RtoC 1). { rewrite <- cexp_plus, Cplus_opp_r. apply cexp_0. }
  rewrite H, Cmult_0_l in E. now apply C1_0.
Qed.
Lemma cexp_opp a : cexp (Copp a) = Cinv (cexp a).
Proof.
  assert (E : Cmult (cexp a) (cexp (Copp a)) = RtoC 1). { rewrite <- cexp_plus, Cplus_opp_r. apply cexp_0. }
  rewrite <- (Cmult_1_l (cexp (Copp a))), <- (Cinv_l (cexp a)) by apply cexp_neq0. rewrite <- Cmult_assoc, E. now rewrite Cmult_1_r.
Qed.
Lemma C2_0 : RtoC 2 <> RtoC 0.
Proof. intros H. apply RtoC_inj in H. lra. Qed.
Lemma ccosh_opp z : ccosh (Copp z) = ccosh z.
Proof. unfold ccosh. replace (Copp (Copp z)) with z by ring. now rewrite Cplus_comm. Qed.
Lemma ccosh_0 : ccosh (RtoC 0) = RtoC 1.
Proof. unfold ccosh. replace (Copp (RtoC 0)) with (RtoC 0) by ring. rewrite cexp_0. rewrite <- RtoC_plus, <- RtoC_div by lra. f_equal. lra. Qed.
Lemma fold_cosh z : ccosh (fold_sign z) = ccosh z.
Proof. unfold fold_sign. destruct (Rle_dec _ _); [apply ccosh_opp|reflexivity]. Qed.
Lemma half_exp z : Cmult (cexp z) (Cplus (RtoC 1) (cexp (Cmult (RtoC (-2)) z))) = Cmult (RtoC 2) (ccosh z).
Proof.
  unfold ccosh. replace (Cmult (RtoC (-2)) z) with (Cplus (Copp z) (Copp z)).
  - rewrite cexp_plus, !cexp_opp. field. repeat split; first [apply C2_0|apply cexp_neq0].
  - replace (RtoC (-2)) with (Copp (Cplus (RtoC 1) (RtoC 1))); [ring|]. rewrite <- RtoC_plus, <- RtoC_opp. f_equal; lra.
Qed.
Lemma plus_neq0 z : ccosh z <> RtoC 0 -> Cplus (RtoC 1) (cexp (Cmult (RtoC (-2)) z)) <> RtoC 0.
Proof.
  intros H E. pose proof (half_exp z) as Hz. rewrite E, Cmult_0_r in Hz. symmetry in Hz.
  destruct (Ceq_dec (ccosh z) (RtoC 0)) as [|n]; [contradiction|]. apply (Cmult_neq_0 _ _ C2_0 n). assumption.
Qed.
Lemma quot_cosh a b : ccosh b <> RtoC 0 -> Cmult (cexp (Cminus a b)) (quot a b) = Cdiv (ccosh a) (ccosh b).
Proof.
  intros Hb. unfold quot. pose proof (half_exp a) as Ha. pose proof (half_exp b) as Eb. pose proof (plus_neq0 b Hb) as Nb.
  set (pa := Cplus (RtoC 1) (cexp (Cmult (RtoC (-2)) a))) in *. set (pb := Cplus (RtoC 1) (cexp (Cmult (RtoC (-2)) b))) in *.
  replace (Cminus a b) with (Cplus a (Copp b)) by ring. rewrite cexp_plus, cexp_opp.
  assert (X : ccosh a = Cdiv (Cmult (cexp a) pa) (RtoC 2)) by (rewrite Ha; field; apply C2_0).
  assert (Y : ccosh b = Cdiv (Cmult (cexp b) pb) (RtoC 2)) by (rewrite Eb; field; apply C2_0).
  rewrite X, Y. field. repeat split; first [apply C2_0|assumption|apply cexp_neq0].
Qed.
Lemma Cinv_neq0 x : x <> RtoC 0 -> Cinv x <> RtoC 0.
Proof. intros H E. apply C1_0. rewrite <- (Cinv_r x H), E. ring. Qed.
Lemma quot_neq0 a b : ccosh a <> RtoC 0 -> ccosh b <> RtoC 0 -> quot a b <> RtoC 0.
Proof. intros Ha Hb. unfold quot, Cdiv. apply Cmult_neq_0; [now apply plus_neq0|]. apply Cinv_neq0. now apply plus_neq0. Qed.

(** ** products *)
Lemma cprod_app {A} (l m : list A) f : cprod (l ++ m) f = Cmult (cprod l f) (cprod m f).
Proof. induction l as [|x l IH]; cbn [cprod app]; [ring|]. rewrite IH. ring. Qed.
Lemma cprod_ext {A} (l : list A) f g : (forall x, In x l -> f x = g x) -> cprod l f = cprod l g.
Proof. induction l as [|x l IH]; intros H; cbn [cprod]; [reflexivity|]. rewrite H by now left. rewrite IH; [reflexivity|]. intros; apply H; now right. Qed.
Lemma cprod_neq0 {A} (l : list A) f : (forall x, In x l -> f x <> RtoC 0) -> cprod l f <> RtoC 0.
Proof. induction l as [|x l IH]; intros H; cbn [cprod]; [apply C1_0|]. apply Cmult_neq_0; [apply H; now left|apply IH; intros; apply H; now right]. Qed.
Lemma cprod_mult {A} (l : list A) f g : cprod l (fun x => Cmult (f x) (g x)) = Cmult (cprod l f) (cprod l g).
Proof. induction l as [|x l IH]; cbn [cprod]; [ring|]. rewrite IH. ring. Qed.
Lemma cprod_div {A} (l : list A) f g : (forall x, In x l -> g x <> RtoC 0) -> cprod l (fun x => Cdiv (f x) (g x)) = Cdiv (cprod l f) (cprod l g).
Proof.
  induction l as [|x l IH]; intros H; cbn [cprod]; [field; apply C1_0|]. rewrite IH by (intros; apply H; now right).
  field. split; [apply cprod_neq0; intros; apply H; now right|apply H; now left].
Qed.
Lemma cprod_shift f a b k : cprod (zrange (a + k) (b + k)) f = cprod (zrange a b) (fun i => f (i + k)).
Proof. rewrite zrange_shift. induction (zrange a b) as [|x l IH]; cbn [cprod map]; [reflexivity|]. now rewrite IH. Qed.
Lemma cprod_exp {A} (l : list A) f : cprod l (fun x => cexp (f x)) = cexp (csum l f).
Proof. induction l as [|x l IH]; cbn [cprod csum]; [symmetry; apply cexp_0|]. now rewrite IH, cexp_plus. Qed.
Lemma cprod_snoc f a b : a <= b -> cprod (zrange a (b + 1)) f = Cmult (cprod (zrange a b) f) (f b).
Proof. intros H. rewrite zrange_snoc, cprod_app by assumption. cbn [cprod]. ring. Qed.
Lemma csum_snoc f a b : a <= b -> csum (zrange a (b + 1)) f = Cplus (csum (zrange a b) f) (f b).
Proof. intros H. rewrite zrange_snoc, csum_app by assumption. cbn [csum]. ring. Qed.
Lemma loop_snoc {S} a b (f : Z -> S -> S) s : a <= b -> loop a (b + 1) f s = f b (loop a b f s).
Proof. intros H. unfold loop. rewrite zrange_snoc by assumption. now rewrite fold_left_app. Qed.
Lemma loop_empty {S} a b (f : Z -> S -> S) s : b <= a -> loop a b f s = s.
Proof. intros H. unfold loop. now rewrite zrange_nil. Qed.
(** induction on the end of a range *)
Lemma range_ind (P : Z -> Prop) a n : P a -> (forall k, a <= k < n -> P k -> P (k + 1)) -> a <= n -> P n.
Proof.
  intros H0 Hs Hn. replace n with (a + Z.of_nat (Z.to_nat (n - a))) by lia.
  assert (G : forall m, (m <= Z.to_nat (n - a))%nat -> P (a + Z.of_nat m)); [|apply G; lia].
  induction m as [|m IH]; intros Hm; [now rewrite Z.add_0_r|].
  replace (a + Z.of_nat (S m)) with (a + Z.of_nat m + 1) by lia. apply Hs; [lia|]. apply IH. lia.
Qed.

(** ** the static schedule *)
Lemma chunk_next n T tid : chunk_start n T (tid + 1) = chunk_start n T tid + chunk_size n T tid.
Proof. unfold chunk_start, chunk_size. destruct (Z.ltb_spec tid (n mod T)); lia. Qed.
Lemma chunk_first n T : 0 < T -> chunk_start n T 0 = 0.
Proof. intros H. unfold chunk_start. pose proof (Z.mod_pos_bound n T H). lia. Qed.
Lemma chunk_last n T : 0 < T -> chunk_start n T T = n.
Proof. intros H. unfold chunk_start. pose proof (Z.mod_pos_bound n T H). pose proof (Z.div_mod n T). lia. Qed.
Lemma chunk_nonneg n T tid : 0 < T -> 0 <= n -> 0 <= chunk_size n T tid.
Proof. intros H H0. unfold chunk_size. pose proof (Z.div_pos n T H0 H). destruct (_ <? _); lia. Qed.
Lemma start_nonneg n T tid : 0 < T -> 0 <= n -> 0 <= tid -> 0 <= chunk_start n T tid.
Proof. intros H H0 Ht. unfold chunk_start. pose proof (Z.div_pos n T H0 H). pose proof (Z.mod_pos_bound n T H). nia. Qed.
(** a thread whose part of the block is a multiple of 8 long gets exactly the matching part of the unrolled loop *)
Lemma chunk_eight n T tid : 0 < T -> 0 <= n -> 0 <= tid < T -> chunk_size n T tid mod 8 = 0 -> chunk_size n T tid = 8 * chunk_size ((n + 7) / 8) T tid.
Proof.
  intros HT Hn Ht. unfold chunk_size. pose proof (Z.div_mod n T ltac:(lia)) as Hd. pose proof (Z.mod_pos_bound n T HT) as Hr.
  set (q := n / T) in *. set (r := n mod T) in *.
  destruct (Z.ltb_spec tid r) as [Hlt|Hge].
  - intros H8. apply Z.mod_divide in H8; [|lia]. destruct H8 as [m Hm].
    assert (E : (n + 7) / 8 = m * T - (T - r) / 8).
    { pose proof (Z.div_mod (T - r) 8 ltac:(lia)). pose proof (Z.mod_pos_bound (T - r) 8 ltac:(lia)).
      symmetry. apply (Z.div_unique_pos (n + 7) 8 _ (7 - (T - r) mod 8)); [lia|]. nia. }
    rewrite E. pose proof (Z.div_mod (T - r) 8 ltac:(lia)). pose proof (Z.mod_pos_bound (T - r) 8 ltac:(lia)).
    set (g := (T - r) / 8) in *. destruct (Z.eq_dec g 0) as [Hg|Hg].
    + rewrite Hg, Z.sub_0_r. rewrite Z.div_mul, Z.mod_mul by lia. destruct (Z.ltb_spec tid 0); lia.
    + assert (Hg0 : 0 < g) by lia.
      assert (Q : (m * T - g) / T = m - 1) by (symmetry; apply (Z.div_unique_pos _ T _ (T - g)); [lia|nia]).
      assert (R : (m * T - g) mod T = T - g) by (symmetry; apply (Z.mod_unique_pos _ T (m - 1)); [lia|nia]).
      rewrite Q, R. destruct (Z.ltb_spec tid (T - g)); lia.
  - rewrite Z.add_0_r. intros H8. apply Z.mod_divide in H8; [|lia]. destruct H8 as [m Hm].
    pose proof (Z.div_mod (r + 7) 8 ltac:(lia)). pose proof (Z.mod_pos_bound (r + 7) 8 ltac:(lia)).
    assert (E : (n + 7) / 8 = m * T + (r + 7) / 8) by (symmetry; apply (Z.div_unique_pos (n + 7) 8 _ ((r + 7) mod 8)); [lia|nia]).
    rewrite E. set (g := (r + 7) / 8) in *.
    assert (Q : (m * T + g) / T = m) by (symmetry; apply (Z.div_unique_pos _ T _ g); [lia|nia]).
    assert (R : (m * T + g) mod T = g) by (symmetry; apply (Z.mod_unique_pos _ T m); [lia|nia]).
    rewrite Q, R. destruct (Z.ltb_spec tid g); lia.
Qed.

Section M.
Variable M : machine.
Variable clog : C -> C.
Hypothesis Hlog : is_log clog.
Variable W : Z -> C.
Variables cnew cold : Z -> C.
Definition fa (h : Z) : C := fold_sign (cnew (h + NPhys M)).
Definition fb (h : Z) : C := fold_sign (cold (h + NPhys M)).
Definition fq (h : Z) : C := quot (fa h) (fb h).
Definition fd (h : Z) : C := Cminus (fa h) (fb h).

Definition step1 : Z -> Z * (Z -> C) * C -> Z * (Z -> C) * C := fun hi '(icnt, zzTmp, z) =>
  let a := fold_sign (cnew (hi + NPhys M)) in let b := fold_sign (cold (hi + NPhys M)) in
  (icnt + 1, upd zzTmp icnt (quot a b), Cplus z (Cminus a b)).
Lemma first_loop junk s n : 0 <= n -> exists zz, loop s (s + n) step1 (0, junk, RtoC 0) = (n, zz, csum (zrange s (s + n)) fd) /\
  forall k, 0 <= k < n -> zz k = fq (s + k).
Proof.
  intros Hn. pattern n. apply (range_ind _ 0); [| |assumption].
  - exists junk. rewrite Z.add_0_r, loop_empty, zrange_nil by lia. split; [reflexivity|lia].
  - intros k Hk (zz & E & V). replace (s + (k + 1)) with (s + k + 1) by lia. rewrite loop_snoc, csum_snoc by lia. rewrite E.
    eexists. split; [reflexivity|]. intros i Hi. unfold upd. destruct (Z.eqb_spec i k) as [->|]; [reflexivity|]. apply V. lia.
Qed.
Lemma eight_loop (zz : Z -> C) m : 0 <= m ->
  loop 0 m (fun _ '(icnt, p) => (icnt + 8, Cmult p (loop 0 8 (fun k p => Cmult p (zz (icnt + k))) (RtoC 1)))) (0, RtoC 1) = (8 * m, cprod (zrange 0 (8 * m)) zz).
Proof.
  intros Hm. pattern m. apply (range_ind _ 0); [reflexivity| |assumption]. intros k Hk E. rewrite loop_snoc by lia. rewrite E.
  replace (8 * (k + 1)) with (8 * k + 8) by lia. rewrite (zrange_app 0 (8 * k) (8 * k + 8)) by lia. rewrite cprod_app. f_equal. f_equal.
  replace (zrange (8 * k) (8 * k + 8)) with (zrange (0 + 8 * k) (8 + 8 * k)) by (f_equal; lia). rewrite cprod_shift.
  change (zrange 0 8) with [0; 1; 2; 3; 4; 5; 6; 7]. unfold loop. change (zrange 0 8) with [0; 1; 2; 3; 4; 5; 6; 7]. cbn [fold_left cprod].
  rewrite !(Z.add_comm (8 * k)). ring.
Qed.
Lemma single_loop (zz : Z -> C) n : 0 <= n -> loop 0 n (fun _ '(icnt, p) => (icnt + 1, Cmult p (zz icnt))) (0, RtoC 1) = (n, cprod (zrange 0 n) zz).
Proof.
  intros Hn. pattern n. apply (range_ind _ 0); [reflexivity| |assumption]. intros k Hk E. rewrite loop_snoc, cprod_snoc by lia. now rewrite E.
Qed.
Lemma thread_ok hist hiend T tid junk : 0 < T -> hist <= hiend -> 0 <= tid < T ->
  let n := hiend - hist in let s := hist + chunk_start n T tid in let sz := chunk_size n T tid in
  thread_part M cnew cold hist hiend T tid junk = (csum (zrange s (s + sz)) fd, cprod (zrange s (s + sz)) fq).
Proof.
  intros HT Hh Ht n s sz. unfold thread_part. cbv zeta. fold n. fold s. fold sz.
  assert (Hsz : 0 <= sz) by (apply chunk_nonneg; lia).
  destruct (first_loop junk s sz Hsz) as (zz & E & V).
  change (fun (hi : Z) '(icnt, zzTmp, z) => (icnt + 1, upd zzTmp icnt (quot (fold_sign (cnew (hi + NPhys M))) (fold_sign (cold (hi + NPhys M)))),
    Cplus z (Cminus (fold_sign (cnew (hi + NPhys M))) (fold_sign (cold (hi + NPhys M)))))) with step1.
  rewrite E.
  assert (P : cprod (zrange 0 sz) zz = cprod (zrange s (s + sz)) fq).
  { replace (zrange s (s + sz)) with (zrange (0 + s) (sz + s)) by (f_equal; lia). rewrite cprod_shift. apply cprod_ext. intros k Hk. apply zrange_in in Hk.
    rewrite V by lia. now rewrite Z.add_comm. }
  destruct (Z.eqb_spec (sz mod 8) 0) as [H8|H8].
  - rewrite eight_loop by (apply chunk_nonneg; [lia|]; apply Z.div_pos; lia).
    pose proof (chunk_eight n T tid HT ltac:(lia) Ht H8) as E8. fold sz in E8. now rewrite <- E8, P.
  - rewrite single_loop by assumption. now rewrite P.
Qed.
Lemma region_ok hist hiend T junk z0 : 0 < T -> hist <= hiend ->
  loop 0 T (fun tid '(z, zz) => let '(dz, dzz) := thread_part M cnew cold hist hiend T tid (junk tid) in (Cplus z dz, Cmult zz dzz)) (z0, RtoC 1)
  = (Cplus z0 (csum (zrange hist hiend) fd), cprod (zrange hist hiend) fq).
Proof.
  intros HT Hh. set (n := hiend - hist).
  assert (G : forall t, 0 <= t -> t <= T -> loop 0 t (fun tid '(z, zz) => let '(dz, dzz) := thread_part M cnew cold hist hiend T tid (junk tid) in (Cplus z dz, Cmult zz dzz)) (z0, RtoC 1)
    = (Cplus z0 (csum (zrange hist (hist + chunk_start n T t)) fd), cprod (zrange hist (hist + chunk_start n T t)) fq)).
  - intros t H0. pattern t. apply (range_ind _ 0); [| |assumption].
    + intros _. rewrite chunk_first by lia. rewrite loop_empty, zrange_nil by lia. cbn [csum cprod]. f_equal. ring.
    + intros k Hk IH HkT. rewrite loop_snoc by lia. rewrite IH by lia. rewrite thread_ok by lia. fold n. rewrite chunk_next.
      pose proof (chunk_nonneg n T k HT ltac:(lia)). pose proof (start_nonneg n T k HT ltac:(lia) ltac:(lia)).
      rewrite (zrange_app hist (hist + chunk_start n T k) (hist + (chunk_start n T k + chunk_size n T k))) by lia.
      rewrite csum_app, cprod_app. replace (hist + (chunk_start n T k + chunk_size n T k)) with (hist + chunk_start n T k + chunk_size n T k) by lia.
      f_equal. ring.
  - rewrite G by lia. rewrite chunk_last by lia. replace (hist + n) with hiend by (unfold n; lia). reflexivity.
Qed.

(** the weight as a function of the counters *)
Definition wcnt (c : Z -> C) : C := Cmult (cexp (csum (zrange 0 (NPhys M)) (fun k => Cmult (W k) (c k)))) (cprod (zrange 0 (Nneuron M)) (fun h => ccosh (c (h + NPhys M)))).
Hypothesis Hn : 0 <= Nneuron M.
Hypothesis Hnew : forall h, 0 <= h < Nneuron M -> ccosh (cnew (h + NPhys M)) <> RtoC 0.
Hypothesis Hold : forall h, 0 <= h < Nneuron M -> ccosh (cold (h + NPhys M)) <> RtoC 0.
Definition fr (h : Z) : C := Cdiv (ccosh (cnew (h + NPhys M))) (ccosh (cold (h + NPhys M))).
Lemma block_ratio a b : 0 <= a -> b <= Nneuron M -> Cmult (cexp (csum (zrange a b) fd)) (cprod (zrange a b) fq) = cprod (zrange a b) fr.
Proof.
  intros Ha Hb. rewrite <- cprod_exp, <- cprod_mult. apply cprod_ext. intros h Hh. apply zrange_in in Hh. unfold fd, fq, fr.
  rewrite quot_cosh; [unfold fa, fb; now rewrite !fold_cosh|]. unfold fb. rewrite fold_cosh. apply Hold. lia.
Qed.
Lemma block_neq0 a b : 0 <= a -> b <= Nneuron M -> cprod (zrange a b) fq <> RtoC 0.
Proof.
  intros Ha Hb. apply cprod_neq0. intros h Hh. apply zrange_in in Hh. unfold fq. apply quot_neq0; [unfold fa|unfold fb]; rewrite fold_cosh; [apply Hnew|apply Hold]; lia.
Qed.
Lemma ratio_counters NB T junk : 0 < NB -> 0 < T -> rbm_ratio M clog W NB T junk cnew cold = Cdiv (wcnt cnew) (wcnt cold).
Proof.
  intros HNB HT. unfold rbm_ratio, log_rbm_ratio. cbv zeta. rewrite loop_plus.
  set (z0 := Cplus (RtoC 0) (csum (zrange 0 (NPhys M)) (fun idx => Cmult (W idx) (Cminus (cnew idx) (cold idx))))).
  set (body := fun (iblk : Z) (z : C) => _).
  assert (G : forall k, 0 <= k -> (k = 0 \/ (k - 1) * NB <= Nneuron M) -> cexp (loop 0 k body z0) = Cmult (cexp z0) (cprod (zrange 0 (Z.min (k * NB) (Nneuron M))) fr)).
  { intros k Hk. pattern k. apply (range_ind _ 0); [| |assumption].
    - intros _. rewrite loop_empty by lia. rewrite zrange_nil by lia. cbn [cprod]. ring.
    - intros i Hi IH [?|Hb]; [lia|]. rewrite loop_snoc by lia. unfold body at 1.
      set (hiend := if _ <? _ then _ else _).
      assert (Hle : i * NB <= hiend <= Nneuron M) by (unfold hiend; destruct (Z.ltb_spec (Nneuron M) (i * NB + NB)); lia).
      rewrite region_ok by lia. rewrite !cexp_plus. rewrite IH by (right; nia). rewrite Hlog by (apply block_neq0; lia).
      rewrite <- !Cmult_assoc. rewrite (block_ratio (i * NB) hiend) by lia.
      replace (Z.min ((i + 1) * NB) (Nneuron M)) with hiend by (unfold hiend; destruct (Z.ltb_spec (Nneuron M) (i * NB + NB)); lia).
      rewrite (zrange_app 0 (i * NB) hiend) by lia. rewrite cprod_app. rewrite Z.min_l by lia. reflexivity. }
  assert (HB : 0 <= Z.quot (Nneuron M - 1) NB + 1 /\ Nneuron M <= (Z.quot (Nneuron M - 1) NB + 1) * NB /\
               (Z.quot (Nneuron M - 1) NB + 1 = 0 \/ (Z.quot (Nneuron M - 1) NB + 1 - 1) * NB <= Nneuron M)).
  { destruct (Z.eq_dec (Nneuron M) 0) as [E|E].
    - rewrite E. change (0 - 1) with (- (1)). rewrite Z.quot_opp_l by lia. destruct (Z.eq_dec NB 1) as [->|H1]; [rewrite Z.quot_1_r; lia|].
      rewrite Z.quot_small by lia. lia.
    - rewrite Z.quot_div_nonneg by lia. pose proof (Z.div_mod (Nneuron M - 1) NB ltac:(lia)). pose proof (Z.mod_pos_bound (Nneuron M - 1) NB HNB).
      pose proof (Z.div_pos (Nneuron M - 1) NB ltac:(lia) HNB). split; [lia|]. split; [nia|]. right. nia. }
  destruct HB as (HB1 & HB2 & HB3). rewrite G by assumption. rewrite Z.min_r by lia.
  unfold fr. rewrite cprod_div by (intros h Hh; apply zrange_in in Hh; now apply Hold).
  unfold wcnt. unfold z0. rewrite Cplus_0_l.
  rewrite (csum_ext _ _ (fun k => Cplus (Cmult (W k) (cnew k)) (Copp (Cmult (W k) (cold k))))) by (intros; ring).
  rewrite csum_add. rewrite cexp_plus.
  assert (Eo : csum (zrange 0 (NPhys M)) (fun k => Copp (Cmult (W k) (cold k))) = Copp (csum (zrange 0 (NPhys M)) (fun k => Cmult (W k) (cold k)))).
  { generalize (zrange 0 (NPhys M)) as l. induction l as [|x l IH]; cbn [csum]; [ring|]. rewrite IH. ring. }
  rewrite Eo, cexp_opp. field. split; first [apply cexp_neq0|apply cprod_neq0; intros h Hh; apply zrange_in in Hh; now apply Hold].
Qed.
End M.

Section Weight.
Variable M : machine.
Hypothesis Hwf : wf_machine M.
Variable W : Z -> C.
Ltac sizes := pose proof (wf_sizes M Hwf); unfold nRBM, NRBM, Nneuron, NPhys, NHid, NPh in *; lia.

Lemma exchange n sz (tab : Z -> Z) (x : Z -> Z) (w : Z -> C) : (0 < n -> forall r, below sz r -> below n (tab r)) -> 0 <= n ->
  csum (zrange 0 n) (fun k => Cmult (w k) (zc (zsum (zrange 0 sz) (fun r => if tab r =? k then x r else 0)))) =
  if 0 <? n then csum (zrange 0 sz) (fun r => Cmult (w (tab r)) (zc (x r))) else RtoC 0.
Proof.
  intros Ht Hn. destruct (Z.ltb_spec 0 n) as [H|H]; [|rewrite zrange_nil by lia; reflexivity].
  rewrite (csum_ext _ _ (fun k => csum (zrange 0 sz) (fun r => if k + 0 =? tab r then Cmult (w k) (zc (x r)) else RtoC 0))).
  - assert (Sw : forall (l m : list Z) (f : Z -> Z -> C), csum l (fun a => csum m (fun b => f a b)) = csum m (fun b => csum l (fun a => f a b))).
    { intros l m f. induction l as [|a l IH]; cbn [csum]; [symmetry; now apply csum_zero|]. rewrite IH, csum_add. reflexivity. }
    rewrite Sw. apply csum_ext. intros r Hr. apply zrange_in in Hr. specialize (Ht H r Hr).
    rewrite (csum_at (fun k => Cmult (w k) (zc (x r)))). rewrite Z.sub_0_r. unfold below in Ht. now rewrite inb_true by lia.
  - intros k _. rewrite zc_sum, <- csum_scal. apply csum_ext. intros r _. rewrite Z.add_0_r, (Z.eqb_sym k). destruct (_ =? _); [reflexivity|]. rewrite zc_0. ring.
Qed.
Lemma csum_shift (f : Z -> C) a b k : csum (zrange (a + k) (b + k)) f = csum (zrange a b) (fun i => f (i + k)).
Proof. rewrite zrange_shift. induction (zrange a b) as [|x l IH]; cbn [csum map]; [reflexivity|]. now rewrite IH. Qed.
Lemma range_split_c f a n m : 0 <= n -> 0 <= m -> cprod (zrange a (a + n + m)) f = Cmult (cprod (zrange a (a + n)) f) (cprod (zrange 0 m) (fun h => f (h + (a + n)))).
Proof. intros. rewrite (zrange_app a (a + n) (a + n + m)) by lia. rewrite cprod_app. f_equal. rewrite <- cprod_shift. f_equal. f_equal; lia. Qed.

Lemma wcnt_machine e c : is_rbm_cnt M W e c -> wcnt M W c = machine_weight M W e.
Proof.
  intros Hc. unfold wcnt, machine_weight. f_equal.
  - f_equal. unfold visible.
    replace (zrange 0 (NPhys M)) with (zrange 0 (NPhysC M) ++ zrange (0 + NPhysC M) (NPhysS M + NPhysC M) ++ zrange (0 + (NPhysC M + NPhysS M)) (NPhysG M + (NPhysC M + NPhysS M))).
    2:{ unfold NPhys. rewrite (zrange_app 0 (NPhysC M) (NPhysC M + NPhysS M + NPhysG M)) by sizes. f_equal.
        rewrite (zrange_app (NPhysC M) (NPhysC M + NPhysS M) (NPhysC M + NPhysS M + NPhysG M)) by sizes. f_equal; f_equal; lia. }
    rewrite !csum_app, !csum_shift. rewrite Cplus_assoc. f_equal; [f_equal|].
    + rewrite <- (exchange (NPhysC M) (Nsite M) (PhysC M) (charge M e) W) by (try apply wf_physC; try assumption; sizes).
      apply csum_ext. intros k Hk. apply zrange_in in Hk. now rewrite (cnt_visC _ _ _ _ Hc).
    + rewrite <- (exchange (NPhysS M) (Nsite M) (PhysS M) (spin M e) (fun k => W (NPhysC M + k))) by (try apply wf_physS; try assumption; sizes).
      apply csum_ext. intros k Hk. apply zrange_in in Hk. rewrite (Z.add_comm k). now rewrite (cnt_visS _ _ _ _ Hc).
    + rewrite <- (exchange (NPhysG M) (2 * Nsite M) (PhysG M) (general e) (fun k => W (NPhysC M + NPhysS M + k))) by (try apply wf_physG; try assumption; sizes).
      apply csum_ext. intros k Hk. apply zrange_in in Hk. rewrite (Z.add_comm k). now rewrite (cnt_visG _ _ _ _ Hc).
  - unfold hidden. replace (Nneuron M) with (0 + (NneuronC M + NneuronS M + NneuronG M) + NneuronX M) by (unfold Nneuron; lia).
    rewrite range_split_c by sizes. rewrite Z.add_0_l.
    rewrite (cprod_ext (zrange 0 (NneuronX M)) _ (fun _ => RtoC 1)).
    2:{ intros h Hh. apply zrange_in in Hh. replace (h + (NneuronC M + NneuronS M + NneuronG M) + NPhys M) with (NPhys M + NneuronC M + NneuronS M + NneuronG M + h) by lia.
        rewrite (cnt_none _ _ _ _ Hc) by assumption. apply ccosh_0. }
    assert (H1 : forall l : list Z, cprod l (fun _ => RtoC 1) = RtoC 1) by (induction l as [|x l IH]; cbn [cprod]; [reflexivity|rewrite IH; ring]).
    rewrite H1, Cmult_1_r.
    replace (NneuronC M + NneuronS M + NneuronG M) with (0 + (NneuronC M + NneuronS M) + NneuronG M) by lia. rewrite range_split_c by sizes. rewrite Z.add_0_l.
    replace (NneuronC M + NneuronS M) with (0 + NneuronC M + NneuronS M) at 1 by lia. rewrite range_split_c by sizes. rewrite Z.add_0_l.
    f_equal; [f_equal|]; apply cprod_ext; intros h Hh; apply zrange_in in Hh; f_equal.
    + rewrite (Z.add_comm h). now apply (cnt_thC _ _ _ _ Hc).
    + replace (h + NneuronC M + NPhys M) with (NPhys M + NneuronC M + h) by lia. now apply (cnt_thS _ _ _ _ Hc).
    + replace (h + (NneuronC M + NneuronS M) + NPhys M) with (NPhys M + NneuronC M + NneuronS M + h) by lia. now apply (cnt_thG _ _ _ _ Hc).
Qed.
Lemma machine_neq0 e c : is_rbm_cnt M W e c -> machine_weight M W e <> RtoC 0 -> forall h, 0 <= h < Nneuron M -> ccosh (c (h + NPhys M)) <> RtoC 0.
Proof.
  intros Hc Hw h Hh E. apply Hw. rewrite <- (wcnt_machine e c Hc). unfold wcnt.
  rewrite (zrange_app 0 h (Nneuron M)) by lia. rewrite (zrange_cons h) by lia. rewrite cprod_app. cbn [cprod]. rewrite E. ring.
Qed.
Lemma Nneuron_pos : 0 <= Nneuron M. Proof. sizes. Qed.

Lemma ratio_ok clog NB T junk e e' c c' : is_log clog -> 0 < NB -> 0 < T -> is_rbm_cnt M W e c -> is_rbm_cnt M W e' c' ->
  machine_weight M W e <> RtoC 0 -> machine_weight M W e' <> RtoC 0 ->
  rbm_ratio M clog W NB T junk c' c = Cdiv (machine_weight M W e') (machine_weight M W e).
Proof.
  intros Hlog HNB HT Hc Hc' Hw Hw'. rewrite (ratio_counters M clog Hlog W c' c Nneuron_pos); try assumption.
  - now rewrite (wcnt_machine e c Hc), (wcnt_machine e' c' Hc').
  - apply (machine_neq0 e' c'); assumption.
  - apply (machine_neq0 e c); assumption.
Qed.
Lemma weight_ok clog e c : is_log clog -> is_rbm_cnt M W e c -> machine_weight M W e <> RtoC 0 -> weight_rbm M clog W c = machine_weight M W e.
Proof.
  intros Hlog Hc Hw. unfold weight_rbm, log_weight_rbm. rewrite !loop_plus. rewrite Cplus_0_l, cexp_plus.
  rewrite <- (wcnt_machine e c Hc). unfold wcnt. f_equal. rewrite <- cprod_exp. apply cprod_ext. intros h Hh. apply zrange_in in Hh. apply Hlog. now apply (machine_neq0 e c).
Qed.
Lemma cexp_mod z : Cmod (cexp z) = exp (fst z).
Proof.
  unfold Cmod, cexp. cbn [fst snd]. replace ((exp (fst z) * cos (snd z)) ^ 2 + (exp (fst z) * sin (snd z)) ^ 2)%R with (Rsqr (exp (fst z)) * (Rsqr (sin (snd z)) + Rsqr (cos (snd z))))%R by (unfold Rsqr; ring).
  rewrite sin2_cos2, Rmult_1_r. apply sqrt_Rsqr. left. apply exp_pos.
Qed.
Lemma log_ratio_ok clog NB T junk e e' c c' : is_log clog -> 0 < NB -> 0 < T -> is_rbm_cnt M W e c -> is_rbm_cnt M W e' c' ->
  machine_weight M W e <> RtoC 0 -> machine_weight M W e' <> RtoC 0 ->
  exp (fst (log_rbm_ratio M clog W NB T junk c' c)) = Cmod (Cdiv (machine_weight M W e') (machine_weight M W e)).
Proof.
  intros. rewrite <- (ratio_ok clog NB T junk e e' c c') by assumption. symmetry. apply cexp_mod.
Qed.
End Weight.
