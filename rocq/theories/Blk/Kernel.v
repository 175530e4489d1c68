(** Several pending hops as one change of low rank. *)
From Coq Require Import ZArith List Bool Lia Lra Reals.
From Coquelicot Require Import Complex.
From Verif Require Import Base.ZLoop Base.RSum Pf.Pfaffian Pf.Spec Pf.Proofs Ltl.Model Ltl.Spec Ltl.Pfa Blk.Model Blk.Spec Blk.Alg.
Import ListNotations.
Local Open Scope Z_scope.

Section Hops.
Variables (k : Z) (U Ws : Z -> Z -> C) (fr : Z -> Z).
Hypothesis (Hk : 0 <= k).
Hypothesis HWs : forall l m, 0 <= l < k -> 0 <= m < k -> Ws m l = Copp (Ws l m).

Definition wide (i a : Z) : C := if a <? k then U i a else kron i (fr (a - k)).
Definition corner (a b : Z) : C := if a <? k then if b <? k then Ws a b else Copp (kron a (b - k)) else if b <? k then kron (a - k) b else RtoC 0.
Definition uncorner (a b : Z) : C := if a <? k then if b <? k then RtoC 0 else kron a (b - k) else if b <? k then Copp (kron (a - k) b) else Ws (a - k) (b - k).

Lemma csum_2k f : csum (zrange 0 (2 * k)) f = Cplus (csum (zrange 0 k) f) (csum (zrange 0 k) (fun a => f (k + a))).
Proof. replace (2 * k) with (k + k) by lia. now apply csum_split. Qed.
Lemma low a : a < k -> (a <? k) = true. Proof. now apply Z.ltb_lt. Qed.
Lemma high a : 0 <= a -> (k + a <? k) = false. Proof. intros; apply Z.ltb_ge; lia. Qed.
Lemma back a : k + a - k = a. Proof. lia. Qed.
Lemma wide_low i a : a < k -> wide i a = U i a. Proof. intros H. unfold wide. now rewrite low. Qed.
Lemma wide_high i a : 0 <= a -> wide i (k + a) = kron i (fr a). Proof. intros H. unfold wide. now rewrite high, back. Qed.
Lemma halves a : 0 <= a < 2 * k -> (a < k /\ 0 <= a) \/ exists a', a = k + a' /\ 0 <= a' < k.
Proof. intros H. destruct (Z.lt_ge_cases a k); [left; lia|right; exists (a - k); lia]. Qed.

Lemma corner_skew a b : 0 <= a < 2 * k -> 0 <= b < 2 * k -> corner b a = Copp (corner a b).
Proof.
  intros Ha Hb. destruct (halves a Ha) as [(A1 & A2)|(a' & -> & Ha')], (halves b Hb) as [(B1 & B2)|(b' & -> & Hb')]; unfold corner; rewrite ?high, ?low, ?back by lia.
  - apply HWs; lia. - rewrite kron_sym. ring. - rewrite kron_sym. reflexivity. - ring.
Qed.
Lemma uncorner_skew a b : 0 <= a < 2 * k -> 0 <= b < 2 * k -> uncorner b a = Copp (uncorner a b).
Proof.
  intros Ha Hb. destruct (halves a Ha) as [(A1 & A2)|(a' & -> & Ha')], (halves b Hb) as [(B1 & B2)|(b' & -> & Hb')]; unfold uncorner; rewrite ?high, ?low, ?back by lia.
  - ring. - now rewrite kron_sym. - rewrite kron_sym. ring. - apply HWs; lia.
Qed.
Ltac sums := repeat first [rewrite csum_kron by lia | rewrite csum_kron' by lia].
Lemma corner_inv a b : 0 <= a < 2 * k -> 0 <= b < 2 * k -> csum (zrange 0 (2 * k)) (fun c => Cmult (corner a c) (uncorner c b)) = kron a b.
Proof.
  intros Ha Hb. rewrite csum_2k.
  destruct (halves a Ha) as [(A1 & A2)|(a' & -> & Ha')], (halves b Hb) as [(B1 & B2)|(b' & -> & Hb')].
  - rewrite csum_zero, Cplus_0_l.
    + rewrite (csum_ext _ _ (fun c => Cmult (kron a c) (kron c b))); [sums; reflexivity|]. intros c Hc. apply zrange_in in Hc. unfold corner, uncorner. rewrite ?high, ?low, ?back by lia. ring.
    + intros c Hc. apply zrange_in in Hc. unfold uncorner. rewrite ?low by lia. ring.
  - rewrite (csum_ext _ (fun c => Cmult (corner a c) (uncorner c (k + b'))) (fun c => Cmult (Ws a c) (kron c b'))).
    + rewrite (csum_ext _ (fun c => Cmult (corner a (k + c)) _) (fun c => Copp (Cmult (kron a c) (Ws c b')))).
      * rewrite csum_opp. rewrite (csum_kron k a (fun c => Ws c b')) by lia. rewrite (csum_kron' k b' (Ws a)) by lia. unfold kron. destruct (Z.eqb_spec a (k + b')); [lia|ring].
      * intros c Hc. apply zrange_in in Hc. unfold corner, uncorner. rewrite ?high, ?low, ?back by lia. ring.
    + intros c Hc. apply zrange_in in Hc. unfold corner, uncorner. rewrite ?high, ?low, ?back by lia. ring.
  - rewrite !csum_zero.
    + unfold kron. destruct (Z.eqb_spec (k + a') b); [lia|ring].
    + intros c Hc. apply zrange_in in Hc. unfold corner, uncorner. rewrite ?high, ?low, ?back by lia. ring.
    + intros c Hc. apply zrange_in in Hc. unfold corner, uncorner. rewrite ?high, ?low, ?back by lia. ring.
  - rewrite (csum_zero _ (fun c => Cmult (corner (k + a') (k + c)) _)), Cplus_0_r.
    + rewrite (csum_ext _ _ (fun c => Cmult (kron a' c) (kron c b'))); [sums|].
      * unfold kron. destruct (Z.eqb_spec a' b'), (Z.eqb_spec (k + a') (k + b')); (reflexivity || lia).
      * intros c Hc. apply zrange_in in Hc. unfold corner, uncorner. rewrite ?high, ?low, ?back by lia. ring.
    + intros c Hc. apply zrange_in in Hc. unfold corner. rewrite ?high by lia. ring.
Qed.
Lemma uncorner_inv a b : 0 <= a < 2 * k -> 0 <= b < 2 * k -> csum (zrange 0 (2 * k)) (fun c => Cmult (uncorner a c) (corner c b)) = kron a b.
Proof.
  intros Ha Hb. rewrite (csum_ext _ _ (fun c => Cmult (corner b c) (uncorner c a))).
  - rewrite corner_inv by assumption. apply kron_sym.
  - intros c Hc. apply zrange_in in Hc. rewrite (corner_skew b c), (uncorner_skew c a) by assumption. ring.
Qed.

(** the Pfaffian of [W -1; 1 0] *)
Lemma sgn_alternate (m : nat) z : Cmult (sgn m) (alternate (Z.of_nat m - 1) z) = alternate (Z.of_nat m) z.
Proof.
  unfold alternate. assert (E : Z.of_nat m * (Z.of_nat m + 1) / 2 = (Z.of_nat m - 1) * (Z.of_nat m - 1 + 1) / 2 + Z.of_nat m).
  { rewrite <- Z.div_add by lia. f_equal. ring. }
  rewrite E, Z.even_add. assert (S : sgn m = if Z.even (Z.of_nat m) then RtoC 1 else Copp (RtoC 1)).
  { clear E. induction m as [|m IH]; [reflexivity|]. cbn [sgn]. rewrite IH, Nat2Z.inj_succ, Z.even_succ, <- Z.negb_even. destruct (Z.even (Z.of_nat m)); cbn [negb]; [reflexivity|ring]. }
  rewrite S. generalize (Z.even ((Z.of_nat m - 1) * (Z.of_nat m - 1 + 1) / 2)) as p, (Z.even (Z.of_nat m)) as q. intros [] []; cbn [eqb]; ring.
Qed.
Lemma alternate_mult j x y : alternate j (Cmult x y) = Cmult (alternate j x) y. Proof. unfold alternate. destruct (Z.even _); ring. Qed.
Lemma alternate_sq j x : alternate j (alternate j x) = x. Proof. unfold alternate. destruct (Z.even _); ring. Qed.
Lemma pf_corner : pf corner (zrange 0 (2 * k)) = alternate k (RtoC 1).
Proof.
  assert (G : forall m, (Z.of_nat m <= k) -> pf corner (zrange (k - Z.of_nat m) k ++ zrange (2 * k - Z.of_nat m) (2 * k)) = alternate (Z.of_nat m) (RtoC 1)).
  { induction m as [|m IH]; intros Hm.
    - rewrite !zrange_nil by lia. reflexivity.
    - rewrite Nat2Z.inj_succ in *. rewrite (zrange_cons (2 * k - Z.succ (Z.of_nat m))) by lia. replace (2 * k - Z.succ (Z.of_nat m) + 1) with (2 * k - Z.of_nat m) by lia.
      set (x := 2 * k - Z.succ (Z.of_nat m)). rewrite pf_front. 2:{ intros y Hy. apply zrange_in in Hy. apply corner_skew; unfold x; lia. }
      rewrite zrange_length. replace (Z.to_nat (k - (k - Z.succ (Z.of_nat m)))) with (S m) by lia.
      rewrite pf_cons. rewrite (zrange_cons (k - Z.succ (Z.of_nat m))) by lia. replace (k - Z.succ (Z.of_nat m) + 1) with (k - Z.of_nat m) by lia. cbn [app psum]. rewrite IH by lia.
      rewrite (psum_ext _ _ (fun _ _ => RtoC 0)).
      + rewrite psum_zero. replace (corner x (k - Z.succ (Z.of_nat m))) with (RtoC 1).
        * pose proof (sgn_alternate (S m) (RtoC 1)) as SA. rewrite Nat2Z.inj_succ in SA. replace (Z.succ (Z.of_nat m) - 1) with (Z.of_nat m) in SA by lia. rewrite <- SA. ring.
        * unfold corner, x. rewrite (proj2 (Z.ltb_ge _ _)) by lia. rewrite low by lia. unfold kron. destruct (Z.eqb_spec (2 * k - Z.succ (Z.of_nat m) - k) (k - Z.succ (Z.of_nat m))); [reflexivity|lia].
      + intros z r Hz _ _. replace (corner x z) with (RtoC 0); [ring|]. apply in_app_or in Hz. unfold corner, x. rewrite (proj2 (Z.ltb_ge (2 * k - Z.succ (Z.of_nat m)) k)) by lia.
        destruct Hz as [Hz|Hz]; apply zrange_in in Hz.
        * rewrite low by lia. unfold kron. destruct (Z.eqb_spec (2 * k - Z.succ (Z.of_nat m) - k) z); [lia|reflexivity].
        * rewrite (proj2 (Z.ltb_ge z k)) by lia. reflexivity. }
  specialize (G (Z.to_nat k) ltac:(lia)). rewrite Z2Nat.id in G by exact Hk. rewrite <- G. f_equal. rewrite (zrange_app 0 k (2 * k)) by lia. f_equal; f_equal; lia.
Qed.

Variable n : Z.
Hypothesis Hn : 0 <= n.
Hypothesis Hfr : forall l, 0 <= l < k -> 0 <= fr l < n.
Hypothesis Hinj : forall l m, 0 <= l < k -> 0 <= m < k -> fr l = fr m -> l = m.
(** picking a pending electron out of a sum *)
Lemma pick_hop m (f : Z -> C) : 0 <= m < k -> csum (zrange 0 k) (fun l => Cmult (kron (fr m) (fr l)) (f l)) = f m.
Proof.
  intros Hm. rewrite (csum_ext _ _ (fun l => Cmult (kron m l) (f l))); [now apply csum_kron|]. intros l Hl. apply zrange_in in Hl. f_equal. unfold kron.
  destruct (Z.eqb_spec (fr m) (fr l)) as [E|N], (Z.eqb_spec m l) as [E'|N']; try reflexivity; [apply Hinj in E; [congruence|assumption..]|congruence].
Qed.
Lemma pick_none i (f : Z -> C) : (forall l, 0 <= l < k -> fr l <> i) -> csum (zrange 0 k) (fun l => Cmult (kron i (fr l)) (f l)) = RtoC 0.
Proof. intros H. apply csum_zero. intros l Hl. apply zrange_in in Hl. unfold kron. destruct (Z.eqb_spec i (fr l)) as [E|]; [destruct (H l Hl); now symmetry|ring]. Qed.
Lemma hop_dec i : (exists l, 0 <= l < k /\ fr l = i) \/ (forall l, 0 <= l < k -> fr l <> i).
Proof.
  destruct (existsb (fun l => fr l =? i) (zrange 0 k)) eqn:E.
  - left. apply existsb_exists in E. destruct E as (l & Hl & E). apply zrange_in in Hl. apply Z.eqb_eq in E. eauto.
  - right. intros l Hl F. assert (existsb (fun l => fr l =? i) (zrange 0 k) = true); [|congruence]. apply existsb_exists. exists l. split; [now apply zrange_in|now apply Z.eqb_eq].
Qed.

(** the double sum B E B' *)
Definition change (i j : Z) : C := csum (zrange 0 (2 * k)) (fun a => csum (zrange 0 (2 * k)) (fun b => Cmult (Cmult (wide i a) (uncorner a b)) (wide j b))).
Lemma change_is i j : change i j =
  Cplus (csum (zrange 0 k) (fun l => Cmult (kron j (fr l)) (U i l)))
  (Cplus (Copp (csum (zrange 0 k) (fun l => Cmult (kron i (fr l)) (U j l))))
         (csum (zrange 0 k) (fun l => Cmult (kron i (fr l)) (csum (zrange 0 k) (fun m => Cmult (kron j (fr m)) (Ws l m)))))).
Proof.
  unfold change. rewrite csum_2k. f_equal.
  - apply csum_ext. intros a Ha. apply zrange_in in Ha. rewrite csum_2k. rewrite csum_zero, Cplus_0_l.
    + rewrite (csum_ext _ _ (fun b => Cmult (kron a b) (Cmult (kron j (fr b)) (U i a)))); [sums; reflexivity|]. intros b Hb. apply zrange_in in Hb. rewrite (wide_low i a), (wide_high j b) by lia. unfold uncorner. rewrite ?high, ?low, ?back by lia. ring.
    + intros b Hb. apply zrange_in in Hb. unfold uncorner. rewrite ?low by lia. ring.
  - rewrite <- csum_opp, <- csum_add. apply csum_ext. intros a Ha. apply zrange_in in Ha. rewrite csum_2k. f_equal.
    + rewrite (csum_ext _ _ (fun b => Cmult (kron a b) (Copp (Cmult (kron i (fr a)) (U j b))))); [sums; reflexivity|]. intros b Hb. apply zrange_in in Hb. rewrite (wide_low j b), (wide_high i a) by lia. unfold uncorner. rewrite ?high, ?low, ?back by lia. ring.
    + rewrite <- csum_scal. apply csum_ext. intros b Hb. apply zrange_in in Hb. rewrite !wide_high by lia. unfold uncorner. rewrite ?high, ?low, ?back by lia. ring.
Qed.
Lemma change_none i j : (forall l, 0 <= l < k -> fr l <> i) -> (forall l, 0 <= l < k -> fr l <> j) -> change i j = RtoC 0.
Proof. intros H1 H2. rewrite change_is. rewrite !pick_none by assumption. ring. Qed.
Lemma change_right i m : (forall l, 0 <= l < k -> fr l <> i) -> 0 <= m < k -> change i (fr m) = U i m.
Proof. intros H1 H2. rewrite change_is. rewrite !(pick_none i) by assumption. rewrite (pick_hop m (U i)) by assumption. ring. Qed.
Lemma change_left m j : 0 <= m < k -> (forall l, 0 <= l < k -> fr l <> j) -> change (fr m) j = Copp (U j m).
Proof. intros H1 H2. rewrite change_is. rewrite (pick_none j (U _)) by assumption. rewrite (pick_hop m (U j)) by assumption. rewrite (csum_zero _ (fun l => Cmult _ (csum _ _))); [ring|]. intros l Hl. rewrite pick_none by assumption. ring. Qed.
Lemma change_both l m : 0 <= l < k -> 0 <= m < k -> change (fr l) (fr m) = Cplus (Cminus (U (fr l) m) (U (fr m) l)) (Ws l m).
Proof.
  intros Hl Hm. rewrite change_is. rewrite (pick_hop m (U (fr l))), (pick_hop l (U (fr m))) by assumption.
  rewrite (csum_ext _ (fun l0 => Cmult _ (csum _ _)) (fun l0 => Cmult (kron (fr l) (fr l0)) (Ws l0 m))).
  - rewrite (pick_hop l (fun a => Ws a m)) by assumption. ring.
  - intros a Ha. f_equal. now apply (pick_hop m (Ws a)).
Qed.

(** the central matrix from the stored products *)
Variables (A M : Z -> Z -> C).
Hypothesis HM : is_inverse n M A.
Let cen := central n M wide corner.
Lemma central_uu a b : 0 <= a < k -> 0 <= b < k -> cen a b = Cplus (Ws a b) (csum (zrange 0 n) (fun i => Cmult (U i a) (csum (zrange 0 n) (fun j => Cmult (M i j) (U j b))))).
Proof.
  intros Ha Hb. unfold cen, central, corner. rewrite !low by lia. f_equal. apply csum_ext. intros i _. rewrite <- csum_scal. apply csum_ext. intros j _. rewrite !wide_low by lia. ring.
Qed.
Lemma central_uv a b : 0 <= a < k -> 0 <= b < k -> cen a (k + b) = Cminus (csum (zrange 0 n) (fun i => Cmult (U i a) (M i (fr b)))) (kron a b).
Proof.
  intros Ha Hb. unfold cen, central, corner. rewrite high, low, back by lia. unfold Cminus. rewrite Cplus_comm. f_equal. apply csum_ext. intros i _.
  rewrite (csum_ext _ _ (fun j => Cmult (Cmult (U i a) (M i j)) (kron j (fr b)))); [now rewrite csum_kron' by (apply Hfr; lia)|]. intros j _. rewrite (wide_low i a), (wide_high j b) by lia. ring.
Qed.
Lemma central_vv a b : 0 <= a < k -> 0 <= b < k -> cen (k + a) (k + b) = M (fr a) (fr b).
Proof.
  intros Ha Hb. unfold cen, central, corner. rewrite !high by lia. rewrite Cplus_0_l. rewrite (csum_ext _ _ (fun i => Cmult (M i (fr b)) (kron i (fr a)))).
  - now rewrite (csum_kron' n (fr a) (fun i => M i (fr b))) by (apply Hfr; lia).
  - intros i _. rewrite (csum_ext _ _ (fun j => Cmult (Cmult (kron i (fr a)) (M i j)) (kron j (fr b)))).
    + rewrite (csum_kron' n (fr b) (fun j => Cmult (kron i (fr a)) (M i j))) by (apply Hfr; lia). ring.
    + intros j _. rewrite !wide_high by lia. ring.
Qed.
(** columns of M B *)
Lemma moved_low i a : 0 <= a < k -> moved_by n M wide i a = csum (zrange 0 n) (fun j => Cmult (M i j) (U j a)).
Proof. intros Ha. apply csum_ext. intros j _. now rewrite wide_low by lia. Qed.
Lemma moved_high i a : 0 <= a < k -> moved_by n M wide i (k + a) = M i (fr a).
Proof. intros Ha. unfold moved_by. rewrite (csum_ext _ _ (fun j => Cmult (M i j) (kron j (fr a)))); [now apply (csum_kron' n (fr a) (M i)), Hfr|]. intros j _. now rewrite wide_high by lia. Qed.
End Hops.
