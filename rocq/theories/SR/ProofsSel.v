(** Stored derivatives, selection of components, optimisation history *)
From Coq Require Import ZArith List Bool Reals Lia Lra Permutation.
From Coquelicot Require Import Complex.
From Verif Require Import Base.ZLoop Base.RSum Par.Model Par.Proofs SR.Model SR.Spec SR.Proofs.
Import ListNotations.
Local Open Scope Z_scope.

(** ** stored derivatives *)
Lemma csum_zrange_map {A} (f : Z -> A) a b F : csum (map f (zrange a b)) F = csum (zrange a b) (fun i => F (f i)).
Proof. apply csum_map. Qed.
Lemma counted_all l : (forall x, In x l -> ok x = true) -> counted l = l.
Proof.
  unfold counted. induction l as [|x l IH]; intros H; cbn [filter]; [reflexivity|]. rewrite H by now left. f_equal. apply IH. intros; apply H; now right.
Qed.
Lemma part_all smp a b : (forall i, a <= i < b -> ok (smp i) = true) -> part smp a b = map smp (zrange a b).
Proof. intros H. unfold part. apply counted_all. intros x Hx. apply in_map_iff in Hx. destruct Hx as (i & <- & Hi). apply zrange_in in Hi. auto. Qed.
Lemma sqrt_weight w (a b : C) : (0 <= w)%R ->
  Cmult (Cmult (RtoC (sqrt w)) a) (Cconj (Cmult (RtoC (sqrt w)) b)) = Cmult (RtoC w) (Cmult a (Cconj b)).
Proof.
  intros Hw. pose proof (sqrt_sqrt w Hw) as E. destruct a as (a1, a2), b as (b1, b2). set (q := sqrt w) in *. rewrite <- E.
  unfold Cmult, Cconj, RtoC. cbn [fst snd]. f_equal; ring.
Qed.
Lemma main_store S N size rank smp st : 0 < S -> 0 <= N -> 1 <= size -> 0 <= rank < size ->
  let a := fst (split_loop N rank size) in let b := snd (split_loop N rank size) in
  a = 0 -> (forall i, a <= i < b -> ok (smp i) = true /\ (0 <= wgt (smp i))%R) ->
  let r := main_cal S false true N size rank smp st in
  sums (part smp a b) r /\ sumsOO S (part smp a b) (OO r) /\ sumsHO S (part smp a b) (HO r).
Proof.
  intros HS HN Hz Hr. cbn zeta. pose proof (split_within N size rank HN Hz Hr) as (W & _).
  unfold main_cal. destruct (split_loop N rank size) as (a, b). cbn [fst snd orb] in *. intros -> Hok.
  pose proof (loop_store S smp 0 b st HS ltac:(lia)) as (A & B & C & D). cbn [Wc Etot Etot2 OO HO Store].
  split; [|split]; [destruct A; now constructor| |exact B].
  constructor. intros i j Hi Hj. rewrite part_all by (intros; now apply Hok). rewrite csum_zrange_map.
  unfold calculateOO_Store, zgemm_NC. replace (b - 0) with b by ring.
  destruct (Z.leb_spec 0 (i * (2 * S) + j)); [|nia]. destruct (Z.ltb_spec (i * (2 * S) + j) (2 * S * (2 * S))); [|nia]. cbn [andb].
  assert (M : (i * (2 * S) + j) mod (2 * S) = j) by (rewrite Z.add_comm, Z.mod_add by lia; apply Z.mod_small; lia).
  assert (Q : (i * (2 * S) + j) / (2 * S) = i) by (rewrite Z.add_comm, Z.div_add by lia; rewrite Z.div_small by lia; lia).
  rewrite M, Q. apply csum_ext. intros k Hk. apply zrange_in in Hk. rewrite !D by lia.
  destruct (Hok k ltac:(lia)) as (Ek & Wk). rewrite Ek.
  destruct (Z.leb_spec 0 k), (Z.ltb_spec k b); try lia. cbn [andb]. now apply sqrt_weight.
Qed.
Lemma store_equals_direct S N size rank smp st st' : 0 < S -> 0 <= N -> 1 <= size -> 0 <= rank < size ->
  fst (split_loop N rank size) = 0 ->
  (forall i, 0 <= i < snd (split_loop N rank size) -> ok (smp i) = true /\ (0 <= wgt (smp i))%R) ->
  let d := main_cal S false false N size rank smp st' in
  let r := main_cal S false true N size rank smp st in
  Wc r = Wc d /\ Etot r = Etot d /\ Etot2 r = Etot2 d /\
  (forall k, 0 <= k < 2 * S * (2 * S) -> OO r k = OO d k) /\ (forall k, 0 <= k < 2 * S -> HO r k = HO d k).
Proof.
  intros HS HN Hz Hr H0 Hok d r.
  assert (Hd : sums (part smp 0 (snd (split_loop N rank size))) d /\ sumsOO S (part smp 0 (snd (split_loop N rank size))) (OO d) /\ sumsHO S (part smp 0 (snd (split_loop N rank size))) (HO d)).
  { pose proof (main_direct S N size rank smp st' HS HN Hz Hr) as M. cbn zeta in M. rewrite H0 in M. exact M. }
  assert (Hs : sums (part smp 0 (snd (split_loop N rank size))) r /\ sumsOO S (part smp 0 (snd (split_loop N rank size))) (OO r) /\ sumsHO S (part smp 0 (snd (split_loop N rank size))) (HO r)).
  { pose proof (main_store S N size rank smp st HS HN Hz Hr) as M. cbn zeta in M. rewrite H0 in M. exact (M eq_refl Hok). }
  destruct Hd as ([d1 d2 d3] & [d4] & [d5]), Hs as ([s1 s2 s3] & [s4] & [s5]).
  rewrite d1, d2, d3, s1, s2, s3. repeat split; intros k Hk.
  - assert (Hn : 2 * S <> 0) by lia. pose proof (Z.div_mod k (2 * S) Hn) as E. pose proof (Z.mod_pos_bound k (2 * S) ltac:(lia)) as B.
    replace k with (k / (2 * S) * (2 * S) + k mod (2 * S)) by lia.
    assert (0 <= k / (2 * S) < 2 * S). { split; [apply Z.div_pos; lia|]. apply Z.div_lt_upper_bound; lia. }
    rewrite d4, s4 by lia. reflexivity.
  - rewrite d5, s5 by lia. reflexivity.
Qed.

(** witnesses: a process that does not start at sample 0, and a skipped sample *)
Definition wsample (b : bool) : sample := Smp b 1 (RtoC 0) (fun _ => RtoC 1) (fun _ => RtoC 0) (fun _ => RtoC 0).
Lemma one_neq_zero : RtoC 1 <> RtoC 0. Proof. intros H. apply (f_equal fst) in H. cbn in H. lra. Qed.
Lemma sqrt1_C : Cmult (RtoC (sqrt 1)) (RtoC 1) = RtoC 1. Proof. rewrite sqrt_1. ring. Qed.
Lemma store_offset_wrong :
  let smp := fun _ => wsample true in
  let d := main_cal 1 false false 2 2 1 smp (fun _ => RtoC 0) in
  let r := main_cal 1 false true 2 2 1 smp (fun _ => RtoC 0) in
  OO d 0 = RtoC 1 /\ OO r 0 = RtoC 0.
Proof.
  cbn zeta. split.
  - pose proof (main_direct 1 2 2 1 (fun _ => wsample true) (fun _ => RtoC 0) ltac:(lia) ltac:(lia) ltac:(lia) ltac:(lia)) as (_ & [F] & _).
    specialize (F 0 0 ltac:(lia) ltac:(lia)). change (0 * (2 * 1) + 0) with 0 in F. rewrite F.
    change (part (fun _ => wsample true) (fst (split_loop 2 1 2)) (snd (split_loop 2 1 2))) with [wsample true]. cbn [csum].
    change (srOptO (wsample true) 0) with (RtoC 1). change (wgt (wsample true)) with 1%R. rewrite Cconj_1. ring.
  - unfold main_cal. change (split_loop 2 1 2) with (1, 2). cbn [orb].
    pose proof (loop_store 1 (fun _ => wsample true) 1 2 (fun _ => RtoC 0) ltac:(lia) ltac:(lia)) as (_ & _ & _ & D).
    cbn [OO]. unfold calculateOO_Store, zgemm_NC. change ((0 <=? 0) && (0 <? 2 * 1 * (2 * 1))) with true. cbv iota.
    change (zrange 0 (2 - 1)) with [0]. cbn [csum]. change (0 mod (2 * 1) + 0 * (2 * 1)) with (0 + 0 * (2 * 1)).
    change (0 / (2 * 1) + 0 * (2 * 1)) with (0 + 0 * (2 * 1)). rewrite D by lia.
    change ((1 <=? 0) && (0 <? 2) && ok (wsample true)) with false. cbv iota. rewrite Cconj_0. ring.
Qed.
Lemma store_stale_wrong :
  let first := main_cal 1 false true 1 1 0 (fun _ => wsample true) (fun _ => RtoC 0) in
  let d := main_cal 1 false false 1 1 0 (fun _ => wsample false) (Store first) in
  let r := main_cal 1 false true 1 1 0 (fun _ => wsample false) (Store first) in
  OO d 0 = RtoC 0 /\ OO r 0 = RtoC 1.
Proof.
  cbn zeta. split.
  - pose proof (main_direct 1 1 1 0 (fun _ => wsample false) (Store (main_cal 1 false true 1 1 0 (fun _ => wsample true) (fun _ => RtoC 0))) ltac:(lia) ltac:(lia) ltac:(lia) ltac:(lia)) as (_ & [F] & _).
    specialize (F 0 0 ltac:(lia) ltac:(lia)). change (0 * (2 * 1) + 0) with 0 in F. rewrite F. reflexivity.
  - set (first := main_cal 1 false true 1 1 0 (fun _ => wsample true) (fun _ => RtoC 0)).
    assert (F0 : Store first (0 + 0 * (2 * 1)) = RtoC 1).
    { unfold first, main_cal. change (split_loop 1 0 1) with (0, 1). cbn [orb Store].
      pose proof (loop_store 1 (fun _ => wsample true) 0 1 (fun _ => RtoC 0) ltac:(lia) ltac:(lia)) as (_ & _ & _ & D).
      rewrite D by lia. change ((0 <=? 0) && (0 <? 1) && ok (wsample true)) with true. cbv iota. apply sqrt1_C. }
    unfold main_cal at 1. change (split_loop 1 0 1) with (0, 1). cbn [orb].
    pose proof (loop_store 1 (fun _ => wsample false) 0 1 (Store first) ltac:(lia) ltac:(lia)) as (_ & _ & _ & D).
    cbn [OO]. unfold calculateOO_Store, zgemm_NC. change ((0 <=? 0) && (0 <? 2 * 1 * (2 * 1))) with true. cbv iota.
    change (zrange 0 (1 - 0)) with [0]. cbn [csum]. change (0 mod (2 * 1) + 0 * (2 * 1)) with (0 + 0 * (2 * 1)).
    change (0 / (2 * 1) + 0 * (2 * 1)) with (0 + 0 * (2 * 1)). rewrite D by lia.
    change ((0 <=? 0) && (0 <? 1) && ok (wsample false)) with false. cbv iota. rewrite F0, Cconj_1. ring.
Qed.

(** ** selection *)
Lemma diag_max_spec n r : 0 < n -> is_rmax n r (diag_max n r).
Proof.
  intros Hn. unfold diag_max, is_rmax.
  apply (loop_inv (fun k m => (exists i, 0 <= i < n /\ r i = m) /\ forall i, 0 <= i < k -> (r i <= m)%R)); [lia| |].
    - split; [exists 0; split; [lia|reflexivity]|intros; lia].
    - intros k m Hk ((i & Hi & E) & L). destruct (Rlt_dec m (r k)) as [H|H].
      + split; [exists k; split; [lia|reflexivity]|]. intros j Hj. destruct (Z.eq_dec j k) as [->|]; [lra|]. specialize (L j ltac:(lia)). lra.
      + split; [exists i; auto|]. intros j Hj. destruct (Z.eq_dec j k) as [->|]; [lra|]. apply L. lia.
Qed.
Lemma neg_tail n k m j : k <= n -> loop k n (fun si m => upd m si (-1)) m j = if (k <=? j) && (j <? n) then -1 else m j.
Proof.
  intros Hk. apply (loop_inv (fun e m' => m' j = if (k <=? j) && (j <? e) then -1 else m j)); [lia| |].
  - destruct (Z.leb_spec k j), (Z.ltb_spec j k); try lia; reflexivity.
  - intros e m' He IH. rewrite upd_get. destruct (Z.eqb_spec j e) as [->|].
    + destruct (Z.leb_spec k e), (Z.ltb_spec e (e + 1)); try lia; reflexivity.
    + rewrite IH. destruct (Z.leb_spec k j), (Z.ltb_spec j e), (Z.ltb_spec j (e + 1)); try lia; reflexivity.
Qed.
Lemma select_spec n flag r cut : 0 < n ->
  let s := select n flag r cut in
  exists m, is_rmax n r m /\ let thr := (m * cut)%R in
  (forall k, 0 <= k < nSmat s -> 0 <= smatToParaIdx s k < n /\ is_free flag r thr (smatToParaIdx s k)) /\
  (forall k k', 0 <= k < k' -> k' < nSmat s -> smatToParaIdx s k < smatToParaIdx s k') /\
  (forall p, 0 <= p < n -> is_free flag r thr p -> exists k, 0 <= k < nSmat s /\ smatToParaIdx s k = p) /\
  (forall k, nSmat s <= k < n -> smatToParaIdx s k = -1) /\
  (exists L, NoDup L /\ (forall p, In p L <-> 0 <= p < n /\ is_cut flag r thr p) /\ cutNum s = Z.of_nat (length L)) /\
  (exists L, NoDup L /\ (forall p, In p L <-> 0 <= p < n /\ is_fixed flag p) /\ optNum s = Z.of_nat (length L)) /\
  0 <= nSmat s <= n /\ nSmat s + cutNum s + optNum s = n.
Proof.
  intros Hn. cbn zeta. exists (diag_max n r). split; [now apply diag_max_spec|]. unfold select. set (thr := (diag_max n r * cut)%R).
  match goal with |- context [loop 0 n ?f ?i] => set (F := f); set (I := i) end.
  assert (A : let s := loop 0 n F I in
   (forall k, 0 <= k < nSmat s -> 0 <= smatToParaIdx s k < n /\ is_free flag r thr (smatToParaIdx s k)) /\
   (forall k k', 0 <= k < k' -> k' < nSmat s -> smatToParaIdx s k < smatToParaIdx s k') /\
   (forall p, 0 <= p < n -> is_free flag r thr p -> exists k, 0 <= k < nSmat s /\ smatToParaIdx s k = p) /\
   (exists L, NoDup L /\ (forall p, In p L <-> 0 <= p < n /\ is_cut flag r thr p) /\ cutNum s = Z.of_nat (length L)) /\
   (exists L, NoDup L /\ (forall p, In p L <-> 0 <= p < n /\ is_fixed flag p) /\ optNum s = Z.of_nat (length L)) /\
   0 <= nSmat s /\ nSmat s + cutNum s + optNum s = n).
  { cbn zeta. apply (loop_inv (fun c s =>
     (forall k, 0 <= k < nSmat s -> 0 <= smatToParaIdx s k < c /\ is_free flag r thr (smatToParaIdx s k)) /\
     (forall k k', 0 <= k < k' -> k' < nSmat s -> smatToParaIdx s k < smatToParaIdx s k') /\
     (forall p, 0 <= p < c -> is_free flag r thr p -> exists k, 0 <= k < nSmat s /\ smatToParaIdx s k = p) /\
     (exists L, NoDup L /\ (forall p, In p L <-> 0 <= p < c /\ is_cut flag r thr p) /\ cutNum s = Z.of_nat (length L)) /\
     (exists L, NoDup L /\ (forall p, In p L <-> 0 <= p < c /\ is_fixed flag p) /\ optNum s = Z.of_nat (length L)) /\
     0 <= nSmat s /\ nSmat s + cutNum s + optNum s = c)); [lia| |].
    - unfold I. cbn [nSmat smatToParaIdx cutNum optNum]. repeat split; try (intros; lia); try reflexivity.
      + exists []. split; [constructor|]. split; [|reflexivity]. intros p. split; [intros []|lia].
      + exists []. split; [constructor|]. split; [|reflexivity]. intros p. split; [intros []|lia].
    - intros c s Hc (Sel1 & Inc & Cov & (Lc & NDc & InC & LenC) & (Lf & NDf & InF & LenF) & Nn & Tot). unfold F.
      destruct (Z.eqb_spec (flag c) 1) as [e|e]; cbn [negb].
      + destruct (Rlt_dec (r c) thr) as [Hr|Hr]; cbn [nSmat smatToParaIdx cutNum optNum].
        * split; [intros k Hk; destruct (Sel1 k Hk) as (a & b); split; [lia|exact b]|]. split; [exact Inc|].
          split. { intros p Hp Hf. destruct (Z.eq_dec p c) as [->|]; [destruct Hf; lra|]. apply Cov; [lia|exact Hf]. }
          split. { exists (c :: Lc). split; [constructor; [rewrite InC; lia|exact NDc]|]. split.
            - intros p. cbn [In]. rewrite InC. split; [intros [<-|(a & b)]; [split; [lia|split; auto]|split; [lia|exact b]]|].
              intros (a & b). destruct (Z.eq_dec p c) as [->|]; [now left|right; split; [lia|exact b]].
            - cbn [length]. lia. }
          split. { exists Lf. split; [exact NDf|]. split; [|exact LenF]. intros p. rewrite InF. unfold is_fixed.
            split; [intros (a & b); split; [lia|exact b]|]. intros (a & b). split; [|exact b]. destruct (Z.eq_dec p c) as [->|]; [contradiction|lia]. }
          split; [exact Nn|lia].
        * assert (Fr : is_free flag r thr c) by (split; [exact e|lra]).
          split. { intros k Hk. rewrite upd_get. destruct (Z.eqb_spec k (nSmat s)) as [->|]; [split; [lia|exact Fr]|].
            destruct (Sel1 k ltac:(lia)) as (a & b). split; [lia|exact b]. }
          split. { intros k k' Hk Hk'. rewrite !upd_get. destruct (Z.eqb_spec k (nSmat s)); [lia|]. destruct (Z.eqb_spec k' (nSmat s)).
            - destruct (Sel1 k ltac:(lia)). lia.
            - apply Inc; lia. }
          split. { intros p Hp Hf. destruct (Z.eq_dec p c) as [->|].
            - exists (nSmat s). split; [lia|]. apply upd_same.
            - destruct (Cov p ltac:(lia) Hf) as (k & Hk & E). exists k. split; [lia|]. rewrite upd_get. destruct (Z.eqb_spec k (nSmat s)); [lia|exact E]. }
          split. { exists Lc. split; [exact NDc|]. split; [|exact LenC]. intros p. rewrite InC. unfold is_cut.
            split; [intros (a & b); split; [lia|exact b]|]. intros (a & b1 & b2). split; [|split; assumption].
            destruct (Z.eq_dec p c) as [->|]; [lra|lia]. }
          split. { exists Lf. split; [exact NDf|]. split; [|exact LenF]. intros p. rewrite InF. unfold is_fixed.
            split; [intros (a & b); split; [lia|exact b]|]. intros (a & b). split; [|exact b]. destruct (Z.eq_dec p c) as [->|]; [contradiction|lia]. }
          split; lia.
      + cbn [nSmat smatToParaIdx cutNum optNum].
        split; [intros k Hk; destruct (Sel1 k Hk) as (a & b); split; [lia|exact b]|]. split; [exact Inc|].
        split. { intros p Hp Hf. destruct (Z.eq_dec p c) as [->|]; [destruct Hf; contradiction|]. apply Cov; [lia|exact Hf]. }
        split. { exists Lc. split; [exact NDc|]. split; [|exact LenC]. intros p. rewrite InC. unfold is_cut.
          split; [intros (a & b); split; [lia|exact b]|]. intros (a & b1 & b2). split; [|split; assumption].
          destruct (Z.eq_dec p c) as [->|]; [contradiction|lia]. }
        split. { exists (c :: Lf). split; [constructor; [rewrite InF; lia|exact NDf]|]. split.
          - intros p. cbn [In]. rewrite InF. unfold is_fixed. split; [intros [<-|(a & b)]; [split; [lia|exact e]|split; [lia|exact b]]|].
            intros (a & b). destruct (Z.eq_dec p c) as [->|]; [now left|right; split; [lia|exact b]].
          - cbn [length]. lia. }
        split; [exact Nn|lia]. }
  cbn zeta in A. set (s := loop 0 n F I) in *. clearbody s. clear F I.
  destruct A as (Sel1 & Inc & Cov & Ec & Ef & Nn & Tot). cbn [nSmat smatToParaIdx cutNum optNum].
  assert (Le : nSmat s <= n). { destruct Ec as (? & _ & _ & ?), Ef as (? & _ & _ & ?). lia. }
  split. { intros k Hk. rewrite neg_tail by lia. destruct (Z.leb_spec (nSmat s) k); [lia|]. cbn [andb]. now apply Sel1. }
  split. { intros k k' Hk Hk'. rewrite !neg_tail by lia. destruct (Z.leb_spec (nSmat s) k); [lia|]. destruct (Z.leb_spec (nSmat s) k'); [lia|]. cbn [andb]. now apply Inc. }
  split. { intros p Hp Hf. destruct (Cov p Hp Hf) as (k & Hk & E). exists k. split; [exact Hk|]. rewrite neg_tail by lia. destruct (Z.leb_spec (nSmat s) k); [lia|exact E]. }
  split. { intros k Hk. rewrite neg_tail by lia. destruct (Z.leb_spec (nSmat s) k), (Z.ltb_spec k n); try lia. reflexivity. }
  repeat split; try assumption; lia.
Qed.

(** ** the update *)
Lemma component_step para p q v :
  component (if p mod 2 =? 0 then upd para (p / 2) (Cplus (para (p / 2)) (RtoC v)) else upd para ((p - 1) / 2) (Cplus (para ((p - 1) / 2)) (Cmult (RtoC v) Ci))) q =
  (component para q + (if Z.eqb q p then v else 0))%R.
Proof.
  unfold component. pose proof (Z.div_mod p 2 ltac:(lia)) as Ep. pose proof (Z.mod_pos_bound p 2 ltac:(lia)) as Bp.
  pose proof (Z.div_mod q 2 ltac:(lia)) as Eq'. pose proof (Z.mod_pos_bound q 2 ltac:(lia)) as Bq.
  destruct (Z.eqb_spec (p mod 2) 0) as [e|e].
  - rewrite upd_get. destruct (Z.eqb_spec (q / 2) (p / 2)) as [d|d].
    + rewrite d. destruct (Z.eqb_spec (q mod 2) 0) as [e'|e'].
      * destruct (Z.eqb_spec q p); [|lia]. cbn. reflexivity.
      * destruct (Z.eqb_spec q p); [lia|]. cbn. reflexivity.
    + destruct (Z.eqb_spec q p) as [->|]; [lia|]. destruct (Z.eqb_spec (q mod 2) 0); ring.
  - assert (Ed : (p - 1) / 2 = p / 2). { symmetry. apply (Z.div_unique _ 2 _ 0); lia. }
    rewrite Ed, upd_get. destruct (Z.eqb_spec (q / 2) (p / 2)) as [d|d].
    + rewrite d. destruct (Z.eqb_spec (q mod 2) 0) as [e'|e'].
      * destruct (Z.eqb_spec q p); [lia|]. cbn. ring.
      * destruct (Z.eqb_spec q p); [|lia]. cbn. ring.
    + destruct (Z.eqb_spec q p) as [->|]; [lia|]. destruct (Z.eqb_spec (q mod 2) 0); ring.
Qed.
Lemma update_component s r para q : 0 <= nSmat s ->
  component (update_para 0 s r para) q = (component para q + rsum (zrange 0 (nSmat s)) (fun si => if Z.eqb q (smatToParaIdx s si) then r si else 0))%R.
Proof.
  intros Hn. unfold update_para. cbn [Z.eqb].
  apply (loop_inv (fun k pa => component pa q = (component para q + rsum (zrange 0 k) (fun si => if Z.eqb q (smatToParaIdx s si) then r si else 0))%R)); [lia| |].
  - rewrite zrange_nil by lia. cbn [rsum]. ring.
  - intros k pa Hk IH. rewrite zrange_snoc by lia. rewrite rsum_app. cbn [rsum]. rewrite Rplus_0_r, <- Rplus_assoc, <- IH. apply component_step.
Qed.
Lemma update_spec info s r para :
  0 <= nSmat s -> (forall k k', 0 <= k < k' -> k' < nSmat s -> smatToParaIdx s k < smatToParaIdx s k') ->
  (info <> 0 -> forall i, update_para info s r para i = para i) /\
  (info = 0 ->
   (forall k, 0 <= k < nSmat s -> component (update_para info s r para) (smatToParaIdx s k) = (component para (smatToParaIdx s k) + r k)%R) /\
   (forall p, (forall k, 0 <= k < nSmat s -> smatToParaIdx s k <> p) -> component (update_para info s r para) p = component para p)).
Proof.
  intros Hn Inc. split.
  - intros Hi i. unfold update_para. destruct (Z.eqb_spec info 0); [contradiction|reflexivity].
  - intros ->. split.
    + intros k Hk. rewrite update_component by assumption. f_equal.
      rewrite (rsum_ext _ _ (fun si => if Z.eqb si k then r si else 0)%R).
      * apply rsum_delta; [apply zrange_NoDup|]. now apply zrange_in.
      * intros j Hj. apply zrange_in in Hj. destruct (Z.eqb_spec j k) as [->|].
        -- now rewrite Z.eqb_refl.
        -- destruct (Z.eqb_spec (smatToParaIdx s k) (smatToParaIdx s j)) as [E|]; [|reflexivity].
           destruct (Z.lt_total j k) as [l|[l|l]]; [|contradiction|].
           ++ pose proof (Inc j k ltac:(lia) ltac:(lia)). lia.
           ++ pose proof (Inc k j ltac:(lia) ltac:(lia)). lia.
    + intros p Hp. rewrite update_component by assumption. rewrite rsum_zero; [ring|]. intros j Hj. apply zrange_in in Hj.
      destruct (Z.eqb_spec p (smatToParaIdx s j)) as [E|]; [|reflexivity]. exfalso. now apply (Hp j Hj).
Qed.

(** ** the optimisation history *)
Lemma store_opt_get NPara smp o data j : 0 <= NPara ->
  store_opt NPara smp o data j =
  let b := (2 + NPara) * smp in
  if j =? b then oE o else if j =? b + 1 then oE2 o
  else if (b + 2 <=? j) && (j <? b + 2 + NPara) then oPara o (j - b - 2) else data j.
Proof.
  intros HN. cbn zeta. unfold store_opt. set (b := (2 + NPara) * smp).
  apply (loop_inv (fun k d => d j = if j =? b then oE o else if j =? b + 1 then oE2 o
    else if (b + 2 <=? j) && (j <? b + 2 + k) then oPara o (j - b - 2) else data j)); [lia| |].
  - rewrite !upd_get. replace (b + 0) with b by ring. destruct (Z.eqb_spec j b), (Z.eqb_spec j (b + 1)); try lia; try reflexivity.
    destruct (Z.leb_spec (b + 2) j), (Z.ltb_spec j (b + 2 + 0)); try lia; reflexivity.
  - intros k d Hk IH. rewrite upd_get. destruct (Z.eqb_spec j (b + (k + 2))) as [->|].
    + destruct (Z.eqb_spec (b + (k + 2)) b); [lia|]. destruct (Z.eqb_spec (b + (k + 2)) (b + 1)); [lia|].
      destruct (Z.leb_spec (b + 2) (b + (k + 2))), (Z.ltb_spec (b + (k + 2)) (b + 2 + (k + 1))); try lia. cbn [andb]. f_equal. lia.
    + rewrite IH. destruct (Z.eqb_spec j b); [reflexivity|]. destruct (Z.eqb_spec j (b + 1)); [reflexivity|].
      destruct (Z.leb_spec (b + 2) j), (Z.ltb_spec j (b + 2 + k)), (Z.ltb_spec j (b + 2 + (k + 1))); try lia; reflexivity.
Qed.
Lemma store_opt_slot NPara s o data : 0 <= NPara -> slot_holds NPara s o (store_opt NPara s o data).
Proof.
  intros HN. unfold slot_holds. split; [|split]; [| |intros i Hi]; rewrite store_opt_get by assumption; cbn zeta; set (b := (2 + NPara) * s).
  - now rewrite Z.eqb_refl.
  - destruct (Z.eqb_spec (b + 1) b); [lia|]. now rewrite Z.eqb_refl.
  - destruct (Z.eqb_spec (b + 2 + i) b); [lia|]. destruct (Z.eqb_spec (b + 2 + i) (b + 1)); [lia|].
    destruct (Z.leb_spec (b + 2) (b + 2 + i)), (Z.ltb_spec (b + 2 + i) (b + 2 + NPara)); try lia. cbn [andb]. f_equal. lia.
Qed.
Lemma store_opt_other NPara s o data j : 0 <= NPara -> ~ ((2 + NPara) * s <= j < (2 + NPara) * (s + 1)) -> store_opt NPara s o data j = data j.
Proof.
  intros HN Hj. rewrite store_opt_get by assumption. cbn zeta. replace ((2 + NPara) * (s + 1)) with ((2 + NPara) * s + 2 + NPara) in Hj by ring.
  set (b := (2 + NPara) * s) in *.
  destruct (Z.eqb_spec j b); [lia|]. destruct (Z.eqb_spec j (b + 1)); [lia|]. destruct (Z.leb_spec (b + 2) j), (Z.ltb_spec j (b + 2 + NPara)); try lia; reflexivity.
Qed.
Lemma slot_other NPara s s' o o' data : 0 <= NPara -> s <> s' -> slot_holds NPara s o data -> slot_holds NPara s o (store_opt NPara s' o' data).
Proof. intros HN Hs (A & B & D). unfold slot_holds. rewrite !store_opt_other by nia. split; [exact A|]. split; [exact B|]. intros i Hi. rewrite store_opt_other by nia. now apply D. Qed.

Lemma opt_steps_run NPara itr smp step m : forall k o data res, 0 <= NPara -> 0 <= smp <= itr -> 0 <= k ->
  opt_steps NPara itr smp step (zrange k (k + Z.of_nat m)) o data = Some res ->
  exists run, run k = o /\ run (k + Z.of_nat m) = fst res /\
   (forall j, k <= j < k + Z.of_nat m -> step j (run j) = Some (run (j + 1))) /\
   (forall j, k <= j < k + Z.of_nat m -> itr - smp <= j -> slot_holds NPara (j - (itr - smp)) (run (j + 1)) (snd res)) /\
   (forall x, (forall j, k <= j < k + Z.of_nat m -> itr - smp <= j -> ~ ((2 + NPara) * (j - (itr - smp)) <= x < (2 + NPara) * (j - (itr - smp) + 1))) -> snd res x = data x).
Proof.
  induction m as [|m IH]; intros k o data res HN Hi Hk E.
  - rewrite zrange_nil in E by lia. cbn [opt_steps] in E. injection E as <-. exists (fun _ => o). repeat split; intros; lia.
  - rewrite zrange_cons in E by lia. cbn [opt_steps] in E. destruct (step k o) as [o1|] eqn:S1; [|discriminate].
    replace (k + Z.of_nat (Datatypes.S m)) with (k + 1 + Z.of_nat m) in * by lia.
    apply IH in E; try assumption; [|lia]. destruct E as (run & R0 & R1 & R2 & R3 & R4).
    exists (fun j => if j =? k then o else run j). split; [now rewrite Z.eqb_refl|]. split. { destruct (Z.eqb_spec (k + 1 + Z.of_nat m) k); [lia|exact R1]. }
    split. { intros j Hj. destruct (Z.eqb_spec (j + 1) k); [lia|]. destruct (Z.eqb_spec j k) as [->|]; [now rewrite R0|]. apply R2. lia. }
    split. { intros j Hj Hs. destruct (Z.eqb_spec (j + 1) k); [lia|]. destruct (Z.eq_dec j k) as [->|].
      - unfold slot_holds. rewrite R0.
        assert (T : forall x, (2 + NPara) * (k - (itr - smp)) <= x < (2 + NPara) * (k - (itr - smp) + 1) -> snd res x = store_opt NPara (k - (itr - smp)) o1 data x).
        { intros x Hx. rewrite R4.
          - destruct (Z.leb_spec (itr - smp) k); [reflexivity|lia].
          - intros j Hj' Hs'. nia. }
        destruct (store_opt_slot NPara (k - (itr - smp)) o1 data HN) as (A & B & D).
        rewrite !T by lia. split; [exact A|]. split; [exact B|]. intros i Hi'. rewrite T by lia. now apply D.
      - apply R3; lia. }
    intros x Hx. rewrite R4 by (intros; apply Hx; lia). destruct (Z.leb_spec (itr - smp) k); [|reflexivity].
    apply store_opt_other; [exact HN|]. apply Hx; lia.
Qed.
Lemma para_opt_run NPara itr smp step o data res : 0 <= NPara -> 0 <= smp <= itr ->
  para_opt NPara itr smp step o data = Some res ->
  exists run, run 0 = o /\ run itr = fst res /\ (forall j, 0 <= j < itr -> step j (run j) = Some (run (j + 1))) /\
  (forall s, 0 <= s < smp -> slot_holds NPara s (run (itr - smp + s + 1)) (snd res)) /\
  (forall x, ~ (0 <= x < (2 + NPara) * smp) -> snd res x = data x).
Proof.
  intros HN Hs E. unfold para_opt in E. replace (zrange 0 itr) with (zrange 0 (0 + Z.of_nat (Z.to_nat itr))) in E by (f_equal; lia).
  apply opt_steps_run in E; [|lia..]. replace (0 + Z.of_nat (Z.to_nat itr)) with itr in E by lia.
  destruct E as (run & R0 & R1 & R2 & R3 & R4). exists run. repeat split; try assumption; try reflexivity.
  - specialize (R3 (itr - smp + s) ltac:(lia) ltac:(lia)). replace (itr - smp + s - (itr - smp)) with s in R3 by ring. apply R3.
  - specialize (R3 (itr - smp + s) ltac:(lia) ltac:(lia)). replace (itr - smp + s - (itr - smp)) with s in R3 by ring. apply R3.
  - specialize (R3 (itr - smp + s) ltac:(lia) ltac:(lia)). replace (itr - smp + s - (itr - smp)) with s in R3 by ring. apply R3.
  - intros x Hx. apply R4. intros j Hj Hs'. nia.
Qed.
Lemma calc_ave_var_spec K i n data : 0 <= K ->
  fst (calc_ave_var K i n data) = Cdiv (csum (zrange 0 K) (fun s => data (i + n * s))) (RtoC (IZR K)) /\
  snd (calc_ave_var K i n data) = sqrt (rsum (zrange 0 K) (fun s => Rsqr (Cmod (Cminus (data (i + n * s)%Z) (fst (calc_ave_var K i n data))))) / (IZR K - 1)).
Proof.
  intros HK.
  assert (L : forall d, loop 0 K (fun s a => Cplus a (d s)) (RtoC 0) = csum (zrange 0 K) d).
  { intros d. apply (loop_inv (fun k a => a = csum (zrange 0 k) d)); [lia| |].
    - rewrite zrange_nil by lia. reflexivity.
    - intros k a Hk ->. rewrite zrange_snoc by lia. now rewrite csum_snoc. }
  assert (L' : forall d, loop 0 K (fun s a => (a + d s)%R) 0%R = rsum (zrange 0 K) d).
  { intros d. apply (loop_inv (fun k a => a = rsum (zrange 0 k) d)); [lia| |].
    - rewrite zrange_nil by lia. reflexivity.
    - intros k a Hk ->. rewrite zrange_snoc by lia. now rewrite rsum_snoc. }
  unfold calc_ave_var. cbn [fst snd]. rewrite (L (fun s => data (i + n * s))). split; [reflexivity|]. f_equal. f_equal.
  rewrite (L' (fun s => let d := Cminus (data (i + n * s)) _ in fst (Cmult d (Cconj d)))). apply rsum_ext. intros s _. cbn zeta.
  set (d := Cminus _ _). destruct d as (x, y). unfold Cmod, Cmult, Cconj. cbn [fst snd].
  rewrite Rsqr_sqrt by nra. ring.
Qed.
