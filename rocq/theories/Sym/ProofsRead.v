(** The reader delivers what the file states. *)
From Coq Require Import ZArith List Bool Lia Reals Lra Permutation.
From Coquelicot Require Import Complex.
From Verif Require Import Base.ZLoop Base.Checked Base.RSum Slater.Model Slater.Spec Green.Spec Grd.Spec Sym.Model Sym.Spec Sym.ProofsPf.
Import ListNotations.
Local Open Scope Z_scope.

Lemma within_true n k : site n k -> within n k = true.
Proof. intros []. unfold within. apply andb_true_intro. split; [apply Z.leb_le|apply Z.ltb_lt]; lia. Qed.
Lemma within_false n k : ~ site n k -> within n k = false.
Proof. intros H. unfold within. destruct (Z.leb_spec 0 k), (Z.ltb_spec k n); cbn; try reflexivity. elim H. split; lia. Qed.
Lemma upd2_same a i j v : upd2 a i j v i j = v. Proof. unfold upd2. now rewrite !Z.eqb_refl. Qed.
Lemma upd2_other a i j v x y : (x, y) <> (i, j) -> upd2 a i j v x y = a x y.
Proof. intros H. unfold upd2. destruct (Z.eqb_spec x i) as [->|], (Z.eqb_spec y j) as [->|]; cbn; try reflexivity. now elim H. Qed.

Lemma weights_read n ws : forall para, (forall w, In w ws -> site n (fst w)) -> NoDup (map fst ws) ->
  exists para', read_weights n ws para = Some para' /\ (forall w, In w ws -> para' (fst w) = snd w) /\ (forall k, ~ In k (map fst ws) -> para' k = para k).
Proof.
  unfold read_weights. induction ws as [|w ws IH]; intros para Hi Hn; cbn [fold_left].
  - exists para. split; [reflexivity|]. split; [intros w []|reflexivity].
  - cbn [bind]. rewrite within_true by (apply Hi; now left). inversion Hn as [|? ? Nw Nl]; subst. destruct (IH (upd para (fst w) (snd w))) as (p' & E & A & B); [intros; apply Hi; now right|exact Nl|].
    exists p'. split; [exact E|]. split.
    + intros v [->|Iv]; [|now apply A]. rewrite B by exact Nw. apply upd_same.
    + intros k Hk. cbn [map In] in Hk. rewrite B by tauto. apply upd_other. intros ->. tauto.
Qed.
Lemma rows_read ap n N rows : forall m s idx, table_ok ap n N rows ->
  exists m' s', fold_left (read_row n N) rows (Some (m, s, idx)) = Some (m', s', idx + Z.of_nat (length rows)) /\ mPara m' = mPara m /\
  (forall r, In r rows -> mTrans m' (rtr r) (rsite r) = rimage r /\ (ap = true -> mSgn m' (rtr r) (rsite r) = sign_of ap r)) /\
  (forall i j, ~ In (i, j) (map (fun r => (rtr r, rsite r)) rows) -> mTrans m' i j = mTrans m i j /\ mSgn m' i j = mSgn m i j).
Proof.
  induction rows as [|r rows IH]; intros m s idx (H & Hn); cbn [fold_left].
  - exists m, s. cbn [length]. rewrite Z.add_0_r. split; [reflexivity|]. split; [reflexivity|]. split; [intros ? []|auto].
  - cbn [map] in Hn. inversion Hn as [|? ? Nr Nl]; subst. destruct (H r (or_introl eq_refl)) as ((A & B & D) & Hs). unfold read_row at 2. cbn [bind]. rewrite !within_true by assumption. cbn [andb].
    set (s1 := match rsgn r with Some s => s | None => s end). set (m1 := Memory _ _ _ _).
    destruct (IH m1 s1 (idx + 1)) as (m' & s' & E & P & R1 & R2); [split; [intros; apply H; now right|exact Nl]|].
    exists m', s'. split; [rewrite E; do 2 f_equal; cbn [length]; lia|]. split; [exact P|]. split.
    + intros q [<-|Iq]; [|now apply R1]. destruct (R2 _ _ Nr) as (-> & ->). unfold m1. cbn [mTrans mSgn]. rewrite !upd2_same. split; [reflexivity|]. intros ->. unfold sign_of, s1. destruct (rsgn r); [reflexivity|]. now elim (Hs eq_refl).
    + intros i j Hij. cbn [map In] in Hij. destruct (R2 i j) as (-> & ->); [tauto|]. unfold m1. cbn [mTrans mSgn]. rewrite !upd2_other by (intros E'; apply Hij; left; now rewrite E'). split; reflexivity.
Qed.
Theorem file_read ap N n ws rows m : 0 < n -> weights_ok n ws -> table_ok ap n N rows ->
  exists info m', get_trans_sym ap N n ws rows m = Some (info, m') /\ (info = 0 <-> Z.of_nat (length rows) = N * n) /\
  (forall w, In w ws -> mPara m' (fst w) = snd w) /\
  (forall r, In r rows -> mTrans m' (rtr r) (rsite r) = rimage r /\ mSgn m' (rtr r) (rsite r) = sign_of ap r).
Proof.
  intros Hn (W1 & W2 & W3) HT. unfold get_trans_sym. destruct (Z.ltb_spec 0 n); [|lia]. rewrite W1, Z.eqb_refl. destruct (weights_read n ws (mPara m) W2 W3) as (para & E & P & _). rewrite E. cbn [bind].
  destruct (rows_read ap n N rows (Memory (mTrans m) (mSgn m) (mInv m) para) 0 0 HT) as (m' & s' & E' & Q & R & _). rewrite E'. cbn [bind]. rewrite Z.add_0_l.
  eexists _, _. split; [reflexivity|]. cbn [mPara mTrans mSgn] in *. split; [destruct (Z.eqb_spec (Z.of_nat (length rows)) (N * n)); split; intros; try reflexivity; try lia; congruence|].
  split; [intros w Hw; rewrite Q; now apply P|]. intros r Hr. destruct (R r Hr) as (R1 & R2). split; [exact R1|]. destruct (proj1 HT r Hr) as ((A & B & _) & _). destruct ap; [now apply R2|]. now rewrite !within_true.
Qed.
(** an accepted table without repetitions names every entry *)
Theorem file_complete ap N n rows : 0 <= N -> 0 <= n -> table_ok ap n N rows -> Z.of_nat (length rows) = N * n -> forall i j, site n i -> site N j -> exists r, In r rows /\ rtr r = i /\ rsite r = j.
Proof.
  intros HN Hn (H & ND) HL i j Hi Hj.
  assert (I : In (i, j) (map (fun r => (rtr r, rsite r)) rows)).
  { apply (NoDup_length_incl ND (l' := list_prod (zrange 0 n) (zrange 0 N))).
    - rewrite prod_length, !zrange_length, map_length, !Z.sub_0_r. nia.
    - intros (a, b) Iab. apply in_map_iff in Iab. destruct Iab as (r & E & Ir). injection E as <- <-. destruct (H r Ir) as ((A & B & _) & _). apply in_prod; now apply in_zrange.
    - apply in_prod; now apply in_zrange. }
  apply in_map_iff in I. destruct I as (r & E & Ir). injection E as <- <-. exists r. auto.
Qed.
(** the default transform *)
Lemma default_opt N t s : let st := init_opt_trans N t s in forall r, site N r -> fst st 0 r = r /\ snd st 0 r = 1.
Proof.
  cbv zeta. unfold init_opt_trans. intros r [H0 H1]. 
  assert (A : forall b, r < b -> fst (loop 0 b (fun i st => (upd2 (fst st) 0 i i, upd2 (snd st) 0 i 1)) (t, s)) 0 r = r /\ snd (loop 0 b (fun i st => (upd2 (fst st) 0 i i, upd2 (snd st) 0 i 1)) (t, s)) 0 r = 1); [|now apply A].
  intros b Hb. replace b with (r + 1 + Z.of_nat (Z.to_nat (b - (r + 1)))) by lia. induction (Z.to_nat (b - (r + 1))) as [|k IH].
  - cbn [Z.of_nat]. rewrite Z.add_0_r, loop_last by lia. cbn [fst snd]. now rewrite !upd2_same.
  - replace (r + 1 + Z.of_nat (S k)) with (r + 1 + Z.of_nat k + 1) by lia. rewrite loop_last by lia. cbn [fst snd]. rewrite !upd2_other by (intros E; injection E; lia). exact IH.
Qed.
Lemma default_commutes V g : NQPOptTrans (vS V) = 1 -> permutes (sites V) (QPTrans (vQ V) g) -> (forall r, site (sites V) r -> QPOptTrans (vQ V) 0 r = r /\ QPOptTransSgn (vQ V) 0 r = 1) ->
  forall o r, site (NQPOptTrans (vS V)) o -> site (sites V) r -> QPOptTrans (vQ V) o (QPTrans (vQ V) g r) = QPTrans (vQ V) g (QPOptTrans (vQ V) o r) /\
    QPOptTransSgn (vQ V) o (QPTrans (vQ V) g r) * QPTransSgn (vQ V) g r = QPOptTransSgn (vQ V) o r * QPTransSgn (vQ V) g (QPOptTrans (vQ V) o r).
Proof.
  intros E Hp Hd o r Ho Hr. unfold site in Ho. rewrite E in Ho. replace o with 0 by lia. destruct (Hd r Hr) as (-> & ->). destruct (Hd _ (proj1 Hp r Hr)) as (-> & ->). split; [reflexivity|ring].
Qed.
Lemma default_identity V g t s : NQPOptTrans (vS V) = 1 -> permutes (sites V) (QPTrans (vQ V) g) ->
  (forall r, QPOptTrans (vQ V) 0 r = fst (init_opt_trans (sites V) t s) 0 r /\ QPOptTransSgn (vQ V) 0 r = snd (init_opt_trans (sites V) t s) 0 r) ->
  forall o r, site (NQPOptTrans (vS V)) o -> site (sites V) r -> QPOptTrans (vQ V) o r = r /\ QPOptTransSgn (vQ V) o r = 1 /\
  QPOptTrans (vQ V) o (QPTrans (vQ V) g r) = QPTrans (vQ V) g (QPOptTrans (vQ V) o r) /\
  QPOptTransSgn (vQ V) o (QPTrans (vQ V) g r) * QPTransSgn (vQ V) g r = QPOptTransSgn (vQ V) o r * QPTransSgn (vQ V) g (QPOptTrans (vQ V) o r).
Proof.
  intros E Hp HQ o r Ho Hr. assert (A : forall r, site (sites V) r -> QPOptTrans (vQ V) 0 r = r /\ QPOptTransSgn (vQ V) 0 r = 1).
  { intros k Hk. destruct (HQ k) as (-> & ->). exact (default_opt (sites V) t s k Hk). }
  pose proof (default_commutes V g E Hp A o r Ho Hr) as (H1 & H2). assert (O : o = 0) by (unfold site in Ho; lia). pose proof (A r Hr) as (A1 & A2). rewrite O in *. repeat split; assumption.
Qed.
