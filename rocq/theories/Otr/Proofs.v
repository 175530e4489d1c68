(** The reader delivers what a complete file states, and accepts others. *)
From Coq Require Import ZArith List Bool Lia Reals Lra.
From Coquelicot Require Import Complex.
From Verif Require Import Base.ZLoop Base.Checked Sym.Model Sym.Spec Sym.ProofsRead Otr.Model Otr.Spec.
Import ListNotations.
Local Open Scope Z_scope.

Lemma factors_read n nf ws : forall m f, (forall w, In w ws -> site n (fst w)) -> NoDup (map fst ws) -> 0 <= f -> f + Z.of_nat (length ws) <= nf ->
  exists m', fold_left (read_weight n nf) ws (Some (m, f)) = Some (m', f + Z.of_nat (length ws)) /\ oTrans m' = oTrans m /\ oSgn m' = oSgn m /\ oCount m' = oCount m + Z.of_nat (length ws) /\
  (forall w, In w ws -> oPara m' (fst w) = snd w) /\ (forall k, ~ In k (map fst ws) -> oPara m' k = oPara m k) /\
  (forall k, oFlag m' k = if (f <=? k) && (k <? f + Z.of_nat (length ws)) then 1 else oFlag m k).
Proof.
  induction ws as [|w ws IH]; intros m f Hi Hn Hf Hs; cbn [fold_left].
  - exists m. cbn [length]. rewrite !Z.add_0_r. split; [reflexivity|]. split; [reflexivity|]. split; [reflexivity|]. split; [reflexivity|]. split; [intros w []|]. split; [reflexivity|].
    intros k. destruct (Z.leb_spec f k), (Z.ltb_spec k f); cbn [andb]; try reflexivity. lia.
  - cbn [length] in Hs. match goal with |- context [fold_left _ _ ?t] => let v := eval unfold read_weight in t in change t with v end. cbn [bind]. rewrite !within_true by (try (apply Hi; now left); unfold site; lia). cbn [andb]. inversion Hn as [|? ? Nw Nl]; subst.
    set (m1 := OMemory _ _ _ _ _). destruct (IH m1 (f + 1)) as (m' & E & T & SS & K & A & B & F); [intros; apply Hi; now right|exact Nl|lia|lia|].
    exists m'. split; [rewrite E; do 2 f_equal; cbn [length]; lia|]. split; [exact T|]. split; [exact SS|]. split; [rewrite K; unfold m1; cbn [oCount length]; lia|]. split; [|split].
    + intros v [->|Iv]; [|now apply A]. rewrite B by exact Nw. apply upd_same.
    + intros k Hk. cbn [map In] in Hk. rewrite B by tauto. apply upd_other. intros ->. tauto.
    + intros k. rewrite F. unfold m1. cbn [oFlag length]. rewrite upd_get.
      destruct (Z.leb_spec (f + 1) k), (Z.ltb_spec k (f + 1 + Z.of_nat (length ws))), (Z.leb_spec f k), (Z.ltb_spec k (f + Z.of_nat (S (length ws)))), (Z.eqb_spec k f); cbn [andb]; try reflexivity; lia.
Qed.
Lemma images_read ap n N rows : forall m s, table_ok ap n N rows ->
  exists m' s', fold_left (read_image n N) rows (Some (m, s)) = Some (m', s') /\ oPara m' = oPara m /\ oFlag m' = oFlag m /\ oCount m' = oCount m /\
  (forall r, In r rows -> oTrans m' (rtr r) (rsite r) = rimage r /\ (ap = true -> oSgn m' (rtr r) (rsite r) = sign_of ap r)) /\
  (forall i j, ~ In (i, j) (map (fun r => (rtr r, rsite r)) rows) -> oTrans m' i j = oTrans m i j /\ oSgn m' i j = oSgn m i j).
Proof.
  induction rows as [|r rows IH]; intros m s (H & Hn); cbn [fold_left].
  - exists m, s. do 4 (split; [reflexivity|]). split; [intros ? []|auto].
  - cbn [map] in Hn. inversion Hn as [|? ? Nr Nl]; subst. destruct (H r (or_introl eq_refl)) as ((A & B & D) & Hs). match goal with |- context [fold_left _ _ ?t] => let v := eval unfold read_image in t in change t with v end. cbn [bind]. rewrite !within_true by assumption. cbn [andb].
    set (s1 := match rsgn r with Some s => s | None => s end). set (m1 := OMemory _ _ _ _ _).
    destruct (IH m1 s1) as (m' & s' & E & P1 & P2 & P3 & R1 & R2); [split; [intros; apply H; now right|exact Nl]|].
    exists m', s'. split; [exact E|]. split; [exact P1|]. split; [exact P2|]. split; [exact P3|]. split.
    + intros q [<-|Iq]; [|now apply R1]. destruct (R2 _ _ Nr) as (-> & ->). unfold m1. cbn [oTrans oSgn]. rewrite !upd2_same. split; [reflexivity|]. intros ->. unfold sign_of, s1. destruct (rsgn r); [reflexivity|]. now elim (Hs eq_refl).
    + intros i j Hij. cbn [map In] in Hij. destruct (R2 i j) as (-> & ->); [tauto|]. unfold m1. cbn [oTrans oSgn]. rewrite !upd2_other by (intros E'; apply Hij; left; now rewrite E'). split; reflexivity.
Qed.
Lemma init_opt_get n para a : forall k, 0 <= k < n -> init_opt n para a k = RtoC (para k).
Proof.
  intros k Hk. unfold init_opt. replace n with (k + 1 + Z.of_nat (Z.to_nat (n - k - 1))) by lia. induction (Z.to_nat (n - k - 1)) as [|d IH].
  - cbn [Z.of_nat]. rewrite Z.add_0_r, loop_last by lia. apply upd_same.
  - replace (k + 1 + Z.of_nat (S d)) with (k + 1 + Z.of_nat d + 1) by lia. rewrite loop_last by lia. rewrite upd_other by lia. exact IH.
Qed.
Theorem opt_read flag ap N n nf f ws rows m a : 0 < flag -> 0 <= f -> f + n <= nf -> factors_ok n ws -> table_ok ap n N rows ->
  exists m', get_opt_trans flag ap N n nf f ws rows m = Some (0, m') /\ oCount m' = oCount m + n /\
  (forall w, In w ws -> oPara m' (fst w) = snd w /\ init_opt n (oPara m') a (fst w) = RtoC (snd w)) /\
  (forall r, In r rows -> oTrans m' (rtr r) (rsite r) = rimage r /\ oSgn m' (rtr r) (rsite r) = sign_of ap r) /\
  (forall k, oFlag m' k = if (f <=? k) && (k <? f + n) then 1 else oFlag m k).
Proof.
  intros Hflag Hf Hs (W1 & W2 & W3) HT. unfold get_opt_trans. destruct (Z.ltb_spec 0 flag); [|lia]. rewrite W1, Z.eqb_refl.
  destruct (factors_read n nf ws m f W2 W3 Hf) as (m1 & E & T & S & K & A & _ & F); [lia|]. rewrite E. cbn [bind].
  destruct (images_read ap n N rows m1 0 HT) as (m2 & s' & E' & P1 & P2 & P3 & R & _). rewrite E'. cbn [bind].
  eexists. split; [reflexivity|]. cbn [oCount oPara oTrans oSgn oFlag]. split; [rewrite P3, K; lia|]. split; [|split].
  - intros w Hw. rewrite P1. split; [now apply A|]. rewrite init_opt_get by (apply W2; exact Hw). now rewrite A.
  - intros r Hr. destruct (R r Hr) as (R1 & R2). split; [exact R1|]. destruct (proj1 HT r Hr) as ((Q1 & Q2 & _) & _). destruct ap; [now apply R2|]. now rewrite !within_true.
  - intros k. rewrite P2, F, W1. reflexivity.
Qed.
(** a complete table determines every entry that the program uses, whatever the memory held *)
Theorem opt_determined flag ap N n nf f ws rows m1 m2 : 0 < flag -> 0 <= f -> f + n <= nf -> factors_ok n ws -> table_ok ap n N rows -> complete_table n N rows ->
  exists r1 r2, get_opt_trans flag ap N n nf f ws rows m1 = Some (0, r1) /\ get_opt_trans flag ap N n nf f ws rows m2 = Some (0, r2) /\
  (forall i j, site n i -> site N j -> oTrans r1 i j = oTrans r2 i j /\ oSgn r1 i j = oSgn r2 i j /\ site N (oTrans r1 i j)).
Proof.
  intros Hflag Hf Hs HW HT HC. destruct (opt_read flag ap N n nf f ws rows m1 (fun _ => RtoC 0) Hflag Hf Hs HW HT) as (r1 & E1 & _ & _ & A1 & _). destruct (opt_read flag ap N n nf f ws rows m2 (fun _ => RtoC 0) Hflag Hf Hs HW HT) as (r2 & E2 & _ & _ & A2 & _).
  exists r1, r2. split; [exact E1|]. split; [exact E2|]. intros i j Hi Hj. destruct (HC i j Hi Hj) as (r & Ir & <- & <-). destruct (A1 r Ir) as (-> & ->). destruct (A2 r Ir) as (-> & ->). split; [reflexivity|]. split; [reflexivity|]. exact (proj2 (proj2 (proj1 (proj1 HT r Ir)))).
Qed.

(** ** files that should be refused *)
Definition blank : omemory := OMemory (fun _ _ => 99) (fun _ _ => 99) (fun _ => 0%R) (fun _ => 0) 0.
(** no table at all: the arrays keep what the memory held *)
Lemma missing_refuted N n f ws m : 0 < N -> 0 < n -> 0 <= f -> factors_ok n ws -> ~ complete_table n N [] /\
  exists m', get_opt_trans 1 true N n (f + n) f ws [] m = Some (0, m') /\ forall i j, oTrans m' i j = oTrans m i j.
Proof.
  intros HN Hn Hf HW. split.
  - intros H. destruct (H 0 0) as (r & [] & _); unfold site; lia.
  - destruct HW as (W1 & W2 & W3). unfold get_opt_trans. cbn [Z.ltb Z.compare]. rewrite W1, Z.eqb_refl. destruct (factors_read n (f + n) ws m f W2 W3 Hf) as (m1 & E & T & _); [lia|]. rewrite E. cbn [bind fold_left]. eexists. split; [reflexivity|]. cbn [oTrans]. now rewrite T.
Qed.
(** an image outside the lattice is stored *)
Lemma outside_refuted : exists N n ws rows m', factors_ok n ws /\ complete_table n N rows /\ NoDup (map (fun r => (rtr r, rsite r)) rows) /\ get_opt_trans 1 true N n 4 2 ws rows blank = Some (0, m') /\
  exists i j, site n i /\ site N j /\ ~ site N (oTrans m' i j).
Proof.
  exists 2, 1, [(0, 1%R)], [Row 0 0 5 (Some 1); Row 0 1 0 (Some 1)]. eexists. split; [|split; [|split; [|split; [reflexivity|]]]].
  - split; [reflexivity|]. split; [intros w [<-|[]]; unfold site; cbn; lia|repeat constructor; intros []].
  - intros i j Hi Hj. unfold site in *. assert (j = 0 \/ j = 1) as [-> | ->] by lia; [exists (Row 0 0 5 (Some 1))|exists (Row 0 1 0 (Some 1))]; cbn; (split; [auto|split; [lia|reflexivity]]).
  - cbn. constructor; [intros [E|[]]; discriminate|]. constructor; [intros []|constructor].
  - exists 0, 0. unfold site. split; [lia|]. split; [lia|]. cbn. unfold upd2. cbn. lia.
Qed.
(** of two lines for the same entry the last counts *)
Lemma twice_refuted : exists N n ws rows m', factors_ok n ws /\ (forall r, In r rows -> row_ok n N r) /\ complete_table n N rows /\ get_opt_trans 1 true N n 4 2 ws rows blank = Some (0, m') /\
  exists r, In r rows /\ oTrans m' (rtr r) (rsite r) <> rimage r.
Proof.
  exists 2, 1, [(0, 1%R)], [Row 0 0 0 (Some 1); Row 0 1 1 (Some 1); Row 0 0 1 (Some 1)]. eexists. split; [|split; [|split; [|split; [reflexivity|]]]].
  - split; [reflexivity|]. split; [intros w [<-|[]]; unfold site; cbn; lia|repeat constructor; intros []].
  - intros r [<-|[<-|[<-|[]]]]; unfold row_ok, site; cbn; lia.
  - intros i j Hi Hj. unfold site in *. assert (j = 0 \/ j = 1) as [-> | ->] by lia; [exists (Row 0 0 0 (Some 1))|exists (Row 0 1 1 (Some 1))]; cbn; (split; [auto|split; [lia|reflexivity]]).
  - exists (Row 0 0 0 (Some 1)). split; [now left|]. cbn. unfold upd2. cbn. discriminate.
Qed.
