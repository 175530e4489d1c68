(** C79: the additional transformations are those of the file *)
From Coq Require Import ZArith List Bool Lia Reals Lra.
From Coquelicot Require Import Complex.
From Verif Require Import Base.ZLoop Base.Checked Sym.Model Sym.Spec Otr.Model Otr.Spec Otr.Proofs.
Import ListNotations.
Local Open Scope Z_scope.

(** images, signs and weights are those of the lines, the parameters start from the weights, and exactly the flags f .. f+n-1 are set *)
Theorem C79_file flag ap N n nf f ws rows m a : 0 < flag -> 0 <= f -> f + n <= nf -> factors_ok n ws -> table_ok ap n N rows ->
  exists m', get_opt_trans flag ap N n nf f ws rows m = Some (0, m') /\ oCount m' = oCount m + n /\
  (forall w, In w ws -> oPara m' (fst w) = snd w /\ init_opt n (oPara m') a (fst w) = RtoC (snd w)) /\
  (forall r, In r rows -> oTrans m' (rtr r) (rsite r) = rimage r /\ oSgn m' (rtr r) (rsite r) = sign_of ap r) /\
  (forall k, oFlag m' k = if (f <=? k) && (k <? f + n) then 1 else oFlag m k).
Proof. exact (opt_read flag ap N n nf f ws rows m a). Qed.
Print Assumptions C79_file.

(** a complete table leaves nothing of what the memory held before, and every image is a site *)
Theorem C79_determined flag ap N n nf f ws rows m1 m2 : 0 < flag -> 0 <= f -> f + n <= nf -> factors_ok n ws -> table_ok ap n N rows -> complete_table n N rows ->
  exists r1 r2, get_opt_trans flag ap N n nf f ws rows m1 = Some (0, r1) /\ get_opt_trans flag ap N n nf f ws rows m2 = Some (0, r2) /\
  (forall i j, site n i -> site N j -> oTrans r1 i j = oTrans r2 i j /\ oSgn r1 i j = oSgn r2 i j /\ site N (oTrans r1 i j)).
Proof. exact (opt_determined flag ap N n nf f ws rows m1 m2). Qed.
Print Assumptions C79_determined.

(** but the lines are never counted: a file with weights and no table is accepted, and the images are what the memory held *)
Theorem C79_missing_refuted N n f ws m : 0 < N -> 0 < n -> 0 <= f -> factors_ok n ws -> ~ complete_table n N [] /\
  exists m', get_opt_trans 1 true N n (f + n) f ws [] m = Some (0, m') /\ forall i j, oTrans m' i j = oTrans m i j.
Proof. exact (missing_refuted N n f ws m). Qed.
Print Assumptions C79_missing_refuted.

(** an image outside the lattice is accepted; the pair function is later read there *)
Theorem C79_outside_refuted : exists N n ws rows m', factors_ok n ws /\ complete_table n N rows /\ NoDup (map (fun r => (rtr r, rsite r)) rows) /\ get_opt_trans 1 true N n 4 2 ws rows blank = Some (0, m') /\
  exists i j, site n i /\ site N j /\ ~ site N (oTrans m' i j).
Proof. exact outside_refuted. Qed.
Print Assumptions C79_outside_refuted.

(** a second line for the same entry is accepted and replaces the first *)
Theorem C79_twice_refuted : exists N n ws rows m', factors_ok n ws /\ (forall r, In r rows -> row_ok n N r) /\ complete_table n N rows /\ get_opt_trans 1 true N n 4 2 ws rows blank = Some (0, m') /\
  exists r, In r rows /\ oTrans m' (rtr r) (rsite r) <> rimage r.
Proof. exact twice_refuted. Qed.
Print Assumptions C79_twice_refuted.

(** two transformations of two sites, the exchange with a sign, weights 1 and -1/2 in reversed order *)
Example C79_case : let ws := [(1, (-1 / 2)%R); (0, 1%R)] in let rows := [Row 0 0 0 (Some 1); Row 0 1 1 (Some 1); Row 1 0 1 (Some 1); Row 1 1 0 (Some (-1))] in
  factors_ok 2 ws /\ table_ok true 2 2 rows /\ complete_table 2 2 rows /\
  exists m', get_opt_trans 1 true 2 2 12 4 ws rows blank = Some (0, m') /\ oTrans m' 1 0 = 1 /\ oSgn m' 1 1 = -1 /\ oPara m' 1 = (-1 / 2)%R /\ oFlag m' 4 = 1 /\ oFlag m' 5 = 1 /\ oFlag m' 6 = 0.
Proof.
  cbv zeta. split; [|split; [|split]].
  - split; [reflexivity|]. split; [intros w [<-|[<-|[]]]; unfold site; cbn; lia|]. cbn. constructor; [intros [E|[]]; discriminate|]. constructor; [intros []|constructor].
  - split; [intros r [<-|[<-|[<-|[<-|[]]]]]; (split; [unfold row_ok, site; cbn; lia|discriminate])|]. cbn. repeat (constructor; [cbn; intuition discriminate|]). constructor.
  - intros i j Hi Hj. unfold site in *. assert (i = 0 \/ i = 1) as [-> | ->] by lia; assert (j = 0 \/ j = 1) as [-> | ->] by lia;
      [exists (Row 0 0 0 (Some 1))|exists (Row 0 1 1 (Some 1))|exists (Row 1 0 1 (Some 1))|exists (Row 1 1 0 (Some (-1)))]; cbn; (split; [tauto|split; reflexivity]).
  - eexists. split; [reflexivity|]. repeat split.
Qed.
