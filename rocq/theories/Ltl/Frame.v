(** Which cells the routines touch, and the call sequence of matrix.c. *)
From Coq Require Import ZArith List Bool Lia Lra Reals.
From Coquelicot Require Import Complex.
From Verif Require Import Base.ZLoop Base.Checked Base.RSum Pf.Pfaffian Pf.Spec Pf.ProofsTwo Ltl.Model Ltl.Spec Ltl.Pfa Ltl.Arr Ltl.Solve Ltl.Proofs.
Import ListNotations.
Local Open Scope Z_scope.

Definition cell (n ld p : Z) : Prop := exists i j, 0 <= i < n /\ 0 <= j < n /\ p = i + j * ld.
Definition keeps (n ld : Z) (A B : Z -> C) : Prop := forall p, ~ cell n ld p -> B p = A p.
Section Keeps.
Variables (n ld : Z).
Notation keep := (keeps n ld).
Lemma keep_refl A : keep A A. Proof. easy. Qed.
Lemma keep_trans A B D : keep A B -> keep B D -> keep A D. Proof. intros H1 H2 p Hp. now rewrite H2, H1. Qed.
Lemma keep_upd A B p v : cell n ld p -> keep A B -> keep A (upd B p v).
Proof. intros Hc H q Hq. unfold upd. destruct (Z.eqb_spec q p) as [->|]; [tauto|now apply H]. Qed.
Lemma keep_put A B i j v : 0 <= i < n -> 0 <= j < n -> keep A B -> keep A (put B ld i j v).
Proof. intros Hi Hj. apply keep_upd. now exists i, j. Qed.
Lemma keep_loop A lo hi f B : keep A B -> (forall i D, lo <= i < hi -> keep A D -> keep A (f i D)) -> keep A (loop lo hi f B).
Proof. intros H0 Hs. destruct (Z_le_gt_dec lo hi); [|now rewrite loop_nil by lia]. apply (loop_inv (fun _ D => keep A D)); [assumption|exact H0|]. intros i D Hi HD. now apply Hs. Qed.
Lemma keep_loopM A lo hi f B D : loopM lo hi f B = Some D -> keep A B -> (forall i X Y, lo <= i < hi -> keep A X -> f i X = Some Y -> keep A Y) -> keep A D.
Proof.
  intros E H0 Hs. destruct (Z_le_gt_dec lo hi) as [Hle|Hgt]; [|rewrite loopM_nil in E by lia; injection E as <-; exact H0].
  revert D E. replace hi with (lo + Z.of_nat (Z.to_nat (hi - lo))) by lia. assert (Hm : (Z.to_nat (hi - lo) <= Z.to_nat (hi - lo))%nat) by lia. revert Hm. generalize (Z.to_nat (hi - lo)) at 1 3. intros m. induction m as [|m IH]; intros Hm D E.
  - rewrite loopM_nil in E by lia. injection E as <-. exact H0.
  - replace (lo + Z.of_nat (S m)) with (lo + Z.of_nat m + 1) in E by lia. rewrite loopM_last in E by lia. destruct (loopM lo (lo + Z.of_nat m) f B) as [X|] eqn:EX; [|discriminate]. cbn [bind] in E. apply (Hs (lo + Z.of_nat m) X D); [lia|now apply IH; [lia|]|exact E].
Qed.
Lemma keep_swap A B x ix y iy : keep A B -> (forall k, 0 <= k < n -> cell n ld (x + k * ix) /\ cell n ld (y + k * iy)) -> keep A (swap n x ix y iy B).
Proof. intros H Hc. unfold swap. apply keep_loop; [exact H|]. intros k D Hk HD. cbv zeta. destruct (Hc k Hk). apply keep_upd; [assumption|]. now apply keep_upd. Qed.
Lemma keep_trmm A B upper m q X a ldX b rb cb : b = rb + cb * ld -> 0 <= rb -> 0 <= cb -> rb + m <= n -> cb + q <= n -> keep A B -> keep A (trmm upper m q X a ldX B b ld).
Proof.
  intros -> Hr Hc Hm Hq H. unfold trmm. apply keep_loop; [exact H|]. intros j D Hj HD. apply keep_loop; [exact HD|]. intros i E Hi HE. apply keep_upd; [|exact HE]. exists (rb + i), (cb + j). repeat split; lia.
Qed.
Lemma keep_trmmt A B upper np X ldX : 1 <= np -> 0 <= n -> keep A B -> keep A (trmmt upper np n X ldX B ld).
Proof.
  intros Hnp Hn H. unfold trmmt. apply keep_loop; [exact H|]. intros p D Hp HD. cbv zeta. set (j := p * np). set (nloc := Z.min np (n - j)).
  assert (Hj : 0 <= j < n). { assert (((n + np - 1) / np - 1) * np <= n - 1). { assert (Q := Z.mul_div_le (n + np - 1) np ltac:(lia)). lia. } unfold j. split; [nia|]. nia. }
  assert (Hnl : 1 <= nloc <= n - j) by (unfold nloc; lia).
  destruct upper; [apply (keep_trmm _ _ _ _ _ _ _ _ _ 0 j)|apply (keep_trmm _ _ _ _ _ _ _ _ _ j j)]; try lia; exact HD.
Qed.
Lemma keep_mirror A B upper : keep A B -> keep A (mirror upper n ld B).
Proof.
  intros H. unfold mirror. apply keep_loop; [exact H|]. intros j D Hj HD. apply keep_loop; [now apply keep_put|]. intros i E Hi HE. apply keep_put; [destruct upper; lia|lia|exact HE].
Qed.
Lemma keep_row A X Y row (g : Z -> (Z -> C) -> C) d : 0 <= row < n -> loopM 0 n (fun j X => bind (quotient (g j X) d) (fun v => Some (put X ld row j v))) X = Some Y -> keep A X -> keep A Y.
Proof.
  intros Hrow E H. apply (keep_loopM A _ _ _ _ _ E H). intros j U W Hj HU EW. cbv beta in EW. destruct (quotient (g j U) d) as [v|]; [|discriminate]. injection EW as <-. now apply keep_put.
Qed.
Lemma keep_sktdsmx A vT B ldB X Y m : n = 2 * m -> 1 <= m -> sktdsmx n vT B ldB X ld = Some Y -> keep A X -> keep A Y.
Proof.
  intros Hm Hm1 E H. unfold sktdsmx in E. assert (Hh : (n - 1) / 2 = m - 1) by (replace (n - 1) with (1 + (m - 1) * 2) by lia; rewrite Z.div_add by lia; cbn; lia). rewrite Hh in E.
  destruct (loopM 0 n _ X) as [X1|] eqn:E1; [|discriminate]. cbn [bind] in E. apply (keep_row A X X1 1 (fun j _ => at_ B ldB 0 j)) in E1; [|lia|exact H].
  destruct (loopM 0 (m - 1) _ X1) as [X2|] eqn:E2; [|discriminate]. cbn [bind] in E. apply (keep_loopM A) in E2; [|exact E1|].
  2:{ intros k U W Hk HU EW. cbv zeta beta in EW. refine (keep_row A U W (2 * (k + 1) + 1) (fun j X => Cminus (at_ B ldB (2 * (k + 1)) j) (Cmult (at_ X ld (2 * (k + 1) - 1) j) (vT (2 * (k + 1) - 1)))) _ _ EW HU). lia. }
  destruct (loopM 0 n _ X2) as [X3|] eqn:E3; [|discriminate]. cbn [bind] in E. apply (keep_row A X2 X3 (n - 2) (fun j _ => at_ B ldB (n - 1) j)) in E3; [|lia|exact E2].
  apply (keep_loopM A) in E; [exact E|exact E3|].
  intros k U W Hk HU EW. cbv zeta beta in EW. refine (keep_row A U W (n - 3 - 2 * k - 1) (fun j X => Cplus (at_ B ldB (n - 3 - 2 * k) j) (Cmult (at_ X ld (n - 3 - 2 * k + 1) j) (vT (n - 3 - 2 * k)))) _ _ EW HU). lia.
Qed.
End Keeps.
Section Routines.
Variables (trtri : bool -> Z -> Z -> (Z -> C) -> Z -> C) (npanel : Z).
Hypothesis Htr : inverts trtri.
Lemma keep_shifted upper n ld A : 1 <= n -> n <= ld -> keeps n ld A (shifted trtri upper n A ld).
Proof.
  intros Hn Hld p Hp. unfold shifted, from. destruct upper.
  - destruct (Htr true (n - 1) ld (fun k => A (ld + k)) ltac:(lia) ltac:(lia)) as (_ & K). rewrite K; [f_equal; lia|]. intros i j Hi Hj Hij E. apply Hp. exists i, (j + 1). repeat split; lia.
  - destruct (Htr false (n - 1) ld (fun k => A (1 + k)) ltac:(lia) ltac:(lia)) as (_ & K). rewrite K; [f_equal; lia|]. intros i j Hi Hj Hij E. apply Hp. exists (i + 1), j. repeat split; lia.
Qed.
Theorem inverse_frame (upper : bool) n R ld piv M ldM Y : Z.Even n -> 2 <= n -> n <= ld -> (forall j, 0 <= j < n -> 1 <= piv j <= n) ->
  inverse_of trtri npanel upper n R ld piv M ldM = Some Y -> keeps n ld R Y.
Proof.
  intros (m & Hm) Hn Hld Hp. rewrite inverse_steps. cbv zeta. set (A1 := shifted trtri upper n R ld). intros E. destruct (sktdsmx n _ _ ldM A1 ld) as [X|] eqn:EX; [|discriminate]. cbn [bind] in E. injection E as <-.
  apply (keep_sktdsmx n ld R _ _ _ _ _ m) in EX; [|lia|lia|apply keep_shifted; lia].
  unfold finish. cbv zeta. set (full := (npanel <=? 1) || (n <=? npanel)).
  apply keep_loop.
  - assert (K : forall B, keeps n ld R B -> keeps n ld R (if full then trmm upper n n (copied upper n A1 ld (unit_matrix n M ldM) ldM) 0 ldM B 0 ld else B)).
    { intros B HB. destruct full; [|exact HB]. apply (keep_trmm n ld _ _ _ _ _ _ _ _ _ 0 0); try lia. exact HB. }
    apply K. apply keep_loop.
    + destruct full eqn:Ef; [exact EX|]. unfold full in Ef. apply orb_false_iff in Ef. destruct Ef as (E1 & _). apply Z.leb_gt in E1. apply keep_mirror. apply keep_trmmt; [lia|lia|exact EX].
    + intros k D Hk HD. cbv zeta. set (j := if upper then k else n - 1 - k). assert (Hj : 0 <= j < n) by (unfold j; destruct upper; lia). assert (P := Hp j Hj). destruct (negb _); [|exact HD]. apply keep_swap; [exact HD|]. intros q Hq. split; [exists q, j|exists q, (piv j - 1)]; repeat split; lia.
  - intros k D Hk HD. cbv zeta. set (j := if upper then k else n - 1 - k). assert (Hj : 0 <= j < n) by (unfold j; destruct upper; lia). assert (P := Hp j Hj). destruct (negb _); [|exact HD]. apply keep_swap; [exact HD|]. intros q Hq. split; [exists j, q|exists (piv j - 1), q]; repeat split; lia.
Qed.
Theorem inverse_when (upper : bool) n A R ldA piv M ldM : Z.Even n -> 0 <= n -> n <= ldA -> n <= ldM -> factorised upper n A R ldA piv -> pf A (zrange 0 n) <> RtoC 0 ->
  exists Y, inverse_of trtri npanel upper n R ldA piv M ldM = Some Y /\ is_inverse n (at_ Y ldA) A.
Proof.
  intros He Hn HA HM Hf Hpf. apply inverse_ok; try assumption. intros k Hk E. apply Hpf. rewrite <- (pfaffian_is upper n A R ldA piv) by assumption. apply pfaffian_zero; [assumption..|]. now exists k.
Qed.
Theorem singular_iff (upper : bool) n A R ldA piv M ldM : Z.Even n -> 0 <= n -> n <= ldA -> n <= ldM -> factorised upper n A R ldA piv ->
  (inverse_of trtri npanel upper n R ldA piv M ldM = None <-> pf A (zrange 0 n) = RtoC 0).
Proof.
  intros He Hn HA HM Hf. split.
  - intros E. destruct (Ceq_dec (pf A (zrange 0 n)) (RtoC 0)) as [|N]; [assumption|]. destruct (inverse_when upper n A R ldA piv M ldM He Hn HA HM Hf N) as (Y & EY & _). congruence.
  - intros E. rewrite <- (pfaffian_is upper n A R ldA piv He Hn Hf) in E. apply pfaffian_zero in E; [|assumption..]. destruct E as (k & Hk & Ek). now apply (inverse_fails trtri npanel Htr upper n R ldA piv M ldM k).
Qed.
(** the sequence of calls as the oracle of the tables *)
Variable sktrf : Z -> (Z -> C) -> option ((Z -> C) * (Z -> Z)).
Hypothesis Hsk : factorises sktrf.
Definition computed (bufM : Z -> C) (n : Z) (invM : Z -> C) : option (C * (Z -> C)) :=
  if Z.even n then pfaffian_and_inverse trtri npanel sktrf bufM n invM else None.
Theorem computed_correct bufM : oracle_correct (computed bufM).
Proof.
  intros n buf pfaff inv Hn E A Hskew. unfold computed in E. destruct (Z.even n) eqn:Ev; [|discriminate]. apply Z.even_spec in Ev. unfold pfaffian_and_inverse in E.
  destruct (sktrf n buf) as [[R piv]|] eqn:Es; [|discriminate]. cbn [bind] in E. destruct (utu2inv trtri npanel n R n piv bufM n) as [Y|] eqn:EY; [|discriminate]. cbn [bind] in E. injection E as <- <-.
  assert (Hf : factorised true n A R n piv) by (apply (Hsk n buf R piv Hn); [exact Hskew|exact Es]).
  assert (Hpf := pfaffian_is true n A R n piv Ev Hn Hf). split; [exact Hpf|].
  assert (N : pf A (zrange 0 n) <> RtoC 0). { intros Z0. apply (singular_iff true n A R n piv bufM n Ev Hn (Z.le_refl n) (Z.le_refl n) Hf) in Z0. unfold inverse_of in Z0. congruence. }
  destruct (inverse_when true n A R n piv bufM n Ev Hn (Z.le_refl n) (Z.le_refl n) Hf N) as (Y' & EY' & HI). unfold inverse_of in EY'. rewrite EY in EY'. injection EY' as <-. exact HI.
Qed.
End Routines.
From Verif Require Import Pf.Model.
Lemma tables_of_calls trtri npanel sktrf bufM Nsite Ne Sl eleIdx qpStart q InvM PfM I P : inverts trtri -> factorises sktrf ->
  0 < Ne -> skew_table Nsite Sl (q + qpStart) -> on_lattice Nsite (2 * Ne) eleIdx ->
  calculate_mall_child Nsite Ne (2 * Ne) Sl (pfaffian_and_inverse trtri npanel sktrf bufM) eleIdx qpStart q InvM PfM = Some (I, P) ->
  P q = pf (pair_matrix Nsite Ne Sl (q + qpStart) eleIdx) (zrange 0 (2 * Ne)) /\
  is_inverse (2 * Ne) (stored (2 * Ne) I q) (pair_matrix Nsite Ne Sl (q + qpStart) eleIdx) /\
  forall q', q' <> q -> P q' = PfM q' /\ forall i j, 0 <= i < 2 * Ne -> 0 <= j < 2 * Ne -> stored (2 * Ne) I q' i j = stored (2 * Ne) InvM q' i j.
Proof.
  intros Ht Hs Hne Hsl Hlat E. apply (scratch Nsite Ne Hne Sl (computed trtri npanel sktrf bufM) eleIdx qpStart q InvM PfM I P (computed_correct trtri npanel Ht sktrf Hs bufM) Hsl Hlat).
  rewrite <- E. unfold calculate_mall_child, computed. cbv zeta. replace (Z.even (2 * Ne)) with true by (symmetry; apply Z.even_spec; now exists Ne). reflexivity.
Qed.
