From Coq Require Import ZArith List Bool Lia.
From Verif Require Import Chk.Model Chk.Spec.
Import ListNotations.
Local Open Scope Z_scope.

Lemma rem_even k : Z.rem k 2 = 0 <-> even k.
Proof.
  split.
  - intros H. exists (Z.quot k 2). pose proof (Z.quot_rem k 2). lia.
  - intros (h & ->). rewrite Z.mul_comm. apply Z.rem_mul. lia.
Qed.
Lemma quot_even k : even k -> 2 * Z.quot k 2 = k.
Proof. intros (h & ->). rewrite (Z.mul_comm 2 h). rewrite Z.quot_mul by lia. lia. Qed.
Ltac cases := repeat match goal with |- context [if ?b then _ else _] => match b with
  | ?x =? ?y => destruct (Z.eqb_spec x y) | ?x <? ?y => destruct (Z.ltb_spec x y) | negb (?x =? ?y) => destruct (Z.eqb_spec x y)
  | sGeneral ?s => destruct (sGeneral s) eqn:? | negb (sGeneral ?s) => destruct (sGeneral s) eqn:? | _ && _ => destruct b eqn:? end; cbn [negb] end.

Theorem accepts s : consistent s -> exists s', check_settings s = Some s' /\ 2 * sNe s' = electrons s' /\ electrons s' = electrons s.
Proof.
  intros [C1 C2 C3 C4].
  assert (EN : exists Ne, calc_ncond s = (0, Ne) /\ 2 * Ne = electrons s).
  { unfold calc_ncond, electrons in *. destruct (Z.eqb_spec (sNCond s) (-1)) as [E|E]; cbn [negb]; [exists (sNe s); auto|]. destruct (C1 E) as (A & B). apply rem_even in A. rewrite A. cbn. exists (Z.quot (sNLocSpin s + sNCond s) 2). split; [reflexivity|]. now apply quot_even. }
  destruct EN as (Ne & E & EN). unfold check_settings. rewrite E.
  assert (ES : check_spin s 0 = 0).
  { unfold check_spin. destruct (Z.eqb_spec (sTwoSz s) 0) as [Z0|Z0]; cbn [negb]; [reflexivity|]. destruct (C2 Z0) as (-> & [M|M]); cbn [negb]; [rewrite M, andb_false_r; reflexivity|]. apply rem_even in M. now rewrite M. }
  rewrite ES. assert (EG : exists g, check_general s 0 = (0, g)).
  { unfold check_general. destruct (sGeneral s) eqn:G; [|eauto]. destruct (1 <? sGauss s); [eauto|]. rewrite (C3 eq_refl). cbn. eauto. }
  destruct EG as (g & ->). assert (EL : check_locspn s Ne 0 = 0).
  { unfold check_locspn. destruct (Z.ltb_spec 0 (sNLocSpin s)) as [P|P]; [|reflexivity]. destruct (C4 P) as (A & B & D).
    destruct (Z.eqb_spec (sNLocSpin s) (2 * Ne)), (Z.eqb_spec (sPath s) 2), (Z.eqb_spec (sPath s) 0), (Z.ltb_spec (2 * Ne) (sNLocSpin s)); cbn; try reflexivity; try lia; exfalso; apply n; apply D; lia. }
  rewrite EL. cbn [Z.eqb negb]. eexists. split; [reflexivity|]. unfold electrons in *. cbn [sNe sNCond sNLocSpin]. destruct (sNCond s =? -1); lia.
Qed.
(** what an accepted run is *)
Theorem accepted s s' : check_settings s = Some s' ->
  (sNCond s = -1 -> sNe s' = sNe s) /\ (sNCond s <> -1 -> even (sNCond s) /\ sNe s' = Z.quot (sNLocSpin s + sNCond s) 2) /\
  (sTwoSz s <> 0 -> sGeneral s = true /\ (sTwoSz s = -1 \/ even (sTwoSz s))) /\
  (sGeneral s = true -> sGauss s' <= 1 /\ (sGauss s <= 1 -> sLanczos s = 0)) /\ (sGeneral s = false -> sGauss s' = sGauss s) /\
  (0 < sNLocSpin s -> sNLocSpin s <= 2 * sNe s' /\ sPath s <> 0 /\ (sNLocSpin s = 2 * sNe s' -> sPath s = 2)) /\
  (sNCond s', sNLocSpin s', sTwoSz s', sGeneral s', sLanczos s', sPath s') = (sNCond s, sNLocSpin s, sTwoSz s, sGeneral s, sLanczos s, sPath s).
Proof.
  unfold check_settings. destruct (calc_ncond s) as (i1, Ne) eqn:E1. destruct (check_general s (check_spin s i1)) as (i2, g) eqn:E2. destruct (Z.eqb_spec (check_locspn s Ne i2) 0) as [E3|]; [|discriminate]. cbn [negb]. intros E. injection E as <-. cbn [sNe sGauss sNCond sNLocSpin sTwoSz sGeneral sLanczos sPath].
  (* no check had failed *)
  assert (L : i2 = 0 /\ (0 < sNLocSpin s -> sNLocSpin s <= 2 * Ne /\ sPath s <> 0 /\ (sNLocSpin s = 2 * Ne -> sPath s = 2))).
  { revert E3. unfold check_locspn. destruct (Z.ltb_spec 0 (sNLocSpin s)); [|intros; split; [assumption|lia]].
    destruct (Z.eqb_spec (sNLocSpin s) (2 * Ne)), (Z.eqb_spec (sPath s) 2), (Z.eqb_spec (sPath s) 0), (Z.ltb_spec (2 * Ne) (sNLocSpin s)); cbn; intros; try discriminate; (split; [assumption|]); intros; repeat split; try assumption; try lia; tauto. }
  destruct L as (-> & L).
  assert (Gn : check_spin s i1 = 0 /\ (sGeneral s = true -> g <= 1 /\ (sGauss s <= 1 -> sLanczos s = 0)) /\ (sGeneral s = false -> g = sGauss s)).
  { revert E2. unfold check_general. destruct (sGeneral s); [|intros E; injection E as A B; split; [exact A|]; split; [discriminate|auto]].
    destruct (Z.ltb_spec 1 (sGauss s)); [intros E; injection E as A B; split; [exact A|]; split; [intros _; split; lia|discriminate]|].
    destruct (Z.eqb_spec (sLanczos s) 0); cbn [negb]; [|discriminate]. intros E; injection E as A B. split; [exact A|]. split; [intros _; split; [lia|auto]|discriminate]. }
  destruct Gn as (Gs & G1 & G2).
  assert (Sp : i1 = 0 /\ (sTwoSz s <> 0 -> sGeneral s = true /\ (sTwoSz s = -1 \/ even (sTwoSz s)))).
  { revert Gs. unfold check_spin. destruct (Z.eqb_spec (sTwoSz s) 0) as [Z0|Z0]; cbn [negb]; [intros ->; split; [reflexivity|contradiction]|]. destruct (sGeneral s); cbn [negb]; [|discriminate].
    destruct (Z.eqb_spec (Z.rem (sTwoSz s) 2) 0) as [R|R], (Z.eqb_spec (sTwoSz s) (-1)) as [M|M]; cbn; intros Hi; try discriminate; (split; [assumption|]); intros _; (split; [reflexivity|]); auto; right; now apply rem_even. }
  destruct Sp as (-> & Sp). revert E1. unfold calc_ncond. destruct (Z.eqb_spec (sNCond s) (-1)) as [M|M]; cbn [negb].
  - intros E; injection E as <-. repeat split; auto; try contradiction; try (now apply Sp); try (now apply G1); try (now apply L).
  - destruct (Z.eqb_spec (Z.rem (sNCond s) 2) 0) as [R|R]; cbn [negb]; [|discriminate]. intros E; injection E as <-. apply rem_even in R. repeat split; auto; try contradiction; try (now apply Sp); try (now apply G1); try (now apply L).
Qed.
Theorem block b : 0 < b -> 0 < adjust_block b /\ (exists h, adjust_block b = 8 * h) /\ adjust_block b < b + 8 /\ b - 8 < adjust_block b.
Proof.
  intros Hb. unfold adjust_block. pose proof (Z.quot_rem b 8 ltac:(lia)) as E. pose proof (Z.rem_bound_pos b 8 ltac:(lia) ltac:(lia)) as B. pose proof (Z.quot_pos b 8 ltac:(lia) ltac:(lia)) as Q.
  destruct (Z.ltb_spec 0 (Z.rem b 8)).
  - cbv zeta. destruct (Z.eqb_spec (Z.quot b 8) 0); (split; [lia|]); (split; [|lia]); [exists 1|exists (Z.quot b 8)]; lia.
  - split; [lia|]. split; [exists (Z.quot b 8); lia|lia].
Qed.
