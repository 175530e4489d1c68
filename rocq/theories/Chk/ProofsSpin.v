(** The spins of the first configuration for accepted settings. *)
From Coq Require Import ZArith List Bool Lia.
From Verif Require Import Base.ZLoop Base.Checked Samp.Prog Samp.Model Chk.Model Chk.Spec Chk.Proofs.
Import ListNotations.
Local Open Scope Z_scope.

Lemma put_list {K E : Type} n f : forall l a, (forall x, In x l -> 0 <= x < n) ->
  exists b, forM l (fun x (s : Z -> Z) => put (K := K) (E := E) n s x (f x)) a = Ret b /\ (forall x, In x l -> b x = f x) /\ (forall x, ~ In x l -> b x = a x).
Proof.
  induction l as [|i l IH]; intros a H; cbn [forM].
  - exists a. split; [reflexivity|]. split; [intros x []|reflexivity].
  - unfold put at 1. rewrite wr_ok by (apply H; now left). cbn [bindP]. destruct (IH (upd a i (f i))) as (b & E1 & B1 & B2); [intros; apply H; now right|].
    exists b. split; [exact E1|]. split.
    + intros x [<-|Hx]; [|now apply B1]. destruct (in_dec Z.eq_dec i l) as [Hi|Hi]; [now apply B1|]. rewrite B2 by exact Hi. apply upd_same.
    + intros x Hx. cbn [In] in Hx. rewrite B2 by tauto. apply upd_other. intros ->. tauto.
Qed.
Lemma count_below u : forall n, 0 <= n -> zsum (zrange 0 n) (fun x => if x <? u then 1 else -1) = 2 * Z.max 0 (Z.min u n) - n.
Proof.
  intros n Hn. pattern n. apply natlike_ind; [change (zsum (zrange 0 0) (fun x => if x <? u then 1 else -1)) with 0; lia| |exact Hn]. intros k Hk IH. unfold Z.succ. rewrite zrange_snoc by lia. rewrite zsum_app, IH. cbn [zsum]. destruct (Z.ltb_spec k u); lia.
Qed.
Theorem first_spins I Orc spn : 0 <= Ne I ->
  exists b, initial_spin I Orc spn = Ret b /\ spin_sum (2 * Ne I) b = 2 * Z.max 0 (Z.min (Ne I + (if TwoSz I =? -1 then 0 else Z.quot (TwoSz I) 2)) (2 * Ne I)) - 2 * Ne I.
Proof.
  intros HN. unfold initial_spin, fill. set (u := Ne I + _). destruct (put_list (K := K Orc) (E := event (L Orc)) (2 * Ne I) (fun _ => -1) (zrange 0 (2 * Ne I)) spn) as (a & E1 & _); [intros x Hx; now apply zrange_in in Hx|].
  rewrite E1. cbn [bindP]. destruct (put_list (K := K Orc) (E := event (L Orc)) (2 * Ne I) (fun x => if x <? u then 0 else 1) (zrange 0 (2 * Ne I)) a) as (b & E2 & B & _); [intros x Hx; now apply zrange_in in Hx|].
  exists b. split; [exact E2|]. unfold spin_sum. rewrite <- count_below by lia. apply zsum_ext. intros x Hx. rewrite B by exact Hx. destruct (x <? u); reflexivity.
Qed.
Theorem accepted_spins s s' I Orc spn : check_settings s = Some s' -> Ne I = sNe s' -> TwoSz I = sTwoSz s' -> 0 <= sNe s' -> sTwoSz s' = -1 \/ Z.abs (sTwoSz s') <= 2 * sNe s' ->
  exists b, initial_spin I Orc spn = Ret b /\ spin_sum (2 * Ne I) b = if sTwoSz s' =? -1 then 0 else sTwoSz s'.
Proof.
  intros H EN ES H0 HP. destruct (first_spins I Orc spn) as (b & E & S); [lia|]. exists b. split; [exact E|]. rewrite S, EN, ES. clear E S.
  destruct (accepted s s' H) as (_ & _ & A & _ & _ & _ & F). assert (F2 : sTwoSz s' = sTwoSz s) by congruence. rewrite F2 in *. destruct (Z.eqb_spec (sTwoSz s) (-1)) as [M|M]; [lia|].
  assert (Ev : 2 * Z.quot (sTwoSz s) 2 = sTwoSz s). { destruct (Z.eq_dec (sTwoSz s) 0) as [->|Z0]; [reflexivity|]. destruct (A Z0) as (_ & [X|X]); [contradiction|now apply quot_even]. } lia.
Qed.
Theorem impossible_spins s s' I Orc spn : check_settings s = Some s' -> Ne I = sNe s' -> TwoSz I = sTwoSz s' -> 0 <= sNe s' -> sTwoSz s' <> -1 -> 2 * sNe s' < Z.abs (sTwoSz s') ->
  exists b, initial_spin I Orc spn = Ret b /\ Z.abs (spin_sum (2 * Ne I) b) = 2 * sNe s' /\ spin_sum (2 * Ne I) b <> sTwoSz s'.
Proof.
  intros H EN ES H0 HM HP. destruct (first_spins I Orc spn) as (b & E & S); [lia|]. exists b. split; [exact E|]. rewrite S, EN, ES. clear E S.
  destruct (accepted s s' H) as (_ & _ & A & _ & _ & _ & F). assert (F2 : sTwoSz s' = sTwoSz s) by congruence. rewrite F2 in *. destruct (Z.eqb_spec (sTwoSz s) (-1)) as [M|M]; [contradiction|].
  assert (Ev : 2 * Z.quot (sTwoSz s) 2 = sTwoSz s). { destruct (Z.eq_dec (sTwoSz s) 0) as [->|Z0]; [reflexivity|]. destruct (A Z0) as (_ & [X|X]); [contradiction|now apply quot_even]. } lia.
Qed.
