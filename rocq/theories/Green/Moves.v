(** Operator strings on a consistent configuration: clean strings move electrons one by one; coincidences shorten the string. *)
From Coq Require Import ZArith List Bool Lia Reals Lra FunctionalExtensionality.
From Coquelicot Require Import Complex.
From Verif Require Import Base.ZLoop Base.Checked Base.RSum Proj.Model Proj.Spec Pf.Pfaffian Pf.Spec Slater.Model Slater.Spec Rbm.Model Rbm.Spec Samp.Model Samp.Spec Green.Model Green.Spec Green.Anti.
Import ListNotations.
Local Open Scope Z_scope.

Section Moves.
Variable V : wave.
Let N := sites V.
Let Ne := Slater.Model.Ne (vS V).
Hypothesis HN : 0 < N.
Hypothesis HNe : 0 < Ne.
Notation label m := (In m (labels V)).
Variable w : walker.
Let x := Samp.Model.eleIdx w.
Let cfg := Samp.Model.eleCfg w.
Let e := Samp.Model.eleNum w.
Hypothesis Hc : consistent N Ne w.

Definition lab (b : Z) : Z := cfg b + (b / N) * Ne.
Definition orbit (b : Z) : Prop := 0 <= b < 2 * N.

Lemma split_orbit b : orbit b -> b = b mod N + (b / N) * N /\ 0 <= b mod N < N /\ 0 <= b / N <= 1.
Proof.
  intros H. unfold orbit in H. assert (E := Z.div_mod b N ltac:(lia)). assert (M := Z.mod_pos_bound b N HN).
  assert (0 <= b / N < 2) by (split; [apply Z.div_pos; lia|apply Z.div_lt_upper_bound; lia]). lia.
Qed.
Lemma split_label m : label m -> m = m mod Ne + (m / Ne) * Ne /\ 0 <= m mod Ne < Ne /\ 0 <= m / Ne <= 1.
Proof.
  intros H. apply label_in in H. fold Ne in H. assert (E := Z.div_mod m Ne ltac:(lia)). assert (M := Z.mod_pos_bound m Ne HNe).
  assert (0 <= m / Ne < 2) by (split; [apply Z.div_pos; lia|apply Z.div_lt_upper_bound; lia]). lia.
Qed.
Lemma x_lattice : lattice V x.
Proof.
  intros m Hm. destruct (split_label m Hm) as (E & H1 & H2). destruct (c_elec _ _ _ Hc (m mod Ne) (m / Ne) H1 H2) as (r & Er & Hr & _).
  unfold x. rewrite E, Er. exact Hr.
Qed.
Lemma lab_orb m : label m -> lab (orb V x m) = m.
Proof.
  intros Hm. destruct (split_label m Hm) as (E & H1 & H2). destruct (c_elec _ _ _ Hc (m mod Ne) (m / Ne) H1 H2) as (r & Er & Hr & Ec).
  destruct (orb_div V HN HNe x m x_lattice Hm) as (D & _ & _). unfold lab. fold N in D. rewrite D.
  unfold orb, orbital. fold N Ne. assert (Ex : x m = r) by (unfold x; rewrite E; exact Er). rewrite Ex. unfold cfg. rewrite Ec. lia.
Qed.
Lemma occ_cases b : orbit b -> (e b = 0 /\ forall m, label m -> orb V x m <> b) \/ (e b = 1 /\ label (lab b) /\ orb V x (lab b) = b).
Proof.
  intros Hb. destruct (split_orbit b Hb) as (E & H1 & H2). destruct (c_site _ _ _ Hc (b mod N) (b / N) H1 H2) as [(C1 & C2)|(mi & Hm & C1 & C2 & C3)]; rewrite <- E in *.
  - left. split; [exact C2|]. intros m Hm Eo. assert (L := lab_orb m Hm). rewrite Eo in L. unfold lab, cfg in L. rewrite C1 in L.
    destruct (orb_div V HN HNe x m x_lattice Hm) as (D & _ & _). fold N Ne in D. rewrite Eo in D. destruct (split_label m Hm). nia.
  - right. split; [exact C2|]. unfold lab, cfg. rewrite C1. assert (L : label (mi + b / N * Ne)) by (apply label_in; fold Ne; nia). split; [exact L|].
    unfold orb, orbital. fold N Ne. unfold x. rewrite C3. rewrite Z.div_add, (Z.div_small mi) by lia. lia.
Qed.
Lemma e01 b : orbit b -> e b = 0 \/ e b = 1.
Proof. intros H. destruct (occ_cases b H) as [(E & _)|(E & _)]; auto. Qed.
Lemma occupied b : orbit b -> e b <> 0 -> label (lab b) /\ orb V x (lab b) = b /\ forall m, label m -> orb V x m = b -> m = lab b.
Proof.
  intros H He. destruct (occ_cases b H) as [(E & _)|(E & L & O)]; [congruence|]. split; [exact L|]. split; [exact O|]. intros m Hm <-. symmetry. now apply lab_orb.
Qed.
Lemma empty b : orbit b -> e b <> 1 -> forall m, label m -> orb V x m <> b.
Proof. intros H He. destruct (occ_cases b H) as [(_ & K)|(E & _)]; [exact K|congruence]. Qed.
Lemma lab_inj b b' : orbit b -> orbit b' -> e b <> 0 -> e b' <> 0 -> lab b = lab b' -> b = b'.
Proof. intros H H' He He' E. destruct (occupied b H He) as (_ & O & _), (occupied b' H' He') as (_ & O' & _). congruence. Qed.
Lemma lab_spin b : orbit b -> e b <> 0 -> lab b / Ne = b / N.
Proof. intros H He. destruct (occupied b H He) as (L & O & _). destruct (orb_div V HN HNe x (lab b) x_lattice L) as (D & _). fold N Ne in D. now rewrite <- D, O. Qed.
Lemma occupation_e b : orbit b -> occupation V x b = e b.
Proof.
  intros H. unfold occupation. destruct (existsb _ _) eqn:X.
  - apply existsb_exists in X. destruct X as (m & Hm & E). apply Z.eqb_eq in E. destruct (occ_cases b H) as [(_ & K)|(K & _)]; [now apply K in E|congruence].
  - destruct (occ_cases b H) as [(K & _)|(_ & L & O)]; [congruence|]. exfalso.
    assert (X' : existsb (fun m => orb V x m =? b) (labels V) = true) by (apply existsb_exists; exists (lab b); rewrite O; split; [assumption|apply Z.eqb_refl]). congruence.
Qed.

(** ** clean strings *)
Fixpoint moves (q : list (Z * Z)) : Z -> Z := match q with [] => x | (a, b) :: q => upd (moves q) (lab b) (a mod N) end.
Fixpoint clean (q : list (Z * Z)) : Prop :=
  match q with
  | [] => True
  | (a, b) :: q => operator V (a, b) /\ e b = 1 /\ e a = 0 /\ (forall o, In o q -> fst o <> a /\ snd o <> b) /\ clean q
  end.
Lemma clean_in q a b : clean q -> In (a, b) q -> orbit a /\ orbit b /\ a / N = b / N /\ e b = 1 /\ e a = 0.
Proof.
  induction q as [|(a', b') q IH]; intros H []; cbn in H; destruct H as ((O1 & O2 & O3) & E1 & E2 & _ & Hq).
  - injection H0 as <- <-. repeat split; try assumption; apply O1 || apply O2.
  - now apply IH.
Qed.
Lemma moves_other q m : (forall a b, In (a, b) q -> m <> lab b) -> moves q m = x m.
Proof.
  induction q as [|(a, b) q IH]; intros H; [reflexivity|]. cbn. unfold upd. destruct (Z.eqb_spec m (lab b)) as [E|E]; [exfalso; now apply (H a b (or_introl eq_refl))|].
  apply IH. intros a' b' Hi. apply (H a' b'). now right.
Qed.
Lemma moves_at q a b : clean q -> In (a, b) q -> moves q (lab b) = a mod N.
Proof.
  induction q as [|(a', b') q IH]; intros H []; cbn in H |- *; assert (H' : clean ((a', b') :: q)) by exact H; destruct H as ((O1 & O2 & O3) & E1 & E2 & D & Hq); unfold upd.
  - injection H0 as <- <-. now rewrite Z.eqb_refl.
  - destruct (Z.eqb_spec (lab b) (lab b')) as [E|E]; [|now apply IH].
    destruct (clean_in q a b Hq H0) as (_ & Ob & _ & Eb & _). apply lab_inj in E; [|exact Ob|exact O2|lia|lia]. subst b'. destruct (D _ H0). cbn in *. congruence.
Qed.
Definition which (q : list (Z * Z)) (m : Z) : (exists a b, In (a, b) q /\ m = lab b) \/ (forall a b, In (a, b) q -> m <> lab b).
Proof.
  induction q as [|(a, b) q IH]; [right; intros a b []|]. destruct (Z.eq_dec m (lab b)) as [E|E]; [left; exists a, b; split; [now left|exact E]|].
  destruct IH as [(a' & b' & Hi & E')|H]; [left; exists a', b'; split; [now right|exact E']|]. right. intros a' b' [K|K]; [injection K as <- <-; exact E|now apply (H a' b')].
Qed.
Lemma moves_lattice q : clean q -> lattice V (moves q).
Proof.
  intros H m Hm. destruct (which q m) as [(a & b & Hi & ->)|Ho].
  - rewrite (moves_at q a b H Hi). apply Z.mod_pos_bound. exact HN.
  - rewrite moves_other by exact Ho. now apply x_lattice.
Qed.
Lemma moves_orb q m : clean q -> label m ->
  (exists a b, In (a, b) q /\ m = lab b /\ orb V (moves q) m = a) \/ ((forall a b, In (a, b) q -> m <> lab b) /\ orb V (moves q) m = orb V x m).
Proof.
  intros H Hm. destruct (which q m) as [(a & b & Hi & ->)|Ho].
  - left. exists a, b. split; [exact Hi|]. split; [reflexivity|]. destruct (clean_in q a b H Hi) as (Oa & Ob & Es & Eb & _).
    unfold orb, orbital. fold N Ne. rewrite (moves_at q a b H Hi), lab_spin by (assumption || lia). destruct (split_orbit a Oa) as (Ea & _). rewrite <- Es. lia.
  - right. split; [exact Ho|]. unfold orb, orbital. now rewrite moves_other by exact Ho.
Qed.
(** spin-orbitals after the moves *)
Lemma vacated q a b : clean q -> In (a, b) q -> forall m, label m -> orb V (moves q) m <> b.
Proof.
  intros H Hi m Hm E. destruct (clean_in q a b H Hi) as (_ & Ob & _ & Eb & _). destruct (moves_orb q m H Hm) as [(a' & b' & Hi' & -> & Eo)|(Ho & Eo)].
  - destruct (clean_in q a' b' H Hi') as (_ & _ & _ & _ & Ea). rewrite Eo in E. subst. congruence.
  - rewrite Eo in E. destruct (occupied b Ob ltac:(lia)) as (_ & _ & U). apply (Ho a b Hi). now apply U.
Qed.
Lemma filled q a b : clean q -> In (a, b) q -> label (lab b) /\ orb V (moves q) (lab b) = a /\ forall m, label m -> orb V (moves q) m = a -> m = lab b.
Proof.
  intros H Hi. destruct (clean_in q a b H Hi) as (Oa & Ob & Es & Eb & Ea). destruct (occupied b Ob ltac:(lia)) as (L & _ & _). split; [exact L|].
  assert (E : orb V (moves q) (lab b) = a).
  { unfold orb, orbital. fold N Ne. rewrite (moves_at q a b H Hi), lab_spin by (assumption || lia). destruct (split_orbit a Oa) as (E & _). rewrite <- Es. lia. }
  split; [exact E|]. intros m Hm Em. destruct (moves_orb q m H Hm) as [(a' & b' & Hi' & -> & Eo)|(Ho & Eo)].
  - rewrite Eo in Em. subst a'. clear -H Hi Hi'. induction q as [|(a0, b0) q IH]; [destruct Hi|]. cbn in H. destruct H as (_ & _ & _ & D & Hq).
    destruct Hi as [Hi|Hi], Hi' as [Hi'|Hi'].
    + congruence.
    + injection Hi as -> ->. destruct (D _ Hi') as (K & _). cbn in K. congruence.
    + injection Hi' as -> ->. destruct (D _ Hi) as (K & _). cbn in K. congruence.
    + now apply IH.
  - rewrite Eo in Em. exfalso. now apply (empty a Oa ltac:(lia) m Hm).
Qed.
Lemma untouched q b : clean q -> orbit b -> (forall o, In o q -> fst o <> b /\ snd o <> b) ->
  (e b = 0 -> forall m, label m -> orb V (moves q) m <> b) /\
  (e b = 1 -> label (lab b) /\ orb V (moves q) (lab b) = b /\ forall m, label m -> orb V (moves q) m = b -> m = lab b).
Proof.
  intros H Hb D. split; intros Eb.
  - intros m Hm E. destruct (moves_orb q m H Hm) as [(a' & b' & Hi' & -> & Eo)|(Ho & Eo)].
    + destruct (D _ Hi'). cbn in *. congruence.
    + rewrite Eo in E. now apply (empty b Hb ltac:(lia) m Hm).
  - destruct (occupied b Hb ltac:(lia)) as (L & O & U). split; [exact L|].
    assert (Hn : forall a' b', In (a', b') q -> lab b <> lab b').
    { intros a' b' Hi E. destruct (clean_in q a' b' H Hi) as (_ & Ob' & _ & Eb' & _). apply lab_inj in E; [|assumption|assumption|lia|lia]. destruct (D _ Hi). cbn in *. congruence. }
    split.
    + unfold orb, orbital. rewrite moves_other by exact Hn. exact O.
    + intros m Hm Em. destruct (moves_orb q m H Hm) as [(a' & b' & Hi' & -> & Eo)|(Ho & Eo)].
      * destruct (D _ Hi'). cbn in *. congruence.
      * apply U; [exact Hm|congruence].
Qed.

(** ** value of a clean string *)
Lemma clean_value q : forall f, clean q -> string V q f x = f (moves q).
Proof.
  induction q as [|(a, b) q IH]; intros f H; [reflexivity|]. cbn [string moves]. assert (H' := H). cbn in H. destruct H as ((O1 & O2 & O3) & E1 & E2 & D & Hq).
  rewrite IH by exact Hq. cbn in O2.
  assert (DD : forall o, In o q -> fst o <> b /\ snd o <> b).
  { intros (a', b') Hi. split; [|now destruct (D _ Hi)]. cbn. intros ->. destruct (clean_in q b b' Hq Hi) as (_ & _ & _ & _ & Ea). congruence. }
  destruct (untouched q b Hq O2 DD) as (_ & K). destruct (K E1) as (L & O & U). now apply act_unique.
Qed.

(** ** coincidences: the string p ++ (a,b) :: q with q clean *)
Section Step.
Variables (f : (Z -> Z) -> C) (a b : Z) (q : list (Z * Z)).
Hypothesis Hf : anti V f.
Hypothesis Hop : operator V (a, b).
Hypothesis Hq : clean q.
Let val := string V q (act V (a, b) f) x.
Lemma val_eq : val = act V (a, b) f (moves q). Proof. apply clean_value. exact Hq. Qed.
Let Oa : orbit a := proj1 Hop.
Let Ob : orbit b := proj1 (proj2 Hop).
Let Es : a / N = b / N := proj2 (proj2 Hop).
Lemma step_b_dup o : In o q -> snd o = b -> val = RtoC 0.
Proof. destruct o as (a', b'). cbn. intros Hi ->. rewrite val_eq. apply act_none. now apply (vacated q a' b). Qed.
Lemma step_b_empty : (forall o, In o q -> fst o <> b) -> e b = 0 -> val = RtoC 0.
Proof.
  intros D E. rewrite val_eq. apply act_none. apply untouched; [exact Hq|exact Ob| |exact E].
  intros (a', b') Hi. split; [now apply D|]. cbn. intros ->. destruct (clean_in q a' b Hq Hi) as (_ & _ & _ & K & _). congruence.
Qed.
(** b is the target of an earlier move *)
Lemma step_chain q1 q2 a' b' : q = q1 ++ (a', b') :: q2 -> a' = b ->
  clean (q1 ++ q2) /\ val = string V (q1 ++ q2) (act V (a, b') f) x /\ operator V (a, b').
Proof.
  intros Eq ->. assert (Hi : In (b, b') q) by (rewrite Eq, in_app_iff; right; now left).
  assert (Hcl : clean (q1 ++ q2) /\ forall o, In o (q1 ++ q2) -> fst o <> b /\ snd o <> b').
  { clear val. subst q. clear Hi. induction q1 as [|(a0, b0) q1 IH]; cbn in Hq |- *.
    - destruct Hq as (_ & _ & _ & D & H2). auto.
    - destruct Hq as (O1 & E1 & E2 & D & H2). destruct (IH H2) as (Hcl & HD). split.
      + split; [exact O1|]. split; [exact E1|]. split; [exact E2|]. split; [|exact Hcl]. intros o Hi. apply D. rewrite in_app_iff in *. cbn. tauto.
      + intros o [<-|Hi]; [|now apply HD]. cbn. destruct (D (b, b')) as (K1 & K2); [rewrite in_app_iff; right; now left|]. cbn in *. auto. }
  destruct Hcl as (Hcl & HD). destruct (clean_in q b b' Hq Hi) as (_ & Ob' & Es' & Eb' & Ea').
  split; [exact Hcl|]. split.
  2: { split; [exact Oa|]. split; [exact Ob'|]. cbn. fold N. congruence. }
  rewrite val_eq, (clean_value (q1 ++ q2)) by exact Hcl.
  destruct (filled q b b' Hq Hi) as (L & O & U).
  rewrite (act_unique V a b f (moves q) (lab b')) by assumption.
  destruct (untouched (q1 ++ q2) b' Hcl Ob') as (_ & K).
  { intros (a0, b0) Hi0. split; [|now destruct (HD _ Hi0)]. cbn. intros ->. destruct (clean_in _ _ _ Hcl Hi0) as (_ & _ & _ & _ & K). congruence. }
  destruct (K Eb') as (_ & O' & U'). rewrite (act_unique V a b' f _ (lab b')) by assumption.
  f_equal. apply functional_extensionality. intros m. unfold upd. destruct (Z.eqb_spec m (lab b')) as [E|E]; [reflexivity|].
  subst q. clear -E. induction q1 as [|(a0, b0) q1 IH]; cbn; unfold upd; [destruct (Z.eqb_spec m (lab b')); congruence|]. destruct (m =? lab b0); [reflexivity|exact IH].
Qed.

(** from here on: b holds an electron that has not moved *)
Hypothesis Db : forall o, In o q -> fst o <> b /\ snd o <> b.
Hypothesis Eb : e b = 1.
Lemma val_move : val = f (upd (moves q) (lab b) (a mod N)).
Proof. rewrite val_eq. destruct (untouched q b Hq Ob Db) as (_ & K). destruct (K Eb) as (L & O & U). now apply act_unique. Qed.
Lemma at_b : label (lab b) /\ orb V (moves q) (lab b) = b.
Proof. destruct (untouched q b Hq Ob Db) as (_ & K). destruct (K Eb) as (L & O & U). auto. Qed.
Lemma step_diag : a = b -> val = string V q f x.
Proof.
  intros E. rewrite val_move, clean_value by exact Hq. f_equal. apply functional_extensionality. intros m. unfold upd. destruct (Z.eqb_spec m (lab b)) as [->|]; [|reflexivity].
  destruct at_b as (L & O). destruct (orb_div V HN HNe _ _ (moves_lattice q Hq) L) as (_ & M & _). fold N in M. rewrite O in M. now rewrite E, M.
Qed.
Lemma moved_orb m : label m -> orb V (upd (moves q) (lab b) (a mod N)) m = if m =? lab b then a else orb V (moves q) m.
Proof.
  intros Hm. unfold orb, orbital, upd. fold N Ne. destruct (Z.eqb_spec m (lab b)) as [->|]; [|reflexivity].
  rewrite lab_spin by (exact Ob || lia). rewrite <- Es. destruct (split_orbit a Oa) as (E & _). lia.
Qed.
Lemma moved_lattice : lattice V (upd (moves q) (lab b) (a mod N)).
Proof. intros m Hm. unfold upd. destruct (m =? lab b); [apply Z.mod_pos_bound; exact HN|now apply moves_lattice]. Qed.
(** somebody sits on a *)
Lemma step_blocked m : a <> b -> label m -> orb V (moves q) m = a -> val = RtoC 0.
Proof.
  intros Hne Hm E. rewrite val_move. destruct at_b as (L & O).
  assert (m <> lab b) by (intros ->; congruence).
  apply (anti_dup V HN HNe f _ m (lab b)); [exact Hf|exact moved_lattice|exact Hm|exact L|assumption|].
  rewrite !moved_orb by assumption. rewrite Z.eqb_refl. destruct (Z.eqb_spec m (lab b)); congruence.
Qed.
Lemma step_a_dup o : a <> b -> In o q -> fst o = a -> val = RtoC 0.
Proof. destruct o as (a', b'). cbn. intros Hne Hi ->. destruct (filled q a b' Hq Hi) as (L & O & _). now apply (step_blocked (lab b')). Qed.
Lemma step_a_full : a <> b -> (forall o, In o q -> snd o <> a) -> e a = 1 -> val = RtoC 0.
Proof.
  intros Hne D E. destruct (untouched q a Hq Oa) as (_ & K).
  - intros (a', b') Hi. split; [|now apply D]. cbn. intros ->. destruct (clean_in q a b' Hq Hi) as (_ & _ & _ & _ & K). congruence.
  - destruct (K E) as (L & O & _). now apply (step_blocked (lab a)).
Qed.
(** a was left by an earlier move: the two electrons exchange roles *)
Lemma step_exchange q1 q2 a' b' : q = q1 ++ (a', b') :: q2 -> b' = a ->
  clean (q1 ++ q2) /\ val = Copp (string V (q1 ++ q2) (act V (a', b) f) x) /\ operator V (a', b).
Proof.
  intros Eq ->. assert (Hi : In (a', a) q) by (rewrite Eq, in_app_iff; right; now left).
  assert (Hcl : clean (q1 ++ q2) /\ forall o, In o (q1 ++ q2) -> fst o <> a' /\ snd o <> a).
  { clear val. subst q. clear Hi Db. induction q1 as [|(a0, b0) q1 IH]; cbn in Hq |- *.
    - destruct Hq as (_ & _ & _ & D & H2). auto.
    - destruct Hq as (O1 & E1 & E2 & D & H2). destruct (IH H2) as (Hcl & HD). split.
      + split; [exact O1|]. split; [exact E1|]. split; [exact E2|]. split; [|exact Hcl]. intros o Hi. apply D. rewrite in_app_iff in *. cbn. tauto.
      + intros o [<-|Hi]; [|now apply HD]. cbn. destruct (D (a', a)) as (K1 & K2); [rewrite in_app_iff; right; now left|]. cbn in *. auto. }
  destruct Hcl as (Hcl & HD). destruct (clean_in q a' a Hq Hi) as (Oa' & _ & Es' & Ea & Ea').
  assert (Hne : a <> b) by (destruct (Db _ Hi); cbn in *; congruence).
  split; [exact Hcl|]. split.
  2: { split; [exact Oa'|]. split; [exact Ob|]. cbn. fold N. congruence. }
  rewrite val_move, (clean_value (q1 ++ q2)) by exact Hcl.
  destruct (occupied a Oa ltac:(lia)) as (La & Oxa & _). destruct (occupied b Ob ltac:(lia)) as (Lb & Oxb & _).
  destruct (untouched (q1 ++ q2) b Hcl Ob) as (_ & K).
  { intros o Ho. apply Db. rewrite Eq. rewrite in_app_iff in *. cbn. tauto. }
  destruct (K Eb) as (_ & O' & U'). rewrite (act_unique V a' b f _ (lab b)) by assumption.
  assert (Hl : lab a <> lab b) by (intros E; apply lab_inj in E; (assumption || lia)).
  assert (Hmm : forall m, moves q m = if m =? lab a then a' mod N else moves (q1 ++ q2) m).
  { intros m. destruct (Z.eqb_spec m (lab a)) as [->|E]; [now apply moves_at|]. subst q. clear -E.
    induction q1 as [|(a0, b0) q1 IH]; cbn; unfold upd; [destruct (Z.eqb_spec m (lab a)); congruence|]. destruct (m =? lab b0); [reflexivity|exact IH]. }
  assert (Ha : moves (q1 ++ q2) (lab a) = a mod N).
  { rewrite moves_other.
    - destruct (orb_div V HN HNe x (lab a) x_lattice La) as (_ & M & _). fold N in M. rewrite Oxa in M. congruence.
    - intros a0 b0 Hi0 E. destruct (clean_in _ _ _ Hcl Hi0) as (_ & Ob0 & _ & Eb0 & _). apply lab_inj in E; [|assumption|assumption|lia|lia]. destruct (HD _ Hi0). cbn in *. congruence. }
  rewrite <- (Hf (lab a) (lab b)); [|exact La|exact Lb|exact Hl|].
  - f_equal. apply functional_extensionality. intros m. unfold upd at 1. rewrite Hmm. unfold tr, upd.
    destruct (Z.eqb_spec m (lab b)) as [E|E].
    + subst m. destruct (Z.eqb_spec (lab b) (lab a)); [congruence|]. destruct (Z.eqb_spec (lab a) (lab b)); congruence.
    + destruct (Z.eqb_spec m (lab a)) as [E'|E'].
      * now rewrite Z.eqb_refl.
      * destruct (Z.eqb_spec m (lab b)); congruence.
  - fold Ne. rewrite !lab_spin by (assumption || lia). exact Es.
Qed.
(** nothing coincides *)
Lemma step_clean : a <> b -> (forall o, In o q -> fst o <> a) -> e a = 0 -> clean ((a, b) :: q).
Proof. intros Hne D E. cbn. split; [exact Hop|]. split; [exact Eb|]. split; [exact E|]. split; [|exact Hq]. intros o Hi. split; [now apply D|now apply Db]. Qed.
End Step.
End Moves.
