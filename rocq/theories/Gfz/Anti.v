(** Antisymmetric functions of spin-orbital configurations and the action of one or two operators on them. *)
From Coq Require Import ZArith List Bool Lia Reals Lra FunctionalExtensionality Permutation.
From Coquelicot Require Import Complex.
From Verif Require Import Base.ZLoop Base.Checked Base.RSum Pf.Pfaffian Pf.Spec Slater.Model Slater.Spec Slater.ProofsElm Green.Anti Samp.Model Samp.Spec Fsz.Model Fsz.Spec Fsz.ProofsElm Gfz.Model Gfz.Spec.
Import ListNotations.
Local Open Scope Z_scope.

Section Anti.
Variable L : list Z.
Hypothesis HL : NoDup L.
Notation act := (fact L).
Definition fanti (f : (Z -> Z) -> C) : Prop :=
  forall m1 m2 x, In m1 L -> In m2 L -> m1 <> m2 -> f (fun i => x (tr m1 m2 i)) = Copp (f x).
Lemma tr_in m1 m2 m : In m1 L -> In m2 L -> In m L -> In (tr m1 m2 m) L.
Proof. intros. unfold tr. destruct (m =? m1); [assumption|]. now destruct (m =? m2). Qed.
Lemma tr_permut m1 m2 : In m1 L -> In m2 L -> Permutation (map (tr m1 m2) L) L.
Proof.
  intros H1 H2. apply NoDup_Permutation.
  - apply FinFun.Injective_map_NoDup; [|exact HL]. intros i j. apply tr_inj.
  - exact HL.
  - intros m. rewrite in_map_iff. split.
    + intros (i & <- & Hi). now apply tr_in.
    + intros Hm. exists (tr m1 m2 m). split; [apply tr_invol|now apply tr_in].
Qed.
Lemma fact_anti o f : fanti f -> fanti (act o f).
Proof.
  intros Hf m1 m2 x H1 H2 Hne. unfold fact.
  rewrite <- (csum_perm _ _ (fun m => if x m =? snd o then f (upd x m (fst o)) else RtoC 0) (tr_permut m1 m2 H1 H2)).
  rewrite csum_map, <- csum_opp. apply csum_ext. intros m _.
  destruct (x (tr m1 m2 m) =? snd o); [|ring]. rewrite upd_tr. now apply Hf.
Qed.
Lemma fanti_dup f x m1 m2 : fanti f -> In m1 L -> In m2 L -> m1 <> m2 -> x m1 = x m2 -> f x = RtoC 0.
Proof.
  intros Hf H1 H2 Hne E. apply C_self_opp. rewrite <- (Hf m1 m2 x H1 H2 Hne). f_equal. apply functional_extensionality. intros i. unfold tr.
  destruct (Z.eqb_spec i m1) as [->|]; [congruence|]. destruct (Z.eqb_spec i m2) as [->|]; congruence.
Qed.
Lemma fact_none a b f x : (forall m, In m L -> x m <> b) -> act (a, b) f x = RtoC 0.
Proof. intros H. unfold fact. apply csum_zero. intros m Hm. cbn. destruct (Z.eqb_spec (x m) b); [exfalso; now apply (H m)|reflexivity]. Qed.
Lemma fact_unique a b f x m : In m L -> x m = b -> (forall m', In m' L -> x m' = b -> m' = m) -> act (a, b) f x = f (upd x m a).
Proof.
  intros Hm E Hu. unfold fact. cbn [fst snd].
  rewrite (csum_ext L _ (fun i => if m =? i then f (upd x i a) else RtoC 0)).
  - clear Hu. revert HL Hm. generalize L as l. induction l as [|i l IH]; [contradiction|]. intros Hnd Hm. inversion Hnd as [|? ? Hi Hnd']; subst. cbn [csum].
    destruct (Z.eqb_spec m i) as [<-|Hne].
    + rewrite csum_zero; [ring|]. intros j Hj. destruct (Z.eqb_spec m j); [congruence|reflexivity].
    + rewrite IH; [ring|assumption|]. destruct Hm; [congruence|assumption].
  - intros i Hi. destruct (Z.eqb_spec (x i) b) as [E'|E'].
    + rewrite (Hu i Hi E'), Z.eqb_refl. reflexivity.
    + destruct (Z.eqb_spec m i); [congruence|reflexivity].
Qed.

(** configurations without double occupation *)
Variable x : Z -> Z.
Hypothesis Hx : forall m m', In m L -> In m' L -> x m = x m' -> m = m'.
Variable e : Z -> Z.
Definition occ_at (c : Z) : Prop := (e c = 0 /\ forall m, In m L -> x m <> c) \/ (e c = 1 /\ exists m, In m L /\ x m = c).
Lemma occ_01 c : occ_at c -> e c = 0 \/ e c = 1. Proof. intros [(E & _)|(E & _)]; tauto. Qed.

Section Two.
Variable f : (Z -> Z) -> C.
Hypothesis Hf : fanti f.
Lemma move_unique m b : In m L -> x m = b -> forall m', In m' L -> x m' = b -> m' = m.
Proof. intros Hm E m' Hm' E'. apply Hx; congruence. Qed.
Lemma one_diag a : occ_at a -> act (a, a) f x = if e a =? 0 then RtoC 0 else f x.
Proof.
  intros [(E & H)|(E & m & Hm & E')]; rewrite E; cbn.
  - now apply fact_none.
  - rewrite (fact_unique a a f x m Hm E' (move_unique m a Hm E')). f_equal. apply functional_extensionality. intros i. rewrite upd_get. destruct (Z.eqb_spec i m); congruence.
Qed.
Lemma one_none a b : occ_at b -> e b = 0 -> act (a, b) f x = RtoC 0.
Proof. intros [(E & H)|(E & _)] E0; [now apply fact_none|congruence]. Qed.
Lemma one_full a b : occ_at a -> a <> b -> e a = 1 -> act (a, b) f x = RtoC 0.
Proof.
  intros [(E & _)|(_ & m' & Hm' & E')] Hab Ea; [congruence|]. destruct (in_dec Z.eq_dec b (map x L)) as [Hi|Hi].
  - apply in_map_iff in Hi. destruct Hi as (m & Em & Hm). rewrite (fact_unique a b f x m Hm Em (move_unique m b Hm Em)).
    apply (fanti_dup f _ m m'); try assumption; [intros ->; congruence|]. rewrite upd_same, upd_other; congruence.
  - apply fact_none. intros m Hm Em. apply Hi. apply in_map_iff. now exists m.
Qed.
Lemma one_move a b m : In m L -> x m = b -> act (a, b) f x = f (upd x m a).
Proof. intros Hm E. apply fact_unique; try assumption. now apply move_unique. Qed.
End Two.

(** two operators: <f| c+_a c_b c+_c c_d |x> *)
Variables (a b c d : Z) (f : (Z -> Z) -> C).
Hypothesis Hf : fanti f.
Hypotheses (Oa : occ_at a) (Ob : occ_at b) (Oc : occ_at c) (Od : occ_at d).
Notation two := (act (c, d) (act (a, b) f) x).
Let Hg : fanti (act (a, b) f) := fact_anti (a, b) f Hf.

Lemma two_cd : c = d -> two = if e c =? 0 then RtoC 0 else act (a, b) f x.
Proof. intros <-. now apply one_diag. Qed.
Lemma two_d0 : e d = 0 -> two = RtoC 0. Proof. intros E. now apply one_none. Qed.
Lemma two_c1 : c <> d -> e c = 1 -> two = RtoC 0. Proof. intros N E. now apply one_full. Qed.
Lemma two_move m : In m L -> x m = d -> two = act (a, b) f (upd x m c). Proof. intros. now apply one_move. Qed.
(** after a move to an empty place *)
Lemma moved_unique m : In m L -> e c = 0 -> forall m1 m2, In m1 L -> In m2 L -> upd x m c m1 = upd x m c m2 -> m1 = m2.
Proof.
  intros Hm Ec m1 m2 H1 H2. destruct Oc as [(_ & Nc)|(E & _)]; [|congruence]. rewrite !upd_get.
  destruct (Z.eqb_spec m1 m), (Z.eqb_spec m2 m); intros E; subst; try reflexivity; try (exfalso; now apply (Nc m2)); try (exfalso; now apply (Nc m1)). now apply Hx.
Qed.
Lemma dec_d : (e d = 0 /\ forall m, In m L -> x m <> d) \/ (e d = 1 /\ exists m, In m L /\ x m = d). Proof. exact Od. Qed.
Lemma two_bd : c <> d -> b = d -> two = RtoC 0.
Proof.
  intros N Eq. destruct (occ_01 c Oc) as [Ec|Ec]; [|now apply two_c1]. destruct Od as [(E & _)|(E & m & Hm & Em)]; [now apply two_d0|].
  rewrite (two_move m Hm Em). apply fact_none. intros m' Hm'. rewrite upd_get. destruct (Z.eqb_spec m' m) as [->|Hne]; [congruence|]. intros E'. apply Hne. apply Hx; try assumption; congruence.
Qed.
Lemma two_bc : c <> d -> b = c -> e c = 0 -> two = act (a, d) f x.
Proof.
  intros N Eq Ec. destruct Od as [(E & Nd)|(E & m & Hm & Em)]; [rewrite two_d0 by exact E; symmetry; now apply one_none|].
  rewrite (two_move m Hm Em), (one_move f a d m Hm Em). rewrite Eq. rewrite (fact_unique a c f (upd x m c) m Hm (upd_same x m c)).
  - f_equal. apply functional_extensionality. intros i. rewrite !upd_get. now destruct (i =? m).
  - intros m' Hm' E'. apply (moved_unique m Hm Ec); try assumption. now rewrite E', upd_same.
Qed.
Lemma two_b0 : b <> c -> e b = 0 -> c <> d -> two = RtoC 0.
Proof.
  intros Nb Eb N. destruct (occ_01 c Oc) as [Ec|Ec]; [|now apply two_c1]. destruct Od as [(E & _)|(E & m & Hm & Em)]; [now apply two_d0|].
  rewrite (two_move m Hm Em). apply fact_none. destruct Ob as [(_ & Nob)|(E' & _)]; [|congruence]. intros m' Hm'. rewrite upd_get. destruct (m' =? m); [congruence|now apply Nob].
Qed.
Lemma two_moves m m2 : In m L -> x m = d -> In m2 L -> x m2 = b -> b <> d -> e c = 0 -> two = f (upd (upd x m c) m2 a) /\ m <> m2.
Proof.
  intros Hm Em H2 E2 Nbd Ec. assert (m <> m2) by congruence. split; [|assumption]. rewrite (two_move m Hm Em). apply fact_unique; try assumption.
  - now rewrite upd_other by congruence.
  - intros m' Hm' E'. apply (moved_unique m Hm Ec); try assumption. rewrite E', upd_other by congruence. congruence.
Qed.
(** b, c, d different *)
Hypotheses (Ncd : c <> d) (Nbc : b <> c) (Nbd : b <> d).
Lemma two_ab : a = b -> two = if e a =? 0 then RtoC 0 else act (c, d) f x.
Proof.
  intros Eq. destruct Ob as [(Eb & _)|(Eb & m2 & H2 & E2)]; replace (e a) with (e b) by congruence; rewrite Eb; cbn; [now apply two_b0|].
  destruct (occ_01 c Oc) as [Ec|Ec]; [|rewrite two_c1 by assumption; symmetry; now apply one_full].
  destruct Od as [(E & _)|(E & m & Hm & Em)]; [rewrite two_d0 by assumption; symmetry; now apply one_none|].
  destruct (two_moves m m2 Hm Em H2 E2 Nbd Ec) as (-> & Hne). rewrite (one_move f c d m Hm Em). f_equal.
  apply functional_extensionality. intros i. rewrite !upd_get. destruct (Z.eqb_spec i m2) as [->|]; [|reflexivity]. destruct (Z.eqb_spec m2 m); congruence.
Qed.
Lemma two_ac : a = c -> two = RtoC 0.
Proof.
  intros Eq. destruct Ob as [(Eb & _)|(Eb & m2 & H2 & E2)]; [now apply two_b0|].
  destruct (occ_01 c Oc) as [Ec|Ec]; [|now apply two_c1]. destruct Od as [(E & _)|(E & m & Hm & Em)]; [now apply two_d0|].
  destruct (two_moves m m2 Hm Em H2 E2 Nbd Ec) as (-> & Hne). apply (fanti_dup f _ m m2); try assumption. rewrite upd_same, upd_other, upd_same; congruence.
Qed.
Lemma two_ad : a = d -> two = if e d =? 0 then RtoC 0 else Copp (act (c, b) f x).
Proof.
  intros Eq.
  destruct Od as [(E & _)|(E & m & Hm & Em)]; rewrite E; cbn; [now apply two_d0|].
  destruct (occ_01 c Oc) as [Ec|Ec]; [|rewrite two_c1 by assumption; rewrite one_full by (assumption || congruence); ring].
  destruct Ob as [(Eb & _)|(Eb & m2 & H2 & E2)]; [rewrite two_b0 by assumption; rewrite one_none by assumption; ring|].
  destruct (two_moves m m2 Hm Em H2 E2 Nbd Ec) as (-> & Hne). rewrite (one_move f c b m2 H2 E2). rewrite <- (Hf m m2 (upd x m2 c)) by assumption. f_equal.
  apply functional_extensionality. intros i. rewrite !upd_get. unfold tr.
  destruct (Z.eqb_spec i m) as [->|].
  - rewrite Z.eqb_refl. destruct (Z.eqb_spec m m2); [congruence|reflexivity].
  - destruct (Z.eqb_spec i m2) as [->|]; [|destruct (Z.eqb_spec i m2); [congruence|reflexivity]]. destruct (Z.eqb_spec m m2); congruence.
Qed.
Lemma two_a1 : a <> b -> a <> d -> e a = 1 -> two = RtoC 0.
Proof.
  intros Nab Nad Ea. destruct (Z.eq_dec a c) as [Eac|Nac]; [now apply two_ac|]. destruct Ob as [(Eb & _)|(Eb & m2 & H2 & E2)]; [now apply two_b0|].
  destruct (occ_01 c Oc) as [Ec|Ec]; [|now apply two_c1]. destruct Od as [(E & _)|(E & m & Hm & Em)]; [now apply two_d0|].
  destruct (two_moves m m2 Hm Em H2 E2 Nbd Ec) as (-> & Hne). destruct Oa as [(Ea' & _)|(_ & m3 & H3 & E3)]; [congruence|].
  assert (m3 <> m2 /\ m3 <> m) by (split; congruence). apply (fanti_dup f _ m2 m3); try assumption; [intros ->; tauto|]. rewrite upd_same, !upd_other by tauto. congruence.
Qed.
End Anti.

(** ** the wave function is antisymmetric *)
Lemma foccupation_tr L m1 m2 x : In m1 L -> In m2 L -> foccupation L (fun i => x (tr m1 m2 i)) = foccupation L x.
Proof.
  intros H1 H2. apply functional_extensionality. intros c. unfold foccupation.
  assert (E : existsb (fun m => x (tr m1 m2 m) =? c) L = existsb (fun m => x m =? c) L).
  { apply eq_true_iff_eq. rewrite !existsb_exists. split; intros (m & Hm & E); exists (tr m1 m2 m); (split; [now apply tr_in|]); [exact E|now rewrite tr_invol]. }
  now rewrite E.
Qed.
Lemma fpsi_anti V : fanti (flabels V) (fpsi V).
Proof.
  intros m1 m2 x H1 H2 Hne. unfold fpsi. rewrite foccupation_tr by assumption.
  replace (fpairs V (fun i => x (tr m1 m2 i))) with (Copp (fpairs V x)); [ring|].
  unfold fpairs, amplitude_fsz. rewrite <- csum_opp. apply csum_ext. intros o _. rewrite <- csum_opp. apply csum_ext. intros m _.
  replace (pfaffian_fsz (fS V) (fQ V) (fsl V) (fun i => x (tr m1 m2 i)) o m) with (Copp (pfaffian_fsz (fS V) (fQ V) (fsl V) x o m)); [ring|].
  unfold pfaffian_fsz. rewrite <- (pf_tr _ _ m1 m2); [reflexivity|..]; try assumption.
  - intros i j _ _. apply element_fsz_skew.
  - apply zrange_NoDup.
Qed.
