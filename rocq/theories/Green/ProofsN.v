(** GreenFuncN: the reductions are exact, and irreducible strings are ratios of amplitudes. *)
From Coq Require Import ZArith List Bool Lia Reals Lra FunctionalExtensionality Permutation.
From Coquelicot Require Import Complex.
From Verif Require Import Base.ZLoop Base.Checked Base.RSum Proj.Model Proj.Spec Proj.Proofs Pf.Pfaffian Pf.Model Pf.Spec Pf.Proofs Slater.Model Slater.Spec
  Rbm.Model Rbm.Spec Rbm.Proofs Rbm.ProofsRatio Samp.Model Samp.Spec Green.Model Green.Spec Green.Anti Green.Moves Green.Core Green.Proofs.
Import ListNotations.
Local Open Scope Z_scope.

(** ** loops with a return *)
Lemma first_some {D} (f : Z -> option D) d : forall lo hi, first lo hi f = Some d -> exists l, lo <= l < hi /\ f l = Some d /\ forall l', lo <= l' < l -> f l' = None.
Proof.
  intros lo hi. unfold first. destruct (Z_lt_le_dec lo hi) as [H|H]; [|rewrite zrange_nil by lia; discriminate].
  remember (Z.to_nat (hi - lo)) as n eqn:En. revert lo H En. induction n as [|n IH]; intros lo H En; [lia|]. rewrite zrange_cons by exact H. cbn [fold_right].
  destruct (f lo) as [d'|] eqn:Ef.
  - intros E. injection E as ->. exists lo. split; [lia|]. split; [exact Ef|lia].
  - intros E. destruct (Z_lt_le_dec (lo + 1) hi) as [H'|H']; [|rewrite zrange_nil in E by lia; discriminate].
    destruct (IH (lo + 1) H' ltac:(lia) E) as (l & Hl & El & Hn). exists l. split; [lia|]. split; [exact El|]. intros l' Hl'. destruct (Z.eq_dec l' lo) as [->|]; [exact Ef|apply Hn; lia].
Qed.
Lemma first_none {D} (f : Z -> option D) lo hi : first lo hi f = None -> forall l, lo <= l < hi -> f l = None.
Proof.
  unfold first. intros H l Hl. apply zrange_in in Hl. induction (zrange lo hi) as [|i L IH]; [destruct Hl|]. cbn in H. destruct (f i) as [d|] eqn:Ef; [discriminate|].
  destruct Hl as [<-|Hl]; [exact Ef|now apply IH].
Qed.

(** ** segments of the operator list *)
Definition seg (a b : Z -> Z) (i j : Z) : list (Z * Z) := map (fun k => (a k, b k)) (zrange i j).
Lemma seg_cons a b i j : i < j -> seg a b i j = (a i, b i) :: seg a b (i + 1) j.
Proof. intros H. unfold seg. now rewrite zrange_cons. Qed.
Lemma seg_app a b i j k : i <= j -> j <= k -> seg a b i k = seg a b i j ++ seg a b j k.
Proof. intros H1 H2. unfold seg. rewrite <- map_app. f_equal. now apply zrange_app. Qed.
Lemma seg_ext a b a' b' i j : (forall k, i <= k < j -> a k = a' k /\ b k = b' k) -> seg a b i j = seg a' b' i j.
Proof. intros H. apply map_ext_in. intros k Hk. apply zrange_in in Hk. destruct (H k Hk) as (-> & ->). reflexivity. Qed.
Lemma seg_in a b i j o : In o (seg a b i j) <-> exists k, i <= k < j /\ o = (a k, b k).
Proof. unfold seg. rewrite in_map_iff. split; [intros (k & <- & H); apply zrange_in in H; eauto|intros (k & H & ->); exists k; rewrite zrange_in; auto]. Qed.
Lemma seg_nil a b i j : j <= i -> seg a b i j = []. Proof. intros H. unfold seg. now rewrite zrange_nil. Qed.
Lemma shift_get l n a m : 0 <= l -> shift l n a m = if (l <=? m) && (m <? n - 1) then a (m + 1) else a m.
Proof.
  intros Hl. unfold shift.
  assert (H : forall k, l <= k -> forall m, loop l k (fun m a => upd a m (a (m + 1))) a m = if (l <=? m) && (m <? k) then a (m + 1) else a m).
  { clear m. intros k Hk. replace k with (l + Z.of_nat (Z.to_nat (k - l))) by lia. induction (Z.to_nat (k - l)) as [|i IH]; intros m.
    - rewrite loop_nil by lia. replace ((l <=? m) && (m <? l + Z.of_nat 0)) with false by lia. reflexivity.
    - replace (l + Z.of_nat (S i)) with (l + Z.of_nat i + 1) by lia. rewrite loop_last by lia. rewrite upd_get, !IH.
      destruct (Z.eqb_spec m (l + Z.of_nat i)) as [->|Hne].
      + replace ((l <=? l + Z.of_nat i + 1) && (l + Z.of_nat i + 1 <? l + Z.of_nat i)) with false by lia. replace ((l <=? l + Z.of_nat i) && (l + Z.of_nat i <? l + Z.of_nat i + 1)) with true by lia. reflexivity.
      + replace (m <? l + Z.of_nat i + 1) with (m <? l + Z.of_nat i) by lia. reflexivity. }
  destruct (Z_le_gt_dec l (n - 1)); [now apply H|]. rewrite loop_nil by lia. replace ((l <=? m) && (m <? n - 1)) with false by lia. reflexivity.
Qed.
Lemma seg_shift a b i j : seg (fun k => a (k + 1)) (fun k => b (k + 1)) i j = seg a b (i + 1) (j + 1).
Proof.
  unfold seg. replace (zrange (i + 1) (j + 1)) with (map (fun k => k + 1) (zrange i j)).
  - now rewrite map_map.
  - destruct (Z_lt_le_dec i j) as [H|H]; [|rewrite !zrange_nil by lia; reflexivity].
    remember (Z.to_nat (j - i)) as n eqn:En. revert i H En. induction n as [|n IH]; intros i H En; [lia|]. rewrite (zrange_cons i j), (zrange_cons (i + 1) (j + 1)) by lia. cbn [map]. f_equal.
    destruct (Z_lt_le_dec (i + 1) j); [apply IH; lia|]. rewrite !zrange_nil by lia. reflexivity.
Qed.
Lemma del_ops l n a b : 0 <= l < n -> operators (n - 1) (shift l n a) (shift l n b) = seg a b 0 l ++ seg a b (l + 1) n.
Proof.
  intros H. change (operators (n - 1) (shift l n a) (shift l n b)) with (seg (shift l n a) (shift l n b) 0 (n - 1)). rewrite (seg_app _ _ 0 l (n - 1)) by lia. f_equal.
  - apply seg_ext. intros k Hk. rewrite !shift_get by lia. replace ((l <=? k) && (k <? n - 1)) with false by lia. auto.
  - replace n with (n - 1 + 1) at 4 by lia. rewrite <- seg_shift. apply seg_ext. intros k Hk. rewrite !shift_get by lia. replace ((l <=? k) && (k <? n - 1)) with true by lia. auto.
Qed.

Section GreenN.
Variable V : wave.
Hypothesis HV : wf_wave V.
Let N := sites V.
Let Ne := Slater.Model.Ne (vS V).
Variables (w : walker) (K : setting) (rcnt : Z -> C) (ip : C).
Hypothesis HS : sampled V K w rcnt ip.
Let Hc : consistent N Ne w := sa_tables _ _ _ _ _ HS.
Let x := Samp.Model.eleIdx w.
Let e := Samp.Model.eleNum w.
Let HN : 0 < N := N_pos V HV.
Let HNe : 0 < Ne := Ne_pos V HV.
Let G := env_of V K.
Definition legal_ops (n : Z) (a b : Z -> Z) : Prop := forall k, 0 <= k < n -> operator V (a k, b k).
Let val n a b := string V (operators n a b) (psi V) x.

Lemma val_split n a b k : 0 <= k < n -> val n a b = string V (seg a b (k + 1) n) (act V (a k, b k) (string V (seg a b 0 k) (psi V))) x.
Proof.
  intros H. unfold val. change (operators n a b) with (seg a b 0 n). rewrite (seg_app a b 0 k n), (seg_cons a b k n) by lia. rewrite string_app. cbn [string]. reflexivity.
Qed.
Lemma val_del n a b l : 0 <= l < n -> val (n - 1) (shift l n a) (shift l n b) = string V (seg a b (l + 1) n) (string V (seg a b 0 l) (psi V)) x.
Proof. intros H. unfold val. rewrite del_ops by exact H. now rewrite string_app. Qed.
Lemma val_del2 n a b k l : 0 <= k < l -> l < n -> val (n - 1) (shift l n a) (shift l n b) = string V (seg a b (k + 1) l ++ seg a b (l + 1) n) (act V (a k, b k) (string V (seg a b 0 k) (psi V))) x.
Proof.
  intros H H'. rewrite val_del by lia. rewrite (seg_app a b 0 k l), (seg_cons a b k l) by lia. rewrite !string_app. cbn [string]. reflexivity.
Qed.
Lemma seg_upd_b (a b : Z -> Z) k v i j : ~ (i <= k < j) -> seg a (upd b k v) i j = seg a b i j.
Proof. intros H. apply seg_ext. intros m Hm. rewrite upd_get. destruct (Z.eqb_spec m k); [lia|auto]. Qed.
Lemma seg_upd_a (a b : Z -> Z) k v i j : ~ (i <= k < j) -> seg (upd a k v) b i j = seg a b i j.
Proof. intros H. apply seg_ext. intros m Hm. rewrite upd_get. destruct (Z.eqb_spec m k); [lia|auto]. Qed.

Lemma shift_legal l n a b : 0 <= l < n -> legal_ops n a b -> legal_ops (n - 1) (shift l n a) (shift l n b).
Proof. intros H L k Hk. rewrite !shift_get by lia. destruct ((l <=? k) && (k <? n - 1)); apply L; lia. Qed.

(** what a decision of the checks must satisfy *)
Definition sound (n : Z) (a b : Z -> Z) (r : reduced) : Prop :=
  match r with
  | Zero => val n a b = RtoC 0
  | Shorter neg a' b' => legal_ops (n - 1) a' b' /\ val n a b = if neg then Copp (val (n - 1) a' b') else val (n - 1) a' b'
  end.
Lemma reduce_sound n a b k : legal_ops n a b -> 0 <= k < n -> clean V w (seg a b (k + 1) n) ->
  match reduce n a b e k with Some r => sound n a b r | None => clean V w (seg a b k n) end.
Proof.
  intros HL Hk Hq. assert (Hop := HL k Hk). assert (Hv := val_split n a b k Hk). set (f := string V (seg a b 0 k) (psi V)) in *.
  assert (Hf : anti V f) by (apply string_anti; apply psi_anti). set (q := seg a b (k + 1) n) in *.
  unfold reduce. destruct (first (k + 1) n _) as [r|] eqn:F1.
  - apply first_some in F1. destruct F1 as (l & Hl & El & _).
    assert (Eq : q = seg a b (k + 1) l ++ (a l, b l) :: seg a b (l + 1) n) by (unfold q; rewrite (seg_app a b (k + 1) l n), (seg_cons a b l n) by lia; reflexivity).
    destruct (Z.eqb_spec (b k) (a l)) as [E|E].
    + injection El as <-. cbn [sound].
      destruct (step_chain V HN HNe w Hc f (a k) (b k) q Hop Hq _ _ (a l) (b l) Eq (eq_sym E)) as (_ & Es & Ho). split.
      * apply shift_legal; [lia|]. intros m Hm. rewrite upd_get. destruct (Z.eqb_spec m k) as [->|]; [exact Ho|now apply HL].
      * rewrite Hv. fold x in Es. rewrite Es. rewrite (val_del2 n a (upd b k (b l)) k l) by lia. rewrite !seg_upd_b by lia. rewrite upd_get, Z.eqb_refl. reflexivity.
    + destruct (Z.eqb_spec (b k) (b l)) as [E'|E']; [|discriminate]. injection El as <-. cbn [sound]. rewrite Hv.
      apply (step_b_dup V HN HNe w Hc f (a k) (b k) q Hq (a l, b l)); [rewrite Eq; apply in_elt|now symmetry].
  - assert (N1 := first_none _ _ _ F1). cbn beta in N1. clear F1.
    assert (Db : forall o, In o q -> fst o <> b k /\ snd o <> b k).
    { intros o Ho. apply seg_in in Ho. destruct Ho as (l & Hl & ->). specialize (N1 l Hl). cbn [fst snd]. destruct (Z.eqb_spec (b k) (a l)); [discriminate|]. destruct (Z.eqb_spec (b k) (b l)); [discriminate|]. split; congruence. }
    destruct (Z.eqb_spec (e (b k)) 0) as [E0|E0].
    + cbn [sound]. rewrite Hv. apply (step_b_empty V HN HNe w Hc f (a k) (b k) q Hop Hq); [intros o Ho; now apply Db|exact E0].
    + assert (E1 : e (b k) = 1) by (destruct (e01 V HN HNe w Hc (b k)) as [H|H]; [apply Hop|now elim E0|exact H]).
      destruct (Z.eqb_spec (a k) (b k)) as [Eab|Eab].
      * cbn [sound]. split; [now apply shift_legal|]. rewrite val_del by exact Hk. rewrite Hv. now apply (step_diag V HN HNe w Hc f (a k) (b k) q Hop Hq Db E1).
      * destruct (first (k + 1) n _) as [r|] eqn:F2.
        -- apply first_some in F2. destruct F2 as (l & Hl & El & _).
           assert (Eq : q = seg a b (k + 1) l ++ (a l, b l) :: seg a b (l + 1) n) by (unfold q; rewrite (seg_app a b (k + 1) l n), (seg_cons a b l n) by lia; reflexivity).
           destruct (Z.eqb_spec (a k) (a l)) as [E|E].
           ++ injection El as <-. cbn [sound]. rewrite Hv. apply (step_a_dup V HN HNe w Hc f (a k) (b k) q Hf Hop Hq Db E1 (a l, b l)); [exact Eab|rewrite Eq; apply in_elt|now symmetry].
           ++ destruct (Z.eqb_spec (a k) (b l)) as [E'|E']; [|discriminate]. injection El as <-. cbn [sound].
              destruct (step_exchange V HN HNe w Hc f (a k) (b k) q Hf Hop Hq Db E1 _ _ (a l) (b l) Eq (eq_sym E')) as (_ & Es & Ho). split.
              ** apply shift_legal; [lia|]. intros m Hm. rewrite upd_get. destruct (Z.eqb_spec m k) as [->|]; [exact Ho|now apply HL].
              ** rewrite Hv. fold x in Es. rewrite Es. f_equal. rewrite (val_del2 n (upd a k (a l)) b k l) by lia. rewrite !seg_upd_a by lia. rewrite upd_get, Z.eqb_refl. reflexivity.
        -- assert (N2 := first_none _ _ _ F2). cbn beta in N2.
           assert (Da : forall o, In o q -> fst o <> a k /\ snd o <> a k).
           { intros o Ho. apply seg_in in Ho. destruct Ho as (l & Hl & ->). specialize (N2 l Hl). cbn [fst snd]. destruct (Z.eqb_spec (a k) (a l)); [discriminate|]. destruct (Z.eqb_spec (a k) (b l)); [discriminate|]. split; congruence. }
           destruct (Z.eqb_spec (e (a k)) 1) as [F|F].
           ++ cbn [sound]. rewrite Hv. apply (step_a_full V HN HNe w Hc f (a k) (b k) q Hf Hop Hq Db E1 Eab); [intros o Ho; now apply Da|exact F].
           ++ rewrite seg_cons by lia. apply step_clean; [exact Hop|exact Hq|exact Db|exact E1|exact Eab|intros o Ho; now apply Da|].
              destruct (e01 V HN HNe w Hc (a k)) as [H|H]; [apply Hop|exact H|now elim F].
Qed.
Lemma reduce_all_sound n a b : legal_ops n a b -> 0 <= n ->
  match reduce_all n a b e with Some r => sound n a b r | None => clean V w (operators n a b) end.
Proof.
  intros HL Hn. unfold reduce_all.
  assert (H : forall i, 0 <= i <= n -> (forall j, 0 <= j < i -> reduce n a b e (n - 1 - j) = None) -> clean V w (seg a b (n - i) n)).
  { intros i Hi. replace i with (Z.of_nat (Z.to_nat i)) in * by lia. induction (Z.to_nat i) as [|m IH]; intros HNn.
    - rewrite seg_nil by lia. exact I.
    - assert (Hp : clean V w (seg a b (n - Z.of_nat m) n)) by (apply IH; [lia|intros j Hj; apply HNn; lia]).
      assert (R := reduce_sound n a b (n - 1 - Z.of_nat m) HL ltac:(lia)). replace (n - 1 - Z.of_nat m + 1) with (n - Z.of_nat m) in R by lia. specialize (R Hp).
      rewrite HNn in R by lia. replace (n - Z.of_nat (S m)) with (n - 1 - Z.of_nat m) by lia. exact R. }
  destruct (first 0 n _) as [r|] eqn:F.
  - apply first_some in F. destruct F as (i & Hi & Er & Hb). specialize (H i ltac:(lia) Hb).
    assert (R := reduce_sound n a b (n - 1 - i) HL ltac:(lia)). replace (n - 1 - i + 1) with (n - i) in R by lia. specialize (R H). now rewrite Er in R.
  - specialize (H n ltac:(lia)). rewrite Z.sub_diag in H. apply H. intros j Hj. now apply (first_none _ _ _ F).
Qed.

(** ** irreducible strings *)
Lemma clean_perm q q' : Permutation q q' -> clean V w q -> clean V w q'.
Proof.
  induction 1 as [|o q q' P IH|o1 o2 q|q q' q'' P1 IH1 P2 IH2]; intros H; [exact H| | |now apply IH2, IH1].
  - destruct o as (a, b). cbn in H |- *. destruct H as (H1 & H2 & H3 & H4 & H5). split; [exact H1|]. split; [exact H2|]. split; [exact H3|]. split; [|now apply IH].
    intros o Ho. apply H4. now apply (Permutation_in _ (Permutation_sym P)).
  - destruct o1 as (a1, b1), o2 as (a2, b2). cbn in H |- *. destruct H as (A1 & A2 & A3 & A4 & B1 & B2 & B3 & B4 & B5).
    split; [exact B1|]. split; [exact B2|]. split; [exact B3|]. split; [|].
    + intros o [<-|Ho]; [|now apply B4]. destruct (A4 (a1, b1) (or_introl eq_refl)) as (X & Y). cbn in *. split; congruence.
    + split; [exact A1|]. split; [exact A2|]. split; [exact A3|]. split; [|exact B5]. intros o Ho. apply A4. now right.
Qed.
Lemma moves_perm q q' : Permutation q q' -> clean V w q -> forall m, moves V w q m = moves V w q' m.
Proof.
  intros P H m. assert (H' := clean_perm q q' P H). destruct (which V w q m) as [(a & b & Hi & ->)|Ho].
  - rewrite (moves_at V HN HNe w Hc q a b H Hi), (moves_at V HN HNe w Hc q' a b H' (Permutation_in _ P Hi)). reflexivity.
  - rewrite !moves_other; [reflexivity| |exact Ho]. intros a b Hi. apply (Ho a b). apply (Permutation_in _ (Permutation_sym P) Hi).
Qed.
Lemma occs_perm q q' : Permutation q q' -> clean V w q -> forall c, occs w q c = occs w q' c.
Proof.
  intros P H c. assert (H' := clean_perm q q' P H).
  destruct (occs_cases V w q c H) as [(b & Hi & ->)|[(a & Hi & ->)|(Hn & ->)]]; destruct (occs_cases V w q' c H') as [(b' & Hi' & E)|[(a' & Hi' & E)|(Hn' & E)]]; rewrite E; auto; exfalso.
  - apply (Permutation_in _ (Permutation_sym P)) in Hi'. destruct (clean_in V w q c b H Hi) as (_ & _ & _ & _ & Z0). destruct (clean_in V w q a' c H Hi') as (_ & _ & _ & Z1 & _). congruence.
  - apply (Permutation_in _ P) in Hi. now apply (proj1 (Hn' _ Hi)).
  - apply (Permutation_in _ (Permutation_sym P)) in Hi'. destruct (clean_in V w q c b' H Hi') as (_ & _ & _ & _ & Z0). destruct (clean_in V w q a c H Hi) as (_ & _ & _ & Z1 & _). congruence.
  - apply (Permutation_in _ P) in Hi. now apply (proj2 (Hn' _ Hi)).
  - apply (Permutation_in _ (Permutation_sym P)) in Hi'. now apply (proj1 (Hn _ Hi')).
  - apply (Permutation_in _ (Permutation_sym P)) in Hi'. now apply (proj2 (Hn _ Hi')).
Qed.

(** a loop in which every iteration succeeds *)
Lemma loopM_ok {St} (P : Z -> St -> Prop) i j (f : Z -> St -> option St) st : i <= j -> P i st ->
  (forall k st, i <= k < j -> P k st -> exists st', f k st = Some st' /\ P (k + 1) st') -> exists st', loopM i j f st = Some st' /\ P j st'.
Proof.
  intros Hij H0 Hs.
  assert (H : forall d, i + Z.of_nat d <= j -> exists st', loopM i (i + Z.of_nat d) f st = Some st' /\ P (i + Z.of_nat d) st').
  { induction d as [|d IH]; intros Hd.
    - rewrite loopM_nil by lia. exists st. split; [reflexivity|]. now replace (i + Z.of_nat 0) with i by lia.
    - replace (i + Z.of_nat (S d)) with (i + Z.of_nat d + 1) in * by lia. destruct IH as (st1 & E1 & P1); [lia|]. rewrite loopM_last by lia. rewrite E1. cbn [bind]. apply Hs; [lia|exact P1]. }
  specialize (H (Z.to_nat (j - i)) ltac:(lia)). now replace (i + Z.of_nat (Z.to_nat (j - i))) with j in H by lia.
Qed.
Lemma seg_snoc a b i j : i <= j -> seg a b i (j + 1) = seg a b i j ++ [(a j, b j)].
Proof. intros H. rewrite (seg_app a b i j (j + 1)) by lia. f_equal. rewrite seg_cons by lia. now rewrite seg_nil by lia. Qed.

Section All.
Variable kernel : Z -> Z -> (Z -> Z) -> (Z -> Z) -> (Z -> Z) -> C.
Hypothesis Hker : pfaffian_routine V K w kernel.
Variables (n : Z) (a b : Z -> Z).
Hypothesis Hn : 0 <= n.
Let ops := operators n a b.
Hypothesis Hcl : clean V w ops.
Lemma in_ops k : 0 <= k < n -> In (a k, b k) ops.
Proof. intros H. apply (seg_in a b 0 n). eauto. Qed.
Lemma op_facts k : 0 <= k < n -> orbit V (a k) /\ orbit V (b k) /\ e (b k) = 1 /\ e (a k) = 0 /\ In (lab V w (b k)) (labels V) /\ x (lab V w (b k)) = b k mod N.
Proof.
  intros H. destruct (clean_in V w ops _ _ Hcl (in_ops k H)) as (Oa & Ob & _ & Eb & Ea). fold e in Eb, Ea. repeat split; try apply Oa; try apply Ob; try assumption.
  - apply (occupied V HN HNe w Hc (b k) Ob). fold e. lia.
  - destruct (occupied V HN HNe w Hc (b k) Ob ltac:(fold e; lia)) as (L & O & _). destruct (orb_div V HN HNe x (lab V w (b k)) (x_lattice V HNe w Hc) L) as (_ & M & _). rewrite <- M. fold x in O. now rewrite O.
Qed.
Lemma lab_range k : 0 <= k < n -> 0 <= lab V w (b k) < 2 * Ne.
Proof. intros H. destruct (op_facts k H) as (_ & _ & _ & _ & L & _). now apply label_in in L. Qed.
Lemma lab_distinct k l : 0 <= k < n -> 0 <= l < n -> lab V w (b k) = lab V w (b l) -> k = l.
Proof.
  intros Hk Hl E. destruct (op_facts k Hk) as (_ & Ob & Eb & _), (op_facts l Hl) as (_ & Ob' & Eb' & _).
  apply (lab_inj V HN HNe w Hc) in E; [|exact Ob|exact Ob'|fold e; lia|fold e; lia].
  destruct (Z.lt_trichotomy k l) as [H|[H|H]]; [|exact H|]; exfalso.
  - assert (H' := Hcl). unfold ops, operators in H'. fold (seg a b 0 n) in H'. rewrite (seg_app a b 0 k n), (seg_cons a b k n) in H' by lia.
    apply (clean_perm _ ((a k, b k) :: seg a b (k + 1) n ++ seg a b 0 k)) in H'; [|rewrite app_comm_cons; apply Permutation_app_comm].
    cbn in H'. destruct H' as (_ & _ & _ & D & _). destruct (D (a l, b l)) as (_ & X); [apply in_or_app; left; apply seg_in; exists l; split; [lia|reflexivity]|]. cbn in X. congruence.
  - assert (H' := Hcl). unfold ops, operators in H'. fold (seg a b 0 n) in H'. rewrite (seg_app a b 0 l n), (seg_cons a b l n) in H' by lia.
    apply (clean_perm _ ((a l, b l) :: seg a b (l + 1) n ++ seg a b 0 l)) in H'; [|rewrite app_comm_cons; apply Permutation_app_comm].
    cbn in H'. destruct H' as (_ & _ & _ & D & _). destruct (D (a k, b k)) as (_ & X); [apply in_or_app; left; apply seg_in; exists k; split; [lia|reflexivity]|]. cbn in X. congruence.
Qed.
Lemma forth k0 : starts w k0 -> exists msj w1, loopM 0 n (fun k (st : (Z -> Z) * work) =>
    mj <- rd (2 * gNsite G) (Samp.Model.eleCfg w) (b k);;
    let m := mj + (b k / gNsite G) * gNe G in
    w <- put G m (a k mod gNsite G) (b k) (a k) (snd st);;
    Some (upd (fst st) k m, w)) ((fun _ => 0), k0) = Some (msj, w1) /\
  (forall k, 0 <= k < n -> msj k = lab V w (b k)) /\ Green.Model.eleIdx w1 = moves V w ops /\ Green.Model.eleNum w1 = occs w ops /\ projNew w1 = projNew k0 /\ rbmNew w1 = rbmNew k0 /\ pfBuf w1 = pfBuf k0.
Proof.
  intros Hk0. destruct (starts_eq w k0 Hk0) as (Ex & Ee).
  match goal with |- exists _ _, loopM 0 n ?f ?s0 = _ /\ _ => destruct (loopM_ok (fun k (st : (Z -> Z) * work) => (forall j, 0 <= j < k -> fst st j = lab V w (b j)) /\ Green.Model.eleIdx (snd st) = moves V w (rev (seg a b 0 k)) /\
     Green.Model.eleNum (snd st) = occs w (rev (seg a b 0 k)) /\ projNew (snd st) = projNew k0 /\ rbmNew (snd st) = rbmNew k0 /\ pfBuf (snd st) = pfBuf k0) 0 n f s0) as ((msj & w1) & E & P); [exact Hn| | |] end.
  - split; [lia|]. rewrite seg_nil by lia. cbn [rev moves occs snd]. split; [exact Ex|]. split; [exact Ee|]. repeat split.
  - intros k (m & w') Hk (P1 & P2 & P3 & P4). cbn [fst snd] in *. destruct (op_facts k Hk) as (Oa & Ob & Eb & Ea & L & _). assert (Hl := lab_range k Hk).
    change (gNsite G) with N. change (gNe G) with Ne. rewrite rd_ok by exact Ob. cbn [bind]. fold N in Hl. fold (lab V w (b k)). fold N.
    change (Samp.Model.eleCfg w (b k) + b k / N * Ne) with (lab V w (b k)). rewrite (put_ok V K) by assumption. cbn [bind].
    eexists. split; [reflexivity|]. cbn [fst snd Green.Model.eleIdx Green.Model.eleNum projNew rbmNew pfBuf]. rewrite (seg_snoc a b 0 k) by lia. rewrite rev_app_distr. cbn [rev app moves occs].
    rewrite P2, P3. split; [|split; [reflexivity|split; [reflexivity|exact P4]]]. intros j Hj. rewrite upd_get. destruct (Z.eqb_spec j k) as [->|]; [reflexivity|apply P1; lia].
  - exists msj, w1. split; [exact E|]. cbn [fst snd] in P. destruct P as (P1 & P2 & P3 & P4). split; [exact P1|].
    assert (PP : Permutation ops (rev (seg a b 0 n))) by apply Permutation_rev.
    split; [rewrite P2; apply functional_extensionality; intros m; symmetry; now apply moves_perm|]. split; [rewrite P3; apply functional_extensionality; intros c; symmetry; now apply occs_perm|exact P4].
Qed.
Lemma back msj w1 : (forall k, 0 <= k < n -> msj k = lab V w (b k)) -> Green.Model.eleIdx w1 = moves V w ops -> Green.Model.eleNum w1 = occs w ops ->
  exists w2, loopM 0 n (fun k w => put G (msj k) (b k mod gNsite G) (a k) (b k) w) w1 = Some w2 /\ starts w w2.
Proof.
  intros Hm E1 E2.
  match goal with |- exists _, loopM 0 n ?f ?s0 = _ /\ _ => destruct (loopM_ok (fun k (st : work) => (forall m, Green.Model.eleIdx st m = moves V w ops m \/ Green.Model.eleIdx st m = x m) /\ (forall j, 0 <= j < k -> Green.Model.eleIdx st (lab V w (b j)) = x (lab V w (b j))) /\
     (forall c, Green.Model.eleNum st c = occs w ops c \/ Green.Model.eleNum st c = e c) /\ (forall j, 0 <= j < k -> Green.Model.eleNum st (a j) = e (a j) /\ Green.Model.eleNum st (b j) = e (b j))) 0 n f s0) as (w2 & E & P); [exact Hn| | |exists w2; split; [exact E|]] end.
  - rewrite E1, E2. repeat split; auto; lia.
  - intros k w' Hk (P1 & P2 & P3 & P4). destruct (op_facts k Hk) as (Oa & Ob & Eb & Ea & L & Hx). assert (Hl := lab_range k Hk).
    rewrite Hm by exact Hk. change (gNsite G) with N. rewrite (put_ok V K) by assumption. eexists. split; [reflexivity|]. cbn [Green.Model.eleIdx Green.Model.eleNum].
    split; [|split; [|split]].
    + intros m. rewrite upd_get. destruct (Z.eqb_spec m (lab V w (b k))) as [->|]; [right; now symmetry|apply P1].
    + intros j Hj. rewrite upd_get. destruct (Z.eqb_spec (lab V w (b j)) (lab V w (b k))) as [Ej|]; [rewrite Ej; now symmetry|]. destruct (Z.eq_dec j k) as [->|]; [congruence|apply P2; lia].
    + intros c. rewrite !upd_get. destruct (Z.eqb_spec c (b k)) as [->|]; [right; now symmetry|]. destruct (Z.eqb_spec c (a k)) as [->|]; [right; now symmetry|apply P3].
    + intros j Hj. rewrite !upd_get. destruct (Z.eq_dec j k) as [->|Hne].
      * rewrite !Z.eqb_refl. split; [|now symmetry]. destruct (Z.eqb_spec (a k) (b k)); congruence.
      * destruct (P4 j ltac:(lia)) as (Q1 & Q2). split.
        -- destruct (Z.eqb_spec (a j) (b k)) as [Q|]; [rewrite Q; now symmetry|]. destruct (Z.eqb_spec (a j) (a k)) as [Q|]; [rewrite Q; now symmetry|exact Q1].
        -- destruct (Z.eqb_spec (b j) (b k)) as [Q|]; [rewrite Q; now symmetry|]. destruct (Z.eqb_spec (b j) (a k)) as [Q|]; [rewrite Q; now symmetry|exact Q2].
  - destruct P as (P1 & P2 & P3 & P4). split.
    + intros m. destruct (which V w ops m) as [(a' & b' & Hi & ->)|Ho].
      * apply (seg_in a b 0 n) in Hi. destruct Hi as (j & Hj & Q). injection Q as -> ->. now apply P2.
      * destruct (P1 m) as [Q|Q]; [|exact Q]. rewrite Q. apply moves_other. exact Ho.
    + intros c. destruct (occs_cases V w ops c Hcl) as [(b' & Hi & Q)|[(a' & Hi & Q)|(Ho & Q)]].
      * apply (seg_in a b 0 n) in Hi. destruct Hi as (j & Hj & Q'). injection Q' as -> ->. now apply P4.
      * apply (seg_in a b 0 n) in Hi. destruct Hi as (j & Hj & Q'). injection Q' as -> ->. now apply P4.
      * destruct (P3 c) as [Q'|Q']; [rewrite Q'; exact Q|exact Q'].
Qed.
Lemma loop_upd_range {A} m (f : Z -> A) g j : 0 <= j < m -> loop 0 m (fun i g => upd g i (f i)) g j = f j.
Proof.
  intros Hj. apply (loop_inv (fun i g => forall j, 0 <= j < i -> g j = f j) 0 m (fun i g => upd g i (f i)) g); [lia|lia| |exact Hj].
  intros i g' Hi IH k Hk. rewrite upd_get. destruct (Z.eqb_spec k i) as [->|]; [reflexivity|apply IH; lia].
Qed.
Lemma all_moves_gen k0 : starts w k0 -> exists msj p r pf k',
  all_moves G kernel n a b ip (Samp.Model.eleCfg w) (eleProjCnt w) rcnt k0 =
    Some (Cconj (Cdiv (Cmult (Cmult (RtoC (proj_ratio G p (eleProjCnt w))) (machine_part V K rcnt r)) (calculate_ip (gA G) 0 (gNQPFull G) pf)) ip), k') /\
  starts w k' /\ is_proj_cnt (vT V) (occs w ops) p /\ (vFlagRBM V = true -> is_rbm_cnt (vM V) (vRBM V) (occs w ops) r) /\
  (forall k, 0 <= k < n -> msj k = lab V w (b k)) /\
  forall q, 0 <= q < gNQPFull G -> pf q = kernel q n msj b (moves V w ops).
Proof.
  intros Hk0. unfold all_moves. destruct (forth k0 Hk0) as (msj & w1 & E & Hm & E1 & E2 & E3 & E4 & E5). cbv zeta in E |- *. rewrite E. cbn [bind].
  assert (Ho : occ01 N (occs w ops)) by (apply (occs_01 V HV w Hc ops Hcl)). destruct (wv_sites V HV) as (S1 & S2). fold N in S1, S2.
  destruct (make_correct (vT V) (wv_T V HV) (occs w ops)) with (c := projNew w1) as (p & Ep & Hp & _); [rewrite S1; exact Ho|].
  rewrite E2. change (gT G) with (vT V). rewrite Ep. cbn [bind].
  assert (Q : exists r, (if gFlagRBM G then
           r <- make_rbm_cnt (gM G) (gRBM G) (rbmNew w1) (occs w ops);;
           Some (Cmult (RtoC (proj_ratio G p (eleProjCnt w))) (rbm_ratio (gM G) (gclog G) (gRBM G) (gNB G) (gThreads G) (gjunk G) r rcnt), r)
         else Some (RtoC (proj_ratio G p (eleProjCnt w)), rbmNew w1)) = Some (Cmult (RtoC (proj_ratio G p (eleProjCnt w))) (machine_part V K rcnt r), r) /\ (vFlagRBM V = true -> is_rbm_cnt (vM V) (vRBM V) (occs w ops) r)).
  { change (gFlagRBM G) with (vFlagRBM V). change (gM G) with (vM V). change (gRBM G) with (vRBM V). unfold machine_part. destruct (vFlagRBM V).
    - destruct (make_cells (vM V) (wv_M V HV) (vRBM V) (rbmNew w1) (occs w ops)) as (r & Er & Hr). exists r. rewrite Er. split; [reflexivity|]. intros _. exact Hr.
    - exists (rbmNew w1). split; [|discriminate]. do 2 f_equal. ring. }
  destruct Q as (r & Er & Hr). rewrite Er. cbn [bind].
  match goal with |- context [Work (Green.Model.eleIdx w1) ?en p r ?pf] => destruct (back msj (Work (Green.Model.eleIdx w1) en p r pf) Hm E1 eq_refl) as (w2 & Ew2 & Hw2) end.
  rewrite Ew2. cbn [bind]. eexists msj, p, r, _, w2. split; [reflexivity|]. split; [exact Hw2|]. split; [exact Hp|]. split; [exact Hr|]. split; [exact Hm|].
  intros q Hq. rewrite loop_upd_range by exact Hq. now rewrite E1.
Qed.
Lemma all_moves_ok k0 : starts w k0 -> good w (local V ops x) (all_moves G kernel n a b ip (Samp.Model.eleCfg w) (eleProjCnt w) rcnt k0).
Proof.
  intros Hk0. destruct (all_moves_gen k0 Hk0) as (msj & p & r & pf & w2 & E & Hw2 & Hp & Hr & Hm & Hpf). rewrite E.
  exists w2. split; [|exact Hw2]. f_equal. f_equal. unfold local. f_equal. fold x. unfold x. rewrite (clean_value V HN HNe w Hc _ _ Hcl). fold x.
  apply (ratio_moves V HV w Hc K rcnt ip HS ops); [exact Hcl|exact Hp|exact Hr|].
  intros q Hq. rewrite Hpf by exact Hq. apply Hker; [exact Hq|exact Hn| | | |].
  - intros k Hk. rewrite Hm by exact Hk. now apply op_facts.
  - intros k l Hk Hl. rewrite !Hm by assumption. now apply lab_distinct.
  - intros m Hmm. now apply (moves_lattice V HN HNe w Hc ops Hcl m).
  - intros m Hmm Ho'. apply moves_other. intros a' b' Hi. apply (seg_in a b 0 n) in Hi. destruct Hi as (j & Hj & Q'). injection Q' as -> ->. rewrite <- Hm by exact Hj. now apply Ho'.
Qed.
(** a kernel that returns 0 *)
Lemma all_moves_zero k0 : (forall q msj y, kernel q n msj b y = RtoC 0) -> starts w k0 -> good w (RtoC 0) (all_moves G kernel n a b ip (Samp.Model.eleCfg w) (eleProjCnt w) rcnt k0).
Proof.
  intros H0 Hk0. destruct (all_moves_gen k0 Hk0) as (msj & p & r & pf & w2 & E & Hw2 & Hp & Hr & Hm & Hpf). rewrite E.
  exists w2. split; [|exact Hw2]. f_equal. f_equal. replace (calculate_ip (gA G) 0 (gNQPFull G) pf) with (RtoC 0).
  - unfold Cdiv. replace (Cmult (Cmult (RtoC (proj_ratio G p (eleProjCnt w))) (machine_part V K rcnt r)) (RtoC 0)) with (RtoC 0) by ring. rewrite Cmult_0_l. unfold Cconj, RtoC. cbn. now rewrite Ropp_0.
  - assert (HQ : 0 <= gNQPFull G) by (destruct (wv_valid V HV) as (_ & _ & A1 & A2 & A3 & _); change (gNQPFull G) with (Slater.Model.NQPFull (vS V)); unfold Slater.Model.NQPFull, Slater.Model.NQPFix; apply Z.mul_nonneg_nonneg; [apply Z.mul_nonneg_nonneg|]; lia).
    unfold calculate_ip. rewrite Z.sub_0_r. symmetry.
    apply (loop_inv (fun _ (z : C) => z = RtoC 0) 0 (gNQPFull G)); [exact HQ|reflexivity|]. intros i z Hi ->. rewrite Hpf by lia. rewrite H0. ring.
Qed.
End All.

Lemma split_op o : operator V o -> exists r1 r2 s, 0 <= r1 < N /\ 0 <= r2 < N /\ 0 <= s <= 1 /\ fst o = r1 + s * N /\ snd o = r2 + s * N /\ fst o mod N = r1 /\ snd o mod N = r2 /\ fst o / N = s /\ snd o / N = s.
Proof.
  intros (H1 & H2 & H3). destruct (split_orbit V HN w (fst o) H1) as (A1 & A2 & A3). destruct (split_orbit V HN w (snd o) H2) as (B1 & B2 & B3). fold N in A1, A2, A3, B1, B2, B3, H3.
  exists (fst o mod N), (snd o mod N), (fst o / N). rewrite <- H3 in B1 |- *. repeat split; try assumption; lia.
Qed.
Lemma green_n_ok kernel : pfaffian_routine V K w kernel -> forall fuel n a b k0, 0 < n <= Z.of_nat fuel -> legal_ops n a b -> starts w k0 ->
  good w (local V (operators n a b) x) (green_n G kernel fuel n a b ip (Samp.Model.eleCfg w) (eleProjCnt w) rcnt k0).
Proof.
  intros Hker. induction fuel as [|fuel IH]; intros n a b k0 Hn HL Hk0; [lia|]. cbn [green_n].
  replace (existsb _ _) with false.
  2:{ symmetry. apply not_true_is_false. intros X. apply existsb_exists in X. destruct X as (k & Hk & X). apply zrange_in in Hk. destruct (HL k Hk) as (_ & _ & E). cbn [fst snd] in E. change (gNsite G) with (sites V) in X. rewrite E, Z.eqb_refl in X. discriminate. }
  destruct (Z.leb_spec n 0) as [H|_]; [lia|]. change (gNsite G) with N.
  destruct (Z.eqb_spec n 1) as [->|N1].
  { destruct (split_op _ (HL 0 ltac:(lia))) as (r1 & r2 & s & H1 & H2 & H3 & E1 & E2 & M1 & M2 & D1 & D2). cbn [fst snd] in *. rewrite M1, M2, D1.
    change (operators 1 a b) with [(a 0, b 0)]. rewrite E1, E2. now apply (green1_ok V HV w K rcnt ip HS). }
  destruct (Z.eqb_spec n 2) as [->|N2].
  { destruct (split_op _ (HL 0 ltac:(lia))) as (r1 & r2 & s & H1 & H2 & H3 & E1 & E2 & M1 & M2 & D1 & D2). destruct (split_op _ (HL 1 ltac:(lia))) as (r1' & r2' & s' & H1' & H2' & H3' & E1' & E2' & M1' & M2' & D1' & D2'). cbn [fst snd] in *. rewrite M1, M2, D1, M1', M2', D1'.
    change (operators 2 a b) with [(a 0, b 0); (a 1, b 1)]. rewrite E1, E2, E1', E2'. now apply (green2_ok V HV w K rcnt ip HS). }
  destruct (starts_eq w k0 Hk0) as (Ex & Ee). rewrite Ee. assert (R := reduce_all_sound n a b HL ltac:(lia)). fold e. destruct (reduce_all n a b e) as [[|neg a' b']|].
  - cbn [sound] in R. now apply (good_0 V w).
  - cbn [sound] in R. destruct R as (HL' & R). destruct (IH (n - 1) a' b' k0 ltac:(lia) HL' Hk0) as (k' & E & Hk'). rewrite E. cbn [bind]. exists k'. split; [|exact Hk'].
    destruct neg; cbn [fst snd]; do 2 f_equal; symmetry; [now apply (local_opp V w)|now apply (local_eq V w)].
  - apply (all_moves_ok kernel Hker n a b ltac:(lia) R k0 Hk0).
Qed.
Lemma green_n_short kernel fuel n a b k0 : 0 < n <= 2 -> n <= Z.of_nat fuel -> legal_ops n a b -> starts w k0 ->
  good w (local V (operators n a b) x) (green_n G kernel fuel n a b ip (Samp.Model.eleCfg w) (eleProjCnt w) rcnt k0).
Proof.
  intros Hn Hf HL Hk0.
  set (ideal := fun q (_ : Z) (_ _ : Z -> Z) y => Pfaffian.pf (pair_matrix N Ne (elements_of V (sopt0 K) (sE0 K)) q y) (labels V)).
  replace (green_n G kernel fuel n a b ip (Samp.Model.eleCfg w) (eleProjCnt w) rcnt k0) with (green_n G ideal fuel n a b ip (Samp.Model.eleCfg w) (eleProjCnt w) rcnt k0).
  - apply green_n_ok; [|lia|exact HL|exact Hk0]. intros q m msj rsj y _ _ _ _ _ _. reflexivity.
  - assert (n = 1 \/ n = 2) as [-> | ->] by lia; destruct fuel; reflexivity.
Qed.
End GreenN.
