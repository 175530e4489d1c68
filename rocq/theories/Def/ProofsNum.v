(** Numbering of the one-body operators. *)
From Coq Require Import ZArith List Bool Lia.
From Verif Require Import Base.ZLoop Def.Model Def.Spec.
Import ListNotations.
Local Open Scope Z_scope.

Section Num.
Variable Ns : Z.
Definition key (o : op) : Z * Z := let '(x0, x1, x2, x3) := o in (isite Ns x0 x1, isite Ns x2 x3).
Definition at_key (flg : Z -> Z -> Z) (o : op) : Z := flg (fst (key o)) (snd (key o)).
Definition all_ops (ca : list op) (caca : list op2) : list op := ca ++ flat_map (fun p => [fst p; dagger (snd p)]) caca.

Lemma isite_inj x s y t : 0 <= x < Ns -> 0 <= y < Ns -> 0 <= s < 2 -> 0 <= t < 2 -> isite Ns x s = isite Ns y t -> x = y /\ s = t.
Proof. unfold isite. intros Hx Hy Hs Ht H. assert (s = t) by nia. subst t. lia. Qed.
Lemma key_inj o o' : op_ok Ns o -> op_ok Ns o' -> key o = key o' -> o = o'.
Proof.
  destruct o as [[[x0 x1] x2] x3], o' as [[[y0 y1] y2] y3]. cbn. intros (A & B & C & D) (A' & B' & C' & D') E. injection E as E1 E2.
  apply isite_inj in E1; try assumption. apply isite_inj in E2; try assumption. destruct E1, E2. now subst.
Qed.
Lemma upd2_spec {A} (f : Z -> Z -> A) i j v a b : upd2 f i j v a b = if (a =? i) && (b =? j) then v else f a b.
Proof.
  unfold upd2. destruct (a =? i) eqn:Ea; cbn [andb].
  - apply Z.eqb_eq in Ea. subst a. rewrite upd_same. destruct (b =? j) eqn:Eb; [apply Z.eqb_eq in Eb; subst; apply upd_same|apply upd_other; lia].
  - rewrite upd_other by lia. reflexivity.
Qed.

Record inv (seen : list op) (st : (Z -> Z -> Z) * Z) : Prop := Inv {
  i_n : 0 <= snd st;
  i_range : forall a b, fst st a b = -1 \/ 0 <= fst st a b < snd st;
  i_seen : forall a b, fst st a b <> -1 <-> exists o, In o seen /\ key o = (a, b);
  i_inj : forall a b a' b', fst st a b <> -1 -> fst st a b = fst st a' b' -> a = a' /\ b = b';
  i_onto : forall i, 0 <= i < snd st -> exists a b, fst st a b = i }.
Lemma number_key o flg n : number_one Ns o (flg, n) = if at_key flg o =? -1 then (upd2 flg (fst (key o)) (snd (key o)) n, n + 1) else (flg, n).
Proof. destruct o as [[[x0 x1] x2] x3]. reflexivity. Qed.
Lemma inv_step seen st o : inv seen st -> inv (seen ++ [o]) (number_one Ns o st).
Proof.
  destruct st as [flg n]. intros [H1 H2 H3 H4 H5]. cbn [fst snd] in *. rewrite number_key. unfold at_key. destruct (key o) as [ka kb] eqn:Ek. cbn [fst snd].
  destruct (flg ka kb =? -1) eqn:E.
  - apply Z.eqb_eq in E. constructor; cbn [fst snd].
    + lia.
    + intros a b. rewrite upd2_spec. destruct ((a =? ka) && (b =? kb)) eqn:F; [right; lia|]. destruct (H2 a b); [now left|right; lia].
    + intros a b. rewrite upd2_spec. destruct ((a =? ka) && (b =? kb)) eqn:F.
      * split; [intros _|intros _; lia]. exists o. rewrite Ek. split; [apply in_or_app; right; now left|]. f_equal; lia.
      * rewrite H3. split; intros (o' & Ho & Hk); exists o'; (split; [|exact Hk]); [apply in_or_app; now left|].
        apply in_app_or in Ho. destruct Ho as [Ho|[->|[]]]; [exact Ho|]. exfalso. rewrite Ek in Hk. injection Hk as -> ->. lia.
    + intros a b a' b'. rewrite !upd2_spec. destruct ((a =? ka) && (b =? kb)) eqn:F, ((a' =? ka) && (b' =? kb)) eqn:F'; intros G1 G2.
      * lia.
      * destruct (H2 a' b'); lia.
      * destruct (H2 a b); lia.
      * now apply H4.
    + intros i Hi. destruct (Z.eq_dec i n) as [->|Hn]; [exists ka, kb; rewrite upd2_spec; now rewrite !Z.eqb_refl|].
      destruct (H5 i ltac:(lia)) as (a & b & Hab). exists a, b. rewrite upd2_spec. destruct ((a =? ka) && (b =? kb)) eqn:F; [|exact Hab].
      exfalso. apply andb_prop in F. destruct F as [F1 F2]. apply Z.eqb_eq in F1, F2. subst. lia.
  - apply Z.eqb_neq in E. constructor; cbn [fst snd]; try assumption. intros a b. rewrite H3. split; intros (o' & Ho & Hk).
    + exists o'. split; [apply in_or_app; now left|exact Hk].
    + apply in_app_or in Ho. destruct Ho as [Ho|[->|[]]]; [now exists o'|]. rewrite Ek in Hk. injection Hk as <- <-. now apply H3.
Qed.
Lemma inv_fold l seen st : inv seen st -> inv (seen ++ l) (fold_left (fun st o => number_one Ns o st) l st).
Proof.
  revert seen st. induction l as [|o l IH]; intros seen st H; cbn [fold_left]; [now rewrite app_nil_r|].
  replace (seen ++ o :: l) with ((seen ++ [o]) ++ l) by (rewrite <- app_assoc; reflexivity). apply IH. now apply inv_step.
Qed.
Lemma count_fold ca caca : count_one_body Ns ca caca = fold_left (fun st o => number_one Ns o st) (all_ops ca caca) (fun _ _ => -1, 0).
Proof.
  unfold count_one_body, all_ops. rewrite fold_left_app. generalize (fold_left (fun st o => number_one Ns o st) ca (fun _ _ => -1, 0)).
  induction caca as [|[[[[x0 x1] x2] x3] [[[x4 x5] x6] x7]] l IH]; intros st; cbn [fold_left flat_map app fst snd dagger]; [reflexivity|]. apply IH.
Qed.
Lemma count_inv ca caca : inv (all_ops ca caca) (count_one_body Ns ca caca).
Proof.
  rewrite count_fold. apply (inv_fold (all_ops ca caca) []). constructor; cbn.
  - lia.
  - now left.
  - intros a b. split; [lia|]. intros (o & [] & _).
  - lia.
  - lia.
Qed.
Lemma in_all ca caca o : In o (all_ops ca caca) <-> needed ca caca o.
Proof.
  unfold all_ops, needed. rewrite in_app_iff, in_flat_map. split; (intros [H|(p & Hp & H)]; [now left|right; exists p; split; [exact Hp|]]).
  - destruct H as [H|[H|[]]]; [left|right]; now symmetry.
  - destruct H as [-> | ->]; [now left|right; now left].
Qed.
Definition op_dec (x y : op) : {x = y} + {x <> y}.
Proof. unfold op in *. repeat decide equality. Defined.
(** filling *)
Definition put (flg : Z -> Z -> Z) (a : Z -> option op) (o : op) : Z -> option op := upd a (at_key flg o) (Some o).
Lemma fill_one_eq flg ca a : fill_one Ns flg ca a = fold_left (put flg) ca a.
Proof. unfold fill_one. revert a. induction ca as [|[[[x0 x1] x2] x3] l IH]; intros a; cbn [fold_left]; [reflexivity|]. apply IH. Qed.
Lemma fill_two_eq flg caca a : fst (fill_two Ns flg caca a) = fold_left (put flg) (flat_map (fun p => [fst p; dagger (snd p)]) caca) a /\
  forall k p, nth_error caca k = Some p -> snd (fill_two Ns flg caca a) (Z.of_nat k) = (at_key flg (fst p), at_key flg (dagger (snd p))).
Proof.
  unfold fill_two.
  assert (G : forall l i a c, 0 <= i -> let r := snd (fold_left (fun (st : Z * ((Z -> option op) * (Z -> Z * Z))) o =>
    let '(idx, (a, c)) := st in
    let '((x0, x1, x2, x3), (x4, x5, x6, x7)) := o in
    let n1 := flg (isite Ns x0 x1) (isite Ns x2 x3) in
    let a := upd a n1 (Some (x0, x1, x2, x3)) in
    let n2 := flg (isite Ns x6 x7) (isite Ns x4 x5) in
    let a := upd a n2 (Some (x6, x7, x4, x5)) in
    (idx + 1, (a, upd c idx (n1, n2)))) l (i, (a, c))) in
    fst r = fold_left (put flg) (flat_map (fun p => [fst p; dagger (snd p)]) l) a /\
    (forall k p, nth_error l k = Some p -> snd r (i + Z.of_nat k) = (at_key flg (fst p), at_key flg (dagger (snd p)))) /\
    (forall j, j < i -> snd r j = c j)).
  { induction l as [|[[[[x0 x1] x2] x3] [[[x4 x5] x6] x7]] l IH]; intros i a0 c Hi; cbn [fold_left flat_map app].
    - cbn. split; [reflexivity|]. split; [intros [|k] p H; discriminate|reflexivity].
    - destruct (IH (i + 1) (upd (upd a0 (flg (isite Ns x0 x1) (isite Ns x2 x3)) (Some (x0, x1, x2, x3))) (flg (isite Ns x6 x7) (isite Ns x4 x5)) (Some (x6, x7, x4, x5)))
        (upd c i (flg (isite Ns x0 x1) (isite Ns x2 x3), flg (isite Ns x6 x7) (isite Ns x4 x5))) ltac:(lia)) as (E1 & E2 & E3).
      split; [exact E1|]. split.
      + intros [|k] p Hp; cbn [nth_error] in Hp.
        * injection Hp as <-. rewrite Z.add_0_r. rewrite E3 by lia. now rewrite upd_same.
        * replace (i + Z.of_nat (S k)) with (i + 1 + Z.of_nat k) by lia. now apply E2.
      + intros j Hj. rewrite E3 by lia. apply upd_other. lia. }
  destruct (G caca 0 a (fun _ => (0, 0)) ltac:(lia)) as (E1 & E2 & _). split; [exact E1|]. intros k p Hp. exact (E2 k p Hp).
Qed.
Lemma put_all flg l a : (forall o o', In o l -> In o' l -> at_key flg o = at_key flg o' -> o = o') ->
  (forall o, In o l -> fold_left (put flg) l a (at_key flg o) = Some o) /\ (forall i, (forall o, In o l -> at_key flg o <> i) -> fold_left (put flg) l a i = a i).
Proof.
  revert a. induction l as [|o l IH]; intros a H; cbn [fold_left]; [split; [intros o []|reflexivity]|].
  destruct (IH (put flg a o) ltac:(intros; apply H; [now right|now right|assumption])) as [E1 E2]. split.
  - intros o' [<-|Ho]; [|now apply E1].
    destruct (in_dec op_dec o l) as [Hi|Hi]; [now apply E1|].
    rewrite E2; [unfold put; apply upd_same|]. intros o' Ho' Hk. apply Hi. rewrite <- (H o' o); [exact Ho'|now right|now left|exact Hk].
  - intros i Hi. rewrite E2 by (intros o' Ho'; apply Hi; now right). unfold put. apply upd_other. intros E. apply (Hi o); [now left|now symmetry].
Qed.
Lemma green ca caca n a c : (forall o, needed ca caca o -> op_ok Ns o) -> read_green Ns ca caca = (n, a, c) ->
  (forall i, 0 <= i < n -> exists o, a i = Some o /\ needed ca caca o) /\
  (forall i j o, 0 <= i < n -> 0 <= j < n -> a i = Some o -> a j = Some o -> i = j) /\
  (forall o, needed ca caca o -> exists i, 0 <= i < n /\ a i = Some o) /\
  (forall k p, nth_error caca k = Some p -> exists i j, c (Z.of_nat k) = (i, j) /\ 0 <= i < n /\ 0 <= j < n /\ a i = Some (fst p) /\ a j = Some (dagger (snd p))).
Proof.
  intros Hok. unfold read_green. assert (I := count_inv ca caca). destruct (count_one_body Ns ca caca) as [flg m]. destruct (fill_two_eq flg caca (fill_one Ns flg ca (fun _ => None))) as [F1 F2].
  destruct (fill_two Ns flg caca (fill_one Ns flg ca (fun _ => None))) as [a' c']. cbn [fst snd] in F1, F2. intros E. injection E as <- <- <-.
  rewrite fill_one_eq, <- fold_left_app in F1. fold (all_ops ca caca) in F1. destruct I as [I1 I2 I3 I4 I5]. cbn [fst snd] in *.
  assert (Hv : forall o, In o (all_ops ca caca) -> 0 <= at_key flg o < m).
  { intros o Ho. unfold at_key. destruct (I2 (fst (key o)) (snd (key o))) as [E|E]; [|exact E]. exfalso. apply (proj2 (I3 (fst (key o)) (snd (key o)))); [|exact E]. exists o. split; [exact Ho|]. now destruct (key o). }
  assert (Hinj : forall o o', In o (all_ops ca caca) -> In o' (all_ops ca caca) -> at_key flg o = at_key flg o' -> o = o').
  { intros o o' Ho Ho' E. apply key_inj; [apply Hok; now apply in_all|apply Hok; now apply in_all|]. assert (V := Hv o Ho). unfold at_key in V, E.
    destruct (I4 (fst (key o)) (snd (key o)) (fst (key o')) (snd (key o')) ltac:(lia) E). destruct (key o), (key o'). cbn in *. now subst. }
  destruct (put_all flg (all_ops ca caca) (fun _ => None) Hinj) as [P1 P2]. rewrite <- F1 in P1, P2.
  assert (Hsur : forall i, 0 <= i < m -> exists o, In o (all_ops ca caca) /\ at_key flg o = i).
  { intros i Hi. destruct (I5 i Hi) as (x & y & Hxy). destruct (proj1 (I3 x y) ltac:(lia)) as (o & Ho & Hk). exists o. split; [exact Ho|]. unfold at_key. now rewrite Hk. }
  split; [|split; [|split]].
  - intros i Hi. destruct (Hsur i Hi) as (o & Ho & <-). exists o. split; [now apply P1|now apply in_all].
  - intros i j o Hi Hj Hai Haj. destruct (Hsur i Hi) as (o1 & Ho1 & <-). destruct (Hsur j Hj) as (o2 & Ho2 & <-). rewrite P1 in Hai, Haj by assumption. congruence.
  - intros o Ho. apply in_all in Ho. exists (at_key flg o). split; [now apply Hv|now apply P1].
  - intros k p Hp. assert (Hin : In p caca) by (eapply nth_error_In; exact Hp). exists (at_key flg (fst p)), (at_key flg (dagger (snd p))).
    assert (N1 : In (fst p) (all_ops ca caca)) by (apply in_all; right; exists p; split; [exact Hin|now left]).
    assert (N2 : In (dagger (snd p)) (all_ops ca caca)) by (apply in_all; right; exists p; split; [exact Hin|now right]).
    split; [now apply F2|]. split; [now apply Hv|]. split; [now apply Hv|]. split; now apply P1.
Qed.
(** rows in file order *)
Lemma count_nodup l seen st : inv seen st -> (forall o, In o (seen ++ l) -> op_ok Ns o) -> NoDup l -> (forall o, In o l -> ~ In o seen) ->
  snd (fold_left (fun st o => number_one Ns o st) l st) = snd st + Z.of_nat (length l).
Proof.
  revert seen st. induction l as [|o l IH]; intros seen st I Hok Hn Hd; cbn [fold_left length]; [lia|]. inversion Hn as [|? ? Hno Hnl]; subst.
  rewrite (IH (seen ++ [o])).
  - destruct st as [flg n]. rewrite number_key. destruct (at_key flg o =? -1) eqn:E; [cbn [snd]; lia|exfalso]. apply Z.eqb_neq in E.
    destruct (proj1 (i_seen _ _ I (fst (key o)) (snd (key o))) E) as (o' & Ho' & Hk). apply (Hd o); [now left|].
    replace o with o'; [exact Ho'|]. apply key_inj; [apply Hok; apply in_or_app; now left|apply Hok; apply in_or_app; right; now left|]. rewrite Hk. now destruct (key o).
  - now apply inv_step.
  - intros o' Ho'. apply Hok. rewrite <- app_assoc in Ho'. exact Ho'.
  - exact Hnl.
  - intros o' Ho' Hi. apply in_app_or in Hi. destruct Hi as [Hi|[<-|[]]]; [apply (Hd o'); [now right|exact Hi]|contradiction].
Qed.
Lemma direct ca : (forall o, In o ca -> op_ok Ns o) -> NoDup ca -> exists a, read_green_direct Ns ca = Some (Z.of_nat (length ca), a) /\ forall k o, nth_error ca k = Some o -> a (Z.of_nat k) = Some o.
Proof.
  intros Hok Hn. unfold read_green_direct. assert (Hc : snd (count_one_body Ns ca []) = Z.of_nat (length ca)).
  { rewrite count_fold. unfold all_ops. cbn [flat_map]. rewrite app_nil_r. rewrite (count_nodup ca []); [cbn; lia| |exact Hok|exact Hn|intros o _ []].
    constructor; cbn; [lia|now left| |lia|lia]. intros a b. split; [lia|]. intros (o & [] & _). }
  destruct (count_one_body Ns ca []) as [flg n]. cbn [snd] in Hc. subst n.
  assert (G : forall l i a, 0 <= i -> i + Z.of_nat (length l) <= Z.of_nat (length ca) ->
    exists a', fold_left (fun (st : Z * (Z -> option op) * bool) o => let '(idx, a, ok) := st in (idx + 1, upd a idx (Some o), ok && (idx <? Z.of_nat (length ca)))) l (i, a, true) = (i + Z.of_nat (length l), a', true) /\
      (forall k o, nth_error l k = Some o -> a' (i + Z.of_nat k) = Some o) /\ forall j, j < i -> a' j = a j).
  { induction l as [|o l IH]; intros i a Hi Hl; cbn [fold_left length] in *.
    - exists a. split; [f_equal; f_equal; lia|]. split; [intros [|k] o H; discriminate|reflexivity].
    - replace (true && (i <? Z.of_nat (length ca))) with true by lia. destruct (IH (i + 1) (upd a i (Some o)) ltac:(lia) ltac:(lia)) as (a' & E & E1 & E2).
      exists a'. rewrite E. split; [f_equal; f_equal; lia|]. split.
      + intros [|k] o' Ho; cbn [nth_error] in Ho; [injection Ho as <-; rewrite Z.add_0_r, E2 by lia; apply upd_same|].
        replace (i + Z.of_nat (S k)) with (i + 1 + Z.of_nat k) by lia. now apply E1.
      + intros j Hj. rewrite E2 by lia. apply upd_other. lia. }
  destruct (G ca 0 (fun _ => None) ltac:(lia) ltac:(lia)) as (a' & E & E1 & _). rewrite E. exists a'. split; [reflexivity|]. exact E1.
Qed.
End Num.
