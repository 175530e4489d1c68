From Coq Require Import ZArith List Bool String Lia.
From Verif Require Import Base.ZLoop Mem.Model Mem.Spec Opt.Model Opt.Spec.
From Verif Require File.Spec File.ProofsRej.
Import ListNotations.
Local Open Scope Z_scope.

Lemma put_ok n a i v a' : put n a i v = Ok a' -> a' = upd a i v /\ 0 <= i < n.
Proof. unfold put. destruct ((0 <=? i) && (i <? n)) eqn:E; [|discriminate]. intros H. injection H as <-. split; [reflexivity|lia]. Qed.

Definition flag_at (l : list (Z * Z)) (i : Z) : option Z := option_map snd (nth_error l (Z.to_nat i)).
(** the flags a family's file leaves *)
Definition after (c fidx : Z) (l : list (Z * Z)) (opt : memory) (k : Z) : option Z :=
  if (2 * fidx <=? k) && (k <? 2 * (fidx + Z.of_nat (List.length l)))
  then if (k mod 2 =? 0) || (0 <? c) then flag_at l (k / 2 - fidx) else opt k
  else opt k.
Lemma flag_cons x l i : 0 < i -> flag_at (x :: l) i = flag_at l (i - 1).
Proof. intros H. unfold flag_at. replace (Z.to_nat i) with (Datatypes.S (Z.to_nat (i - 1))) by lia. reflexivity. Qed.
Lemma opt_ok N c l : forall fuel opt fidx count n opt', get_info_opt N fuel (flag_lines l) opt c fidx count = Ok (n, opt') ->
  n = count + Z.of_nat (List.length l) /\ forall k, opt' k = after c fidx l opt k.
Proof.
  induction l as [|[x f] l IH]; intros fuel opt fidx count n opt' H; destruct fuel as [|fuel]; try discriminate H.
  - cbn in H. injection H as <- <-. split; [cbn; lia|]. intros k. unfold after. cbn [List.length Z.of_nat]. replace ((2 * fidx <=? k) && (k <? 2 * (fidx + 0))) with false by lia. reflexivity.
  - cbn [flag_lines flat_map app get_info_opt skip_number scan fst snd] in H. fold (flag_lines l) in H. destruct (put N opt (2 * fidx) (Some f)) as [o1| |] eqn:E1; try discriminate H. cbn [bind] in H. apply put_ok in E1. destruct E1 as [-> B1].
    match type of H with bind ?r _ = _ => destruct r as [o2| |] eqn:E2; try discriminate H end.
    cbn [bind] in H. apply IH in H. destruct H as [-> H]. split; [cbn [List.length]; lia|]. intros k. rewrite H. clear H. unfold after. cbn [List.length]. rewrite Nat2Z.inj_succ.
    assert (O2 : forall k, o2 k = if k =? 2 * fidx then Some f else if (k =? 2 * fidx + 1) && (0 <? c) then Some f else opt k).
    { intros k'. destruct (0 <? c).
      - apply put_ok in E2. destruct E2 as [-> B2]. rewrite !upd_get, Z.eqb_refl, andb_true_r. destruct (Z.eqb_spec k' (2 * fidx + 1)), (Z.eqb_spec k' (2 * fidx)); try reflexivity; lia.
      - injection E2 as <-. rewrite upd_get, andb_false_r. reflexivity. }
    rewrite O2. destruct (Z.eqb_spec k (2 * fidx)) as [->|N1].
    { replace ((2 * (fidx + 1) <=? 2 * fidx) && (2 * fidx <? 2 * (fidx + 1 + Z.of_nat (List.length l)))) with false by lia.
      replace ((2 * fidx <=? 2 * fidx) && (2 * fidx <? 2 * (fidx + Z.succ (Z.of_nat (List.length l))))) with true by lia.
      rewrite Z.mul_comm, Z.mod_mul, Z.div_mul by lia. cbn [Z.eqb orb]. now rewrite Z.sub_diag. }
    destruct (Z.eqb_spec k (2 * fidx + 1)) as [->|N2].
    { replace ((2 * (fidx + 1) <=? 2 * fidx + 1) && (2 * fidx + 1 <? 2 * (fidx + 1 + Z.of_nat (List.length l)))) with false by lia.
      replace ((2 * fidx <=? 2 * fidx + 1) && (2 * fidx + 1 <? 2 * (fidx + Z.succ (Z.of_nat (List.length l))))) with true by lia.
      replace (2 * fidx + 1) with (1 + fidx * 2) by lia. rewrite Z.mod_add, Z.div_add by lia. change (1 mod 2 =? 0) with false. cbn [orb andb]. replace (1 / 2 + fidx - fidx) with 0 by (change (1 / 2) with 0; lia). reflexivity. }
    cbn [andb]. destruct ((2 * (fidx + 1) <=? k) && (k <? 2 * (fidx + 1 + Z.of_nat (List.length l)))) eqn:B.
    + replace ((2 * fidx <=? k) && (k <? 2 * (fidx + Z.succ (Z.of_nat (List.length l))))) with true by lia.
      destruct ((k mod 2 =? 0) || (0 <? c)); [|reflexivity]. rewrite flag_cons; [f_equal; lia|]. enough (fidx + 1 <= k / 2) by lia. apply Z.div_le_lower_bound; lia.
    + replace ((2 * fidx <=? k) && (k <? 2 * (fidx + Z.succ (Z.of_nat (List.length l))))) with false by lia. reflexivity.
Qed.
(** four flags per line *)
Definition after_parallel (c fidx : Z) (l : list (Z * Z)) (opt : memory) (k : Z) : option Z :=
  if (2 * fidx <=? k) && (k <? 2 * (fidx + 2 * Z.of_nat (List.length l)))
  then if k mod 2 =? 0 then flag_at l ((k / 2 - fidx) / 2) else Some c
  else opt k.
Lemma opt_parallel_ok N c l : forall fuel opt fidx count n opt', get_info_opt_parallel N fuel (flag_lines l) opt c fidx count = Ok (n, opt') ->
  n = count + Z.of_nat (List.length l) /\ forall k, opt' k = after_parallel c (fidx + 2 * count) l opt k.
Proof.
  induction l as [|[x f] l IH]; intros fuel opt fidx count n opt' H; destruct fuel as [|fuel]; try discriminate H.
  - cbn in H. injection H as <- <-. split; [cbn; lia|]. intros k. unfold after_parallel. cbn [List.length Z.of_nat]. replace ((2 * (fidx + 2 * count) <=? k) && (k <? 2 * (fidx + 2 * count + 2 * 0))) with false by lia. reflexivity.
  - cbn [flag_lines flat_map app get_info_opt_parallel skip_number scan fst snd] in H. fold (flag_lines l) in H. set (q := fidx + 2 * count) in *.
    destruct (put N opt (2 * q) (Some f)) as [o1| |] eqn:E1; try discriminate H. cbn [bind] in H. apply put_ok in E1. destruct E1 as [-> B1].
    destruct (put N (upd opt (2 * q) (Some f)) (2 * q + 1) (Some c)) as [o1| |] eqn:E1; try discriminate H. cbn [bind] in H. apply put_ok in E1. destruct E1 as [-> B2].
    match type of H with bind (put N ?o _ ?v) _ = _ => destruct (put N o (2 * q + 2) v) as [o1| |] eqn:E1; try discriminate H end. cbn [bind] in H. apply put_ok in E1. destruct E1 as [-> B3].
    match type of H with bind (put N ?o _ ?v) _ = _ => destruct (put N o (2 * q + 3) v) as [o1| |] eqn:E1; try discriminate H end. cbn [bind] in H. apply put_ok in E1. destruct E1 as [-> B4].
    apply IH in H. destruct H as [-> H]. split; [cbn [List.length]; lia|]. intros k. rewrite H. clear H IH. unfold after_parallel. cbn [List.length]. rewrite Nat2Z.inj_succ.
    replace (fidx + 2 * (count + 1)) with (q + 2) by (unfold q; lia). rewrite !upd_get. clearbody q.
    assert (DM := Z.div_mod k 2 ltac:(lia)). assert (MB := Z.mod_pos_bound k 2 ltac:(lia)).
    assert (DM' := Z.div_mod (k / 2 - q) 2 ltac:(lia)). assert (MB' := Z.mod_pos_bound (k / 2 - q) 2 ltac:(lia)).
    destruct ((2 * (q + 2) <=? k) && (k <? 2 * (q + 2 + 2 * Z.of_nat (List.length l)))) eqn:B.
    + replace ((2 * q <=? k) && (k <? 2 * (q + 2 * Z.succ (Z.of_nat (List.length l))))) with true by lia. destruct (k mod 2 =? 0); [|reflexivity].
      rewrite (flag_cons _ l ((k / 2 - q) / 2)) by lia. f_equal. replace (k / 2 - (q + 2)) with ((k / 2 - q) + (-1) * 2) by lia. rewrite Z.div_add by lia. lia.
    + destruct ((2 * q <=? k) && (k <? 2 * (q + 2 * Z.succ (Z.of_nat (List.length l))))) eqn:B'.
      * destruct (Z.eqb_spec (k mod 2) 0) as [E|E].
        -- replace ((k / 2 - q) / 2) with 0 by lia. unfold flag_at. cbn [Z.to_nat nth_error option_map snd].
           destruct (Z.eqb_spec k (2 * q + 3)); [lia|]. destruct (Z.eqb_spec k (2 * q + 2)). { destruct (Z.eqb_spec (2 * q) (2 * q + 1)); [lia|]. now rewrite Z.eqb_refl. } destruct (Z.eqb_spec k (2 * q + 1)); [lia|]. destruct (Z.eqb_spec k (2 * q)); [reflexivity|lia].
        -- destruct (Z.eqb_spec k (2 * q + 3)); [reflexivity|]. destruct (Z.eqb_spec k (2 * q + 2)); [lia|]. destruct (Z.eqb_spec k (2 * q + 1)); [reflexivity|]. lia.
      * destruct (Z.eqb_spec k (2 * q + 3)); [lia|]. destruct (Z.eqb_spec k (2 * q + 2)); [lia|]. destruct (Z.eqb_spec k (2 * q + 1)); [lia|]. destruct (Z.eqb_spec k (2 * q)); [lia|reflexivity].
Qed.

Definition row := (string * (bool * Z * Z))%type.
Definition first_of (e : row) : Z := snd (fst (snd e)).
Definition lines_of (e : row) : Z := snd (snd e).
Definition span (e : row) : Z := if fst (fst (snd e)) then 2 * lines_of e else lines_of e.
Definition covers (e : row) (k : Z) : Prop := 2 * first_of e <= k < 2 * (first_of e + span e).
Section Rows.
Variable S : sizes.
Variable files : string -> option (bool * list token).
Variable cflag : string -> Z.
Variable fuel : nat.
Hypothesis F : forall k p, files k = Some p -> exists l, snd p = flag_lines l.
Definition left (e : row) (l : list (Z * Z)) (opt : memory) (k : Z) : option Z :=
  if fst (fst (snd e)) then after_parallel (cflag (fst e)) (first_of e) l opt k else after (cflag (fst e)) (first_of e) l opt k.
Definition named (e : row) : bool := is_named (files (fst e)).
Lemma family_ok e opt count info opt' count' info' : read_family S files cflag fuel e (opt, count, info) = Ok (opt', count', info') -> info' = false ->
  info = false /\ count' = count + (if named e then span e else 0) /\
  (named e = false \/ lines_of e = 0 -> forall k, opt' k = opt k) /\
  (named e = true -> lines_of e <> 0 -> exists l, files (fst e) = Some (true, flag_lines l) /\ Z.of_nat (List.length l) = lines_of e /\ forall k, opt' k = left e l opt k).
Proof using F.
  destruct e as [k [[par fidx] n]]. unfold read_family, named, span, left, lines_of, first_of. cbn [fst snd]. destruct (files k) as [[complete t]|] eqn:Ek; cbn [is_named].
  2: { intros H Hi. injection H as <- <- <-. split; [exact Hi|]. split; [lia|]. split; [reflexivity|discriminate]. }
  destruct (Z.eqb_spec n 0) as [->|N].
  { intros H Hi. injection H as <- <- <-. split; [exact Hi|]. split; [destruct par; lia|]. split; [reflexivity|intros _ X; now contradiction X]. }
  destruct (F k _ Ek) as [l E]. cbn [snd] in E. subst t. intros H Hi. destruct par.
  - destruct (get_info_opt_parallel _ _ _ _ _ _ _) as [[m o]| |] eqn:G; try discriminate H. cbn [bind] in H. injection H as <- <- <-. apply opt_parallel_ok in G. destruct G as [-> G].
    apply orb_false_iff in Hi. destruct Hi as [Hi H3]. apply orb_false_iff in Hi. destruct Hi as [H1 H2]. apply negb_false_iff in H2, H3. apply Z.eqb_eq in H3. cbv iota.
    split; [exact H1|]. split; [rewrite H3; reflexivity|]. split; [intros [X|X]; [discriminate|contradiction]|]. intros _ _. exists l. subst complete. split; [reflexivity|]. split; [lia|]. intros k'. rewrite G. now replace (fidx + 2 * 0) with fidx by lia.
  - destruct (get_info_opt _ _ _ _ _ _ _) as [[m o]| |] eqn:G; try discriminate H. cbn [bind] in H. injection H as <- <- <-. apply opt_ok in G. destruct G as [-> G].
    apply orb_false_iff in Hi. destruct Hi as [Hi H3]. apply orb_false_iff in Hi. destruct Hi as [H1 H2]. apply negb_false_iff in H2, H3. apply Z.eqb_eq in H3. cbv iota.
    split; [exact H1|]. split; [lia|]. split; [intros [X|X]; [discriminate|contradiction]|]. intros _ _. exists l. subst complete. split; [reflexivity|]. split; [lia|]. exact G.
Qed.
Lemma fold_bad kws r : (forall st, r <> Ok st) -> forall st, fold_left (fun r e => bind r (read_family S files cflag fuel e)) kws r <> Ok st.
Proof using. clear. revert r. induction kws as [|e kws IH]; intros r H; [exact H|]. cbn [fold_left]. apply IH. intros st. destruct r; cbn; [now contradiction (H a)|discriminate|discriminate]. Qed.
Lemma left_in e l opt opt0 k : covers e k -> Z.of_nat (List.length l) = lines_of e -> opt k = opt0 k -> left e l opt k = left e l opt0 k.
Proof using.
  clear. unfold covers, left, span. destruct e as [kw [[par fidx] n]]. unfold first_of, lines_of. cbn [fst snd]. intros B L E. destruct par.
  - unfold after_parallel. rewrite L. replace ((2 * fidx <=? k) && (k <? 2 * (fidx + 2 * n))) with true by lia. reflexivity.
  - unfold after. rewrite L. replace ((2 * fidx <=? k) && (k <? 2 * (fidx + n))) with true by lia. destruct (_ || _); [reflexivity|exact E].
Qed.
Lemma left_out e l opt k : ~ covers e k -> Z.of_nat (List.length l) = lines_of e -> left e l opt k = opt k.
Proof using.
  clear. unfold covers, left, span. destruct e as [kw [[par fidx] n]]. unfold first_of, lines_of. cbn [fst snd]. intros B L. destruct par.
  - unfold after_parallel. rewrite L. replace ((2 * fidx <=? k) && (k <? 2 * (fidx + 2 * n))) with false by lia. reflexivity.
  - unfold after. rewrite L. replace ((2 * fidx <=? k) && (k <? 2 * (fidx + n))) with false by lia. reflexivity.
Qed.
Definition sum_named (kws : list row) : Z := zsum kws (fun e => if named e then span e else 0).
Lemma rows_ok kws : forall opt count info opt' count', fold_left (fun r e => bind r (read_family S files cflag fuel e)) kws (Ok (opt, count, info)) = Ok (opt', count', false) ->
  ForallOrdPairs (fun e e' => named e = true -> named e' = true -> forall k, covers e k -> covers e' k -> False) kws ->
  info = false /\ count' = count + sum_named kws /\
  (forall k, (forall e, In e kws -> named e = true -> ~ covers e k) -> opt' k = opt k) /\
  (forall e, In e kws -> named e = true -> lines_of e <> 0 -> exists l, files (fst e) = Some (true, flag_lines l) /\ Z.of_nat (List.length l) = lines_of e /\ forall k, covers e k -> opt' k = left e l opt k).
Proof using F.
  induction kws as [|e kws IH]; intros opt count info opt' count' H A; cbn [fold_left] in H.
  - injection H as <- <- <-. split; [reflexivity|]. split; [unfold sum_named; cbn; lia|]. split; [reflexivity|]. intros e [].
  - destruct (bind (Ok (opt, count, info)) (read_family S files cflag fuel e)) as [[[o1 c1] i1]| |] eqn:E1; [|exfalso; eapply fold_bad; [|exact H]; discriminate|exfalso; eapply fold_bad; [|exact H]; discriminate].
    inversion A as [|? ? A1 A2]; subst. destruct (IH _ _ _ _ _ H A2) as (-> & -> & Q1 & Q2). cbn [bind] in E1. destruct (family_ok _ _ _ _ _ _ _ E1 eq_refl) as (-> & -> & P1 & P2).
    split; [reflexivity|]. split; [unfold sum_named; cbn [zsum]; fold (sum_named kws); unfold sum_named; try (cbn; lia); lia|].
    assert (P3 : forall k, (named e = true -> ~ covers e k) -> o1 k = opt k).
    { intros k X. destruct (named e) eqn:Ne; [|apply P1; now left]. destruct (Z.eq_dec (lines_of e) 0) as [Z0|Z0]; [apply P1; now right|]. destruct (P2 eq_refl Z0) as (l & _ & L & R). rewrite R. apply left_out; [now apply X|exact L]. }
    split.
    + intros k X. rewrite Q1; [|intros e' I; apply X; now right]. apply P3. intros Ne. apply X; [now left|exact Ne].
    + intros e' [<-|I] Ne Z0.
      * destruct (P2 Ne Z0) as (l & G & L & R). exists l. split; [exact G|]. split; [exact L|]. intros k C. rewrite Q1; [apply R|]. intros e' I N' C'. apply (proj1 (Forall_forall _ _) A1 e' I Ne N' k C C').
      * destruct (Q2 e' I Ne Z0) as (l & G & L & R). exists l. split; [exact G|]. split; [exact L|]. intros k C. rewrite R by exact C. apply left_in; [exact C|exact L|]. apply P3. intros Ne'. intros C'. apply (proj1 (Forall_forall _ _) A1 e' I Ne' Ne k C' C).
Qed.
End Rows.
