(** One- and two-index tables; the end of the reading. *)
From Coq Require Import ZArith List Bool String Lia.
From Verif Require Import Base.ZLoop Mem.Model Opt.Model Opt.Spec Opt.ProofsTab.
Import ListNotations.
Local Open Scope Z_scope.

Lemma put_some n a i v a' : put n a i v = Ok a' -> a' = upd a i v /\ 0 <= i < n.
Proof. unfold put. destruct ((0 <=? i) && (i <? n)) eqn:E; [|discriminate]. intros H. injection H as <-. split; [reflexivity|lia]. Qed.
Lemma put2_some n m a i j v a' : put2 n m a i j v = Ok a' -> a' = upd a i (upd (a i) j (Some v)) /\ 0 <= i < n /\ 0 <= j < m.
Proof. unfold put2. destruct (_ && _) eqn:E; [|discriminate]. intros H. injection H as <-. split; [reflexivity|lia]. Qed.

Lemma sites_ok N idx rest : forall fuel i idx0 a n a' rest', idx <> [] -> idx0 + Z.of_nat (List.length idx) = N ->
  read_sites N fuel (flag_lines idx ++ rest) i idx0 a = Ok (n, false, a', rest') ->
  n = N /\ rest' = rest /\ (forall i v, In (i, v) idx -> 0 <= i < N) /\ (forall k, ~ In k (map fst idx) -> a' k = a k) /\ (NoDup (map fst idx) -> forall k v, In (k, v) idx -> a' k = Some v).
Proof.
  induction idx as [|[k v] idx IH]; intros fuel i idx0 a n a' rest' NE L H; [now contradiction NE|]. destruct fuel as [|fuel]; [discriminate|].
  cbn [flag_lines flat_map app read_sites scan fst snd] in H. fold (flag_lines idx) in H. destruct (put N a k (Some v)) as [a1| |] eqn:P; try discriminate. cbn [bind] in H. apply put_some in P. destruct P as [-> B].
  destruct (negb (check_site k N)) eqn:C; [discriminate|]. destruct idx as [|e idx].
  - cbn [List.length] in L. replace (idx0 + 1 =? N) with true in H by lia. injection H as <- <- <-. split; [lia|]. split; [reflexivity|]. cbn [map In]. split; [intros i' v' [E|[]]; now injection E as <- <-|]. split.
    + intros k' X. rewrite upd_get. destruct (Z.eqb_spec k' k); [subst; tauto|reflexivity].
    + intros _ k' v' [E|[]]. injection E as <- <-. now rewrite upd_get, Z.eqb_refl.
  - replace (idx0 + 1 =? N) with false in H by (cbn [List.length] in L; lia). apply IH in H; [|discriminate|cbn [List.length] in *; lia]. destruct H as (-> & -> & H1 & H2 & H3). split; [reflexivity|]. split; [reflexivity|].
    split; [intros i' v' [E|E]; [now injection E as <- <-|now apply (H1 i' v')]|]. split.
    + intros k' X. rewrite H2 by (intros Y; apply X; now right). rewrite upd_get. destruct (Z.eqb_spec k' k); [subst; exfalso; apply X; now left|reflexivity].
    + intros ND k' v' E. cbn [map fst] in ND. inversion ND as [|? ? N1 N2]; subst. destruct E as [E|E]; [|now apply H3]. injection E as <- <-. rewrite H2 by exact N1. now rewrite upd_get, Z.eqb_refl.
Qed.
Lemma sites_all N idx rest fuel a n a' rest' : 0 < N -> Z.of_nat (List.length idx) = N -> NoDup (map fst idx) -> read_sites N fuel (flag_lines idx ++ rest) 0 0 a = Ok (n, false, a', rest') ->
  n = N /\ rest' = rest /\ forall i, 0 <= i < N -> exists v, In (i, v) idx /\ a' i = Some v.
Proof.
  intros HN L ND H. apply sites_ok in H; [|intros ->; cbn in L; lia|lia]. destruct H as (-> & -> & B & _ & G). split; [reflexivity|]. split; [reflexivity|]. intros i Hi.
  assert (I : incl (zrange 0 N) (map fst idx)).
  { apply NoDup_length_incl; [exact ND|rewrite map_length, zrange_length; lia|]. intros k Hk. apply in_map_iff in Hk. destruct Hk as ([k' v] & <- & Hk). apply zrange_in. apply (B k' v Hk). }
  assert (K : In i (map fst idx)) by (apply I, zrange_in; lia). apply in_map_iff in K. destruct K as ([k v] & <- & K). exists v. split; [exact K|]. now apply G.
Qed.

Lemma pairs_ok N idx rest : forall fuel i j idx0 a n a' rest', idx <> [] -> idx0 + Z.of_nat (List.length idx) = N * (N - 1) ->
  read_pairs N fuel (pair_lines idx ++ rest) i j idx0 a = Ok (n, false, a', rest') ->
  n = N * (N - 1) /\ rest' = rest /\ (forall i j v, In (i, j, v) idx -> 0 <= i < N /\ 0 <= j < N /\ i <> j) /\ (forall x y, x <> y -> ~ In (x, y) (map fst idx) -> a' x y = a x y) /\ (NoDup (map fst idx) -> forall x y v, In (x, y, v) idx -> a' x y = Some v).
Proof.
  induction idx as [|[[x y] v] idx IH]; intros fuel i j idx0 a n a' rest' NE L H; [now contradiction NE|]. destruct fuel as [|fuel]; [discriminate|].
  cbn [pair_lines flat_map app read_pairs scan fst snd] in H. fold (pair_lines idx) in H. destruct (Z.eqb_spec x y) as [|XY]; [discriminate|]. destruct (negb _) eqn:C in H; [discriminate|].
  destruct (put2 N N a x y v) as [a1| |] eqn:P1; try discriminate. cbn [bind] in H. apply put2_some in P1. destruct P1 as (-> & B1 & B2).
  match type of H with bind ?r _ = _ => destruct r as [a2| |] eqn:P2; try discriminate H end. cbn [bind] in H. apply put2_some in P2. destruct P2 as (-> & _).
  set (a2 := upd _ _ _) in H.
  assert (A2 : forall u w, u <> w -> a2 u w = if (u =? x) && (w =? y) then Some v else a u w).
  { intros u w UW. unfold a2. rewrite !upd_get. destruct (Z.eqb_spec u x) as [->|]; cbn [andb]; [|reflexivity]. rewrite !Z.eqb_refl, !upd_get. destruct (Z.eqb_spec w x); [lia|]. reflexivity. }
  clearbody a2. destruct idx as [|e idx].
  - cbn [List.length] in L. replace (idx0 + 1 =? N * (N - 1)) with true in H by lia. injection H as <- <- <-. split; [lia|]. split; [reflexivity|]. cbn [map In]. split; [intros i' j' v' [E|[]]; injection E as <- <- <-; lia|]. split.
    + intros u w UW X. rewrite A2 by exact UW. destruct (Z.eqb_spec u x), (Z.eqb_spec w y); cbn [andb]; try reflexivity. subst. exfalso. apply X. now left.
    + intros _ u w v' [E|[]]. injection E as <- <- <-. now rewrite A2, !Z.eqb_refl by exact XY.
  - replace (idx0 + 1 =? N * (N - 1)) with false in H by (cbn [List.length] in L; lia). apply IH in H; [|discriminate|cbn [List.length] in *; lia]. destruct H as (-> & -> & H1 & H2 & H3). split; [reflexivity|]. split; [reflexivity|].
    split; [intros i' j' v' [E|E]; [injection E as <- <- <-; lia|now apply (H1 i' j' v')]|]. split.
    + intros u w UW X. rewrite H2; [|exact UW|intros Y; apply X; now right]. rewrite A2 by exact UW. destruct (Z.eqb_spec u x), (Z.eqb_spec w y); cbn [andb]; try reflexivity. subst. exfalso. apply X. now left.
    + intros ND u w v' E. cbn [map fst] in ND. inversion ND as [|? ? N1 N2]; subst. destruct E as [E|E]; [|now apply H3]. injection E as <- <- <-. rewrite H2 by assumption. now rewrite A2, !Z.eqb_refl by exact XY.
Qed.
Definition off_diagonal (N : Z) : list (Z * Z) := filter (fun p => negb (fst p =? snd p)) (list_prod (zrange 0 N) (zrange 0 N)).
Lemma off_diagonal_length N : 0 <= N -> Z.of_nat (List.length (off_diagonal N)) = N * (N - 1).
Proof.
  intros HN. unfold off_diagonal.
  assert (ROW : forall x l, List.length (filter (fun p : Z * Z => negb (fst p =? snd p)) (map (fun y => (x, y)) l)) = List.length (filter (fun y => negb (x =? y)) l)).
  { intros x l. induction l as [|y l IH]; [reflexivity|]. cbn [map filter fst snd]. destruct (negb (x =? y)); cbn [List.length]; congruence. }
  assert (ONE : forall x l, NoDup l -> In x l -> Z.of_nat (List.length (filter (fun y => negb (x =? y)) l)) = Z.of_nat (List.length l) - 1).
  { intros x l ND. induction ND as [|y l NI ND IH]; [intros []|]. intros [->|I].
    - cbn [filter]. rewrite Z.eqb_refl. cbn [negb List.length]. enough (filter (fun y => negb (x =? y)) l = l) as -> by lia. clear - NI. induction l as [|z l IH]; [reflexivity|]. cbn [filter]. destruct (Z.eqb_spec x z); [subst; exfalso; apply NI; now left|]. cbn [negb]. rewrite IH; [reflexivity|]. intros X. apply NI. now right.
    - cbn [filter]. destruct (Z.eqb_spec x y); [subst; contradiction|]. cbn [negb List.length]. specialize (IH I). lia. }
  assert (ALL : forall l r, NoDup r -> incl l r -> Z.of_nat (List.length (filter (fun p : Z * Z => negb (fst p =? snd p)) (list_prod l r))) = Z.of_nat (List.length l) * (Z.of_nat (List.length r) - 1)).
  { intros l r ND. induction l as [|x l IH]; intros I; [reflexivity|]. cbn [list_prod]. rewrite filter_app, app_length, ROW, Nat2Z.inj_add, (ONE x r ND) by (apply I; now left). rewrite IH by (intros z Hz; apply I; now right). cbn [List.length]. lia. }
  rewrite ALL; [|apply zrange_NoDup|apply incl_refl]. rewrite zrange_length. rewrite Z.sub_0_r, Z2Nat.id by exact HN. reflexivity.
Qed.
Lemma pairs_all N idx rest fuel a n a' rest' : 1 < N -> Z.of_nat (List.length idx) = N * (N - 1) -> NoDup (map fst idx) -> read_pairs N fuel (pair_lines idx ++ rest) 0 0 0 a = Ok (n, false, a', rest') ->
  n = N * (N - 1) /\ rest' = rest /\ forall i j, 0 <= i < N -> 0 <= j < N -> i <> j -> exists v, In (i, j, v) idx /\ a' i j = Some v.
Proof.
  intros HN L ND H. apply pairs_ok in H; [|intros ->; cbn [List.length Z.of_nat] in L; nia|lia]. destruct H as (-> & -> & B & _ & G). split; [reflexivity|]. split; [reflexivity|]. intros i j Hi Hj IJ.
  assert (I : incl (off_diagonal N) (map fst idx)).
  { apply NoDup_length_incl; [exact ND|assert (LL := off_diagonal_length N ltac:(lia)); rewrite map_length; lia|]. intros [x y] Hk. apply in_map_iff in Hk. destruct Hk as ([[x' y'] v] & E & Hk). cbn [fst] in E. injection E as -> ->. destruct (B x y v Hk) as (B1 & B2 & B3).
    apply filter_In. split; [apply in_prod; apply zrange_in; lia|]. cbn [fst snd]. lia. }
  assert (K : In (i, j) (map fst idx)). { apply I, filter_In. split; [apply in_prod; apply zrange_in; lia|]. cbn [fst snd]. lia. }
  apply in_map_iff in K. destruct K as ([p v] & E & K). cbn [fst] in E. subst p. exists v. split; [exact K|]. now apply G.
Qed.

(** ** the end of the reading *)
Lemma flags_end N c l : forall fuel opt fidx count, (List.length l < fuel)%nat -> get_info_opt N fuel (flag_lines l) opt c fidx count <> OutOfFuel.
Proof.
  induction l as [|[x f] l IH]; intros fuel opt fidx count H; (destruct fuel as [|fuel]; [cbn in H; lia|]); [discriminate|].
  cbn [flag_lines flat_map app get_info_opt skip_number scan fst snd]. fold (flag_lines l). unfold put at 1. destruct (_ && _); [|discriminate]. cbn [bind].
  match goal with |- bind ?r _ <> _ => assert (R : r <> OutOfFuel) by (destruct (0 <? c); [unfold put; destruct (_ && _); discriminate|discriminate]); destruct r as [o2| |]; [|discriminate|contradiction] end. cbn [bind]. apply IH. cbn [List.length] in H. lia.
Qed.
Lemma parallel_end N c l : forall fuel opt fidx count, (List.length l < fuel)%nat -> get_info_opt_parallel N fuel (flag_lines l) opt c fidx count <> OutOfFuel.
Proof.
  induction l as [|[x f] l IH]; intros fuel opt fidx count H; (destruct fuel as [|fuel]; [cbn in H; lia|]); [discriminate|].
  cbn [flag_lines flat_map app get_info_opt_parallel skip_number scan fst snd]. fold (flag_lines l). 
  unfold put at 1. destruct (_ && _); [|discriminate]. cbn [bind]. unfold put at 1. destruct (_ && _); [|discriminate]. cbn [bind]. unfold put at 1. destruct (_ && _); [|discriminate]. cbn [bind]. unfold put at 1. destruct (_ && _); [|discriminate]. cbn [bind].
  apply IH. cbn [List.length] in H. lia.
Qed.
Lemma word_forever N c t : c <= 0 -> forall fuel opt fidx count, get_info_opt N fuel (Word :: t) opt c fidx count = OutOfFuel.
Proof. intros C. induction fuel as [|fuel IH]; intros opt fidx count; [reflexivity|]. cbn [get_info_opt skip_number scan bind]. replace (0 <? c) with false by lia. cbn [bind]. apply IH. Qed.
Lemma family_end S files cflag fuel e st : (forall k p, files k = Some p -> exists l, snd p = flag_lines l /\ (List.length l < fuel)%nat) -> read_family S files cflag fuel e st <> OutOfFuel.
Proof.
  intros F. destruct e as [k [[par fidx] n]], st as [[opt count] info]. unfold read_family. destruct (files k) as [[complete t]|] eqn:E; [|discriminate]. destruct (n =? 0); [discriminate|].
  destruct (F k _ E) as (l & El & L). cbn [snd] in El. subst t. destruct par.
  - assert (X := parallel_end (2 * NPara S) (cflag k) l fuel opt fidx 0 L). destruct (get_info_opt_parallel _ _ _ _ _ _ _) as [[m o]| |]; [discriminate|discriminate|contradiction].
  - assert (X := flags_end (2 * NPara S) (cflag k) l fuel opt fidx 0 L). destruct (get_info_opt _ _ _ _ _ _ _) as [[m o]| |]; [discriminate|discriminate|contradiction].
Qed.
Lemma read_end S files cflag fuel : (forall k p, files k = Some p -> exists l, snd p = flag_lines l /\ (List.length l < fuel)%nat) -> read_flags S files cflag fuel <> Endless.
Proof.
  intros F. unfold read_flags.
  assert (A : forall kws r, r <> OutOfFuel -> fold_left (fun r e => bind r (read_family S files cflag fuel e)) kws r <> OutOfFuel).
  { induction kws as [|e kws IH]; intros r H; [exact H|]. cbn [fold_left]. apply IH. destruct r; cbn [bind]; [now apply family_end|discriminate|contradiction]. }
  specialize (A (flag_keywords S) (Ok (fun _ => None, 0, false)) ltac:(discriminate)). destruct (fold_left _ _ _) as [[[o c] i]| |]; [|discriminate|contradiction]. cbn [bind].
  assert (T : forall nm opt count, opt_trans S nm opt count <> OutOfFuel).
  { intros nm opt count. unfold opt_trans. destruct (_ && _); [|discriminate]. clear. assert (A : forall l (r : res (memory * Z)), r <> OutOfFuel -> fold_left (fun r i => bind r (fun '(opt, count) => bind (put (2 * NPara S) opt (NProj S + NOrbitalIdx S + i) (Some 1)) (fun opt => Ok (opt, count + 1)))) l r <> OutOfFuel).
    { induction l as [|x l IH]; intros r H; [exact H|]. cbn [fold_left]. apply IH. destruct r as [[o c]| |]; cbn [bind]; [unfold put; destruct (_ && _); discriminate|discriminate|contradiction]. }
    apply A. discriminate. }
  specialize (T (match files "OptTrans"%string with Some _ => true | None => false end) o c). destruct (opt_trans _ _ _ _) as [[o' c']| |]; cbn [bind]; [|discriminate|contradiction]. destruct (_ || _); discriminate.
Qed.
