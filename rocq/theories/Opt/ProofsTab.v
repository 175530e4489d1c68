(** The tables of pair orbitals. *)
From Coq Require Import ZArith List Bool String Lia.
From Verif Require Import Base.ZLoop Opt.Model Opt.Spec.
Import ListNotations.
Local Open Scope Z_scope.

Lemma set2_get a i j v x y : set2 a i j v x y = if (x =? i) && (y =? j) then v else a x y.
Proof. unfold set2. rewrite upd_get. destruct (Z.eqb_spec x i) as [->|]; cbn [andb]; [apply upd_get|reflexivity]. Qed.
Lemma set2_hit a i j v : set2 a i j v i j = v.
Proof. now rewrite set2_get, !Z.eqb_refl. Qed.
Lemma set2_miss a i j v x y : x <> i \/ y <> j -> set2 a i j v x y = a x y.
Proof. intros H. rewrite set2_get. replace ((x =? i) && (y =? j)) with false by lia. reflexivity. Qed.

(** ** signs *)
Definition zone (l h : Z) (first last : Z -> Z) (x y : Z) : Prop := l <= x < h /\ first x <= y < last x.
Lemma signs_get l h first last y0 : l <= h -> (forall i, l <= i < h -> i < first i) ->
  (forall x y, zone l h first last x y -> plus_signs l h first last y0 x y = 1 /\ plus_signs l h first last y0 y x = -1) /\
  (forall x y, ~ zone l h first last x y -> ~ zone l h first last y x -> plus_signs l h first last y0 x y = y0 x y).
Proof.
  intros LH F. unfold plus_signs.
  assert (P : forall i (t : Z -> Z -> Z), l <= i < h -> let t' := loop (first i) (last i) (fun j y => set2 (set2 y i j 1) j i (-1)) t in
    (forall y, first i <= y < last i -> t' i y = 1 /\ t' y i = -1) /\ (forall x y, ~ (x = i /\ first i <= y < last i) -> ~ (y = i /\ first i <= x < last i) -> t' x y = t x y)).
  { intros i t B. specialize (F i B). cbv zeta. destruct (Z_lt_le_dec (last i) (first i)) as [N|N]. { rewrite loop_nil by lia. split; [intros; lia|reflexivity]. }
    apply (loop_inv (fun b t' => (forall y, first i <= y < b -> t' i y = 1 /\ t' y i = -1) /\ (forall x y, ~ (x = i /\ first i <= y < b) -> ~ (y = i /\ first i <= x < b) -> t' x y = t x y)) (first i) (last i) (fun j y => set2 (set2 y i j 1) j i (-1)) t); [exact N|split; [intros; lia|reflexivity]|].
    intros j s J [H1 H2]. split.
    - intros y Y. destruct (Z.eq_dec y j) as [->|Ny]; [rewrite set2_hit, set2_miss, set2_hit by lia; now split|]. rewrite !set2_miss by lia. apply H1. lia.
    - intros x y X Y. rewrite !set2_miss by lia. apply H2; lia. }
  apply (loop_inv (fun b t' => (forall x y, zone l b first last x y -> t' x y = 1 /\ t' y x = -1) /\ (forall x y, ~ zone l b first last x y -> ~ zone l b first last y x -> t' x y = y0 x y)) l h _ y0); [exact LH| |].
  { split; [unfold zone; intros; lia|reflexivity]. }
  intros i t B [H1 H2]. destruct (P i t B) as [P1 P2]. unfold zone in *. pose proof F as F'. specialize (F i B). split.
  - intros x y Z. destruct (Z.eq_dec x i) as [->|Nx]; [apply P1; lia|]. specialize (F' x ltac:(lia)). rewrite !P2 by lia. apply H1. lia.
  - intros x y X Y. rewrite P2; [apply H2; lia|intros [-> ?]; apply X; lia|intros [-> ?]; apply Y; lia].
Qed.
Lemma signs_skew N l h first last x : l <= h -> (forall i, l <= i < h -> i < first i) -> antisymmetric N x -> antisymmetric N (fst x, plus_signs l h first last (snd x)).
Proof.
  intros LH F A a b Ba Bb. cbn [fst snd]. destruct (A a b Ba Bb) as [A1 A2]. split; [exact A1|]. destruct (signs_get l h first last (snd x) LH F) as [Z1 Z2].
  assert (D : forall u v, zone l h first last u v \/ ~ zone l h first last u v) by (intros; unfold zone; lia).
  destruct (D a b) as [X|X]; [destruct (Z1 a b X); lia|]. destruct (D b a) as [Y|Y]; [destruct (Z1 b a Y); lia|]. rewrite (Z2 a b X Y), (Z2 b a Y X). exact A2.
Qed.

(** ** lines *)
Section Lines.
Variable N : Z.
Notation cell := (Z * Z * Z * Z)%type.
Definition ordered (e : cell) : bool := let '(x, y, _, _) := e in negb (y <=? x).
Lemma put_both_skew e a a' : put_both N e a = Ok a' -> ordered e = true -> antisymmetric N a -> antisymmetric N a'.
Proof.
  destruct e as [[[x y] f] s]. unfold put_both, ordered. destruct (_ && _); [|discriminate]. intros H O A. injection H as <-. intros u v U W. cbn [fst snd]. destruct (A u v U W) as [A1 A2]. rewrite !set2_get.
  destruct (Z.eqb_spec u x), (Z.eqb_spec u y), (Z.eqb_spec v x), (Z.eqb_spec v y); cbn [andb]; subst; try lia; try (split; [reflexivity|lia]); try (split; [exact A1|exact A2]).
Qed.
Lemma put_list_cons e es a a' : put_list N (e :: es) a = Ok a' -> exists a1, put_both N e a = Ok a1 /\ put_list N es a1 = Ok a'.
Proof.
  unfold put_list. cbn [fold_left bind]. destruct (put_both N e a) as [a1| |] eqn:E; [intros H; now exists a1| |]; intros H; exfalso; clear E; revert H; induction es as [|e' es IH]; cbn [fold_left bind]; try discriminate; assumption.
Qed.
Lemma put_list_skew es : forall a a', put_list N es a = Ok a' -> forallb ordered es = true -> antisymmetric N a -> antisymmetric N a'.
Proof.
  induction es as [|e es IH]; intros a a' H O A; [injection H as <-; exact A|]. apply put_list_cons in H. destruct H as (a1 & H1 & H2). cbn [forallb] in O. apply andb_true_iff in O. destruct O as [O1 O2].
  apply (IH a1); [exact H2|exact O2|]. now apply (put_both_skew e a).
Qed.
Lemma existsb_ordered es : existsb (fun e : cell => let '(x, y, _, _) := e in y <=? x) es = negb (forallb ordered es).
Proof. induction es as [|[[[x y] f] s] es IH]; [reflexivity|]. cbn [existsb forallb ordered]. rewrite IH. now destruct (y <=? x). Qed.
Variable cells : list Z -> option (list cell).
Variable stop : Z.
Lemma loop_skew lines : forall vars idx0 itmp a i t a' rest, orbital_loop N cells stop lines vars idx0 itmp a = Ok (Some (i, t, a', rest)) -> t = false -> itmp = false /\ (antisymmetric N a -> antisymmetric N a').
Proof.
  induction lines as [|line lines IH]; intros vars idx0 itmp a i t a' rest H T; cbn [orbital_loop] in H; [injection H as <- <- <- <-; now split|].
  destruct (cells (sscan line vars)) as [es|]; [|discriminate]. destruct (put_list N es a) as [a1| |] eqn:E; try discriminate. cbn [bind] in H. rewrite existsb_ordered in H.
  assert (K : itmp || negb (forallb ordered es) = false /\ (antisymmetric N a1 -> antisymmetric N a')).
  { destruct (_ =? stop); [injection H as _ <- <- _; split; [exact T|trivial]|]. now apply IH in H. }
  destruct K as [K1 K2]. apply orb_false_iff in K1. destruct K1 as [K1 K3]. apply negb_false_iff in K3. split; [exact K1|]. intros A. apply K2. now apply (put_list_skew es a).
Qed.
Lemma sscan_all l : forall vars, List.length l = List.length vars -> sscan (map Num l) vars = l.
Proof. induction l as [|x l IH]; intros [|v vars] H; try discriminate H; [reflexivity|]. cbn. rewrite IH; [reflexivity|]. now injection H. Qed.
Definition ce (l : list Z) : list cell := match cells l with Some es => es | None => [] end.
Variable per cols : nat.
Hypothesis PER : forall l es, cells l = Some es -> List.length es = per.
Hypothesis POS : (0 < per)%nat.
Lemma put_list_app es1 es2 a a1 : put_list N es1 a = Ok a1 -> put_list N (es1 ++ es2) a = put_list N es2 a1.
Proof using. unfold put_list. intros H. now rewrite fold_left_app, H. Qed.
Lemma loop_lines idx rest : forall vars idx0 itmp a i t a' rest', idx <> [] -> List.length vars = cols -> List.Forall (fun l => List.length l = cols) idx -> idx0 + Z.of_nat (List.length idx) * Z.of_nat per = stop ->
  orbital_loop N cells stop (number_lines idx ++ rest) vars idx0 itmp a = Ok (Some (i, t, a', rest')) ->
  i = stop /\ rest' = rest /\ List.Forall (fun l => cells l = Some (ce l)) idx /\ put_list N (flat_map ce idx) a = Ok a' /\ (t = false -> forallb ordered (flat_map ce idx) = true).
Proof using PER POS.
  induction idx as [|l idx IH]; intros vars idx0 itmp a i t a' rest' NE LV LI SUM H; [now contradiction NE|]. apply Forall_cons_iff in LI. destruct LI as [L1 LI].
  cbn [number_lines map app orbital_loop] in H. rewrite sscan_all in H by congruence. destruct (cells l) as [es|] eqn:E; [|discriminate].
  assert (CE : ce l = es) by (unfold ce; now rewrite E).
  assert (L := PER _ _ E). destruct (put_list N es a) as [a1| |] eqn:P; try discriminate. cbn [bind] in H. rewrite L, existsb_ordered in H. cbn [flat_map].
  destruct idx as [|l' idx].
  - cbn [List.length] in SUM. replace (idx0 + Z.of_nat per =? stop) with true in H by lia. injection H as <- <- <- <-. split; [lia|]. split; [reflexivity|]. split; [constructor; [now rewrite CE|constructor]|]. cbn [flat_map]. rewrite app_nil_r, CE. split; [exact P|].
    intros T. apply orb_false_iff in T. destruct T as [_ T]. now apply negb_false_iff in T.
  - replace (idx0 + Z.of_nat per =? stop) with false in H. 2:{ symmetry. apply Z.eqb_neq. cbn [List.length] in SUM. nia. }
    assert (SK := loop_skew _ _ _ _ _ _ _ _ _ H). apply IH in H; [|discriminate|congruence|exact LI|cbn [List.length] in *; nia]. destruct H as (-> & -> & FA & PL & OR). split; [reflexivity|]. split; [reflexivity|]. split; [constructor; [now rewrite CE|exact FA]|].
    rewrite CE, (put_list_app _ _ _ _ P). split; [exact PL|]. intros T. rewrite forallb_app, (OR T), andb_true_r. destruct (SK T) as [K _]. apply orb_false_iff in K. now apply negb_false_iff.
Qed.
End Lines.

Notation cell := (Z * Z * Z * Z)%type.
Definition pr (e : cell) : Z * Z := fst (fst e).
Lemma put_both_get N e a a' : put_both N e a = Ok a' -> ordered e = true -> 0 <= fst (pr e) < snd (pr e) /\ snd (pr e) < 2 * N /\
  forall I J, I < J -> (pr e = (I, J) -> fst a' I J = snd (fst e) /\ snd a' I J = snd e) /\ (pr e <> (I, J) -> fst a' I J = fst a I J /\ snd a' I J = snd a I J).
Proof.
  destruct e as [[[x y] f] s]. unfold put_both, ordered, pr. cbn [fst snd]. destruct (_ && _) eqn:B; [|discriminate]. intros H O. injection H as <-. split; [lia|]. split; [lia|]. intros u v UV. cbn [fst snd]. split.
  - intros E. injection E as -> ->. rewrite !(set2_miss _ v u) by lia. now rewrite !set2_hit.
  - intros E. assert (u <> x \/ v <> y). { destruct (Z.eq_dec u x) as [->|]; [|now left]. destruct (Z.eq_dec v y) as [->|]; [now contradiction E|now right]. } rewrite !set2_miss by lia. now split.
Qed.
Lemma put_list_get N es : forall a a', put_list N es a = Ok a' -> forallb ordered es = true ->
  (forall e, In e es -> 0 <= fst (pr e) < snd (pr e) /\ snd (pr e) < 2 * N) /\
  (forall I J, I < J -> ~ In (I, J) (map pr es) -> fst a' I J = fst a I J /\ snd a' I J = snd a I J) /\
  (NoDup (map pr es) -> forall I J f s, I < J -> In (I, J, f, s) es -> fst a' I J = f /\ snd a' I J = s).
Proof.
  induction es as [|e es IH]; intros a a' H O.
  - injection H as <-. split; [intros e []|]. split; [now split|]. intros _ I J f s _ [].
  - apply put_list_cons in H. destruct H as (a1 & H1 & H2). cbn [forallb] in O. apply andb_true_iff in O. destruct O as [O1 O2]. destruct (put_both_get N e a a1 H1 O1) as (B1 & B2 & G). destruct (IH a1 a' H2 O2) as (Q1 & Q2 & Q3).
    split; [intros e' [<-|I]; [now split|now apply Q1]|]. split.
    + intros I J L NI. cbn [map In] in NI. destruct (Q2 I J L) as [-> ->]; [tauto|]. apply G; [exact L|]. intros E. apply NI. now left.
    + intros ND I J f s L [->|HI]; cbn [map] in ND; inversion ND as [|? ? N1 N2]; subst.
      * unfold pr in N1. cbn [fst] in N1. destruct (Q2 I J L N1) as [-> ->]. destruct (G I J L) as [G1 _]. now apply G1.
      * now apply Q3.
Qed.
Lemma put_list_antisym N es a a' : put_list N es a = Ok a' -> forallb ordered es = true -> antisymmetric N a -> antisymmetric N a'.
Proof. apply put_list_skew. Qed.

(** ** all pairs *)
Definition pairs (n : Z) : list (Z * Z) := flat_map (fun y => map (fun x => (x, y)) (zrange 0 y)) (zrange 0 n).
Lemma pairs_in n x y : In (x, y) (pairs n) <-> 0 <= x < y /\ y < n.
Proof.
  unfold pairs. rewrite in_flat_map. split.
  - intros (y' & Hy & Hx). apply in_map_iff in Hx. destruct Hx as (x' & E & Hx). injection E as -> ->. apply zrange_in in Hy, Hx. lia.
  - intros H. exists y. split; [apply zrange_in; lia|]. apply in_map_iff. exists x. split; [reflexivity|]. apply zrange_in. lia.
Qed.
Lemma pairs_length n : 0 <= n -> 2 * Z.of_nat (List.length (pairs n)) = n * (n - 1).
Proof.
  intros H. apply (natlike_ind (fun n => 2 * Z.of_nat (List.length (pairs n)) = n * (n - 1))); [reflexivity| |exact H].
  intros m Hm IH. unfold pairs. rewrite <- Z.add_1_r, zrange_snoc by lia. rewrite flat_map_app, app_length. fold (pairs m). cbn [flat_map]. rewrite app_nil_r, map_length, zrange_length. lia.
Qed.
Lemma all_pairs (l : list (Z * Z)) n : 0 <= n -> 2 * Z.of_nat (List.length l) = n * (n - 1) -> NoDup l -> (forall p, In p l -> 0 <= fst p < snd p /\ snd p < n) -> forall x y, 0 <= x < y -> y < n -> In (x, y) l.
Proof.
  intros Hn L ND B x y Hx Hy. assert (P := pairs_length n Hn). assert (I : incl (pairs n) l).
  { apply NoDup_length_incl; [exact ND|lia|]. intros [u v] Hl. apply pairs_in. apply (B _ Hl). }
  apply I. apply pairs_in. lia.
Qed.
Lemma all_sites (l : list (Z * Z)) n : 0 <= n -> Z.of_nat (List.length l) = n * n -> NoDup l -> (forall p, In p l -> 0 <= fst p < n /\ 0 <= snd p < n) -> forall x y, 0 <= x < n -> 0 <= y < n -> In (x, y) l.
Proof.
  intros Hn L ND B x y Hx Hy. assert (I : incl (list_prod (zrange 0 n) (zrange 0 n)) l).
  { apply NoDup_length_incl; [exact ND|rewrite prod_length, !zrange_length; nia|]. intros [u v] Hl. apply in_prod; apply zrange_in; apply (B _ Hl). }
  apply I. apply in_prod; apply zrange_in; lia.
Qed.

(** ** the readers *)
Lemma finish_filled fo stop AP signs r a' : finish fo stop AP signs r = Filled a' -> exists a rest, r = Ok (Some (stop, false, a, rest)) /\ a' = (fst a, if AP =? 0 then signs (snd a) else snd a).
Proof.
  unfold finish. destruct r as [[[[[i t] a] rest]|]| |]; try discriminate. destruct (negb (i =? stop) || negb (fo rest) || t) eqn:E; [discriminate|]. intros H. injection H as <-. exists a, rest.
  apply orb_false_iff in E. destruct E as [E ->]. apply orb_false_iff in E. destruct E as [E _]. apply negb_false_iff, Z.eqb_eq in E. now subst i.
Qed.
Lemma general_skew N AP fo file a a' : 0 <= N -> get_info_orbital_general N AP fo file a = Filled a' -> antisymmetric N a -> antisymmetric N a'.
Proof.
  intros HN H A. apply finish_filled in H. destruct H as (a1 & rest & H & ->). apply loop_skew in H; [|reflexivity]. destruct H as [_ H]. specialize (H A). destruct (AP =? 0); [|now destruct a1]. apply signs_skew; [lia|lia|exact H].
Qed.
Lemma antiparallel_skew N AP fo file a a' : 0 <= N -> get_info_orbital_antiparallel N AP fo file a = Filled a' -> antisymmetric N a -> antisymmetric N a'.
Proof.
  intros HN H A. apply finish_filled in H. destruct H as (a1 & rest & H & ->). apply loop_skew in H; [|reflexivity]. destruct H as [_ H]. specialize (H A). destruct (AP =? 0); [|now destruct a1]. apply signs_skew; [lia|lia|exact H].
Qed.
Lemma parallel_skew N AP NAP fo file a a' : 0 <= N -> get_info_orbital_parallel N AP NAP fo file a = Filled a' -> antisymmetric N a -> antisymmetric N a'.
Proof.
  intros HN H A. apply finish_filled in H. destruct H as (a1 & rest & H & ->). apply loop_skew in H; [|reflexivity]. destruct H as [_ H]. specialize (H A). destruct (AP =? 0); [|now destruct a1].
  apply (signs_skew N N (2 * N) (fun i => i + 1) (fun _ => 2 * N) (fst a1, plus_signs 0 N (fun i => i + 1) (fun _ => N) (snd a1))); [lia|lia|]. apply signs_skew; [lia|lia|exact H].
Qed.
Lemma no_skew N : antisymmetric N no_orbitals.
Proof. intros x y _ _. now split. Qed.
Ltac six l := destruct l as [|? [|? [|? [|? [|? [|? [|]]]]]]]; try discriminate.
Ltac four l := destruct l as [|? [|? [|? [|? [|]]]]]; try discriminate.
Lemma general_values N AP fo idx rest a' : 0 <= N -> Z.of_nat (List.length idx) = 2 * N * N - N -> List.Forall (fun l => List.length l = 6%nat) idx -> NoDup (map (general_pair N) idx) ->
  get_info_orbital_general N AP fo (number_lines idx ++ rest) no_orbitals = Filled a' ->
  forall x y, 0 <= x < y -> y < 2 * N -> exists i s j t f g, In [i; s; j; t; f; g] idx /\ x = i + s * N /\ y = j + t * N /\ fst a' x y = f /\ snd a' x y = if AP =? 0 then 1 else g.
Proof.
  intros HN LEN COL ND H x y Hx Hy. apply finish_filled in H. destruct H as (a1 & r & H & ->).
  apply (loop_lines N (general_cells N) (2 * N * N - N) 1 6) in H; [|intros l es; unfold general_cells; six l; destruct (check_pair _ _ _); [|discriminate]; intros E; now injection E as <-|lia|intros ->; cbn [List.length Z.of_nat] in LEN; nia|reflexivity|exact COL|lia].
  destruct H as (_ & _ & SOME & PL & OR). specialize (OR eq_refl). destruct (put_list_get _ _ _ _ PL OR) as (B & _ & G).
  assert (MP : map pr (flat_map (ce (general_cells N)) idx) = map (general_pair N) idx).
  { clear - SOME. induction SOME as [|l idx E F IH]; [reflexivity|]. cbn [flat_map map]. rewrite map_app, IH. clear IH. unfold ce in *. unfold general_cells in *. six l. cbn [general_pair]. destruct (check_pair _ _ _); [reflexivity|discriminate]. }
  assert (I : In (x, y) (map (general_pair N) idx)).
  { apply (all_pairs _ (2 * N)); [lia|rewrite map_length; nia|exact ND| |exact Hx|exact Hy]. intros p Hp. rewrite <- MP in Hp. apply in_map_iff in Hp. destruct Hp as (e & <- & He). now apply B. }
  apply in_map_iff in I. destruct I as (l & E & I). assert (C := proj1 (Forall_forall _ _) SOME l I). cbv beta in C. assert (C6 := proj1 (Forall_forall _ _) COL l I). cbv beta in C6.
  destruct l as [|i [|s [|j [|t [|f [|g [|]]]]]]]; try discriminate C6. cbn [general_pair] in E. injection E as Ex Ey. exists i, s, j, t, f, g. split; [exact I|]. split; [now symmetry|]. split; [now symmetry|].
  cbn [fst snd]. destruct (G ltac:(now rewrite MP) x y f g) as [V1 V2]; [lia| |].
  { apply in_flat_map. exists [i; s; j; t; f; g]. split; [exact I|]. unfold ce in *. unfold general_cells in *. destruct (check_pair N i j); [|discriminate C]. left. now rewrite Ex, Ey. }
  split; [exact V1|]. destruct (AP =? 0); [|exact V2]. destruct (signs_get 0 (2 * N) (fun i => i + 1) (fun _ => 2 * N) (snd a1)) as [S1 _]; [lia|lia|]. apply S1. unfold zone. lia.
Qed.
Lemma anti_values N AP fo idx rest a' : 0 <= N -> Z.of_nat (List.length idx) = N * N -> List.Forall (fun l => List.length l = 4%nat) idx -> NoDup (map site_pair idx) ->
  get_info_orbital_antiparallel N AP fo (number_lines idx ++ rest) no_orbitals = Filled a' ->
  (forall i j, 0 <= i < N -> 0 <= j < N -> exists f g, In [i; j; f; g] idx /\ fst a' i (j + N) = f /\ snd a' i (j + N) = if AP =? 0 then 1 else g).
Proof.
  intros HN LEN COL ND H x y Hx Hy. apply finish_filled in H. destruct H as (a1 & r & H & ->).
  apply (loop_lines N (antiparallel_cells N) (N * N) 1 4) in H; [|intros l es; unfold antiparallel_cells; four l; destruct (check_pair _ _ _); [|discriminate]; intros E; now injection E as <-|lia|intros ->; cbn [List.length Z.of_nat] in LEN; nia|reflexivity|exact COL|lia].
  destruct H as (_ & _ & SOME & PL & OR). specialize (OR eq_refl). destruct (put_list_get _ _ _ _ PL OR) as (B & _ & G).
  assert (MP : map pr (flat_map (ce (antiparallel_cells N)) idx) = map (fun p => (fst p, snd p + N)) (map site_pair idx)).
  { clear - SOME. induction SOME as [|l idx E F IH]; [reflexivity|]. cbn [flat_map map]. rewrite map_app, IH. clear IH. unfold ce in *. unfold antiparallel_cells in *. four l. cbn [site_pair]. destruct (check_pair _ _ _); [reflexivity|discriminate]. }
  assert (I : In (x, y) (map site_pair idx)).
  { apply (all_sites _ N); [lia|rewrite map_length; nia|exact ND| |exact Hx|exact Hy]. intros p Hp. apply in_map_iff in Hp. destruct Hp as (l & <- & Hl). assert (C := proj1 (Forall_forall _ _) SOME l Hl). cbv beta in C. unfold antiparallel_cells, check_pair, check_site in C. four l. destruct (_ && _) eqn:K in C; [|discriminate]. cbn [site_pair fst snd]. lia. }
  apply in_map_iff in I. destruct I as (l & E & I). assert (C := proj1 (Forall_forall _ _) SOME l I). cbv beta in C. assert (C4 := proj1 (Forall_forall _ _) COL l I). cbv beta in C4.
  destruct l as [|i [|j [|f [|g [|]]]]]; try discriminate C4. cbn [site_pair] in E. injection E as -> ->. exists f, g. split; [exact I|].
  cbn [fst snd]. destruct (G ltac:(rewrite MP; apply FinFun.Injective_map_NoDup; [intros [u v] [u' v'] K; cbn [fst snd] in K; injection K as K1 K2; f_equal; lia|exact ND]) x (y + N) f g) as [V1 V2]; [lia| |].
  { apply in_flat_map. exists [x; y; f; g]. split; [exact I|]. unfold ce in *. unfold antiparallel_cells in *. destruct (check_pair N x y); [|discriminate C]. now left. }
  split; [exact V1|]. destruct (AP =? 0); [|exact V2]. destruct (signs_get 0 N (fun _ => N) (fun _ => 2 * N) (snd a1)) as [S1 _]; [lia|lia|]. apply S1. unfold zone. lia.
Qed.
Lemma parallel_values N AP NAP fo idx rest a a' : 0 <= N -> 2 * Z.of_nat (List.length idx) = N * (N - 1) -> 1 < N -> List.Forall (fun l => List.length l = 4%nat) idx -> NoDup (map site_pair idx) ->
  get_info_orbital_parallel N AP NAP fo (number_lines idx ++ rest) a = Filled a' ->
  (forall i j s, 0 <= i < j -> j < N -> s = 0 \/ s = 1 -> exists f g, In [i; j; f; g] idx /\ fst a' (i + s * N) (j + s * N) = NAP + 2 * f + s /\ snd a' (i + s * N) (j + s * N) = if AP =? 0 then 1 else g) /\
  (forall i j, 0 <= i < N -> 0 <= j < N -> fst a' i (j + N) = fst a i (j + N) /\ snd a' i (j + N) = snd a i (j + N)).
Proof.
  intros HN LEN N1 COL ND H. apply finish_filled in H. destruct H as (a1 & r & H & ->).
  apply (loop_lines N (parallel_cells N NAP) (N * (N - 1)) 2 4) in H; [|intros l es; unfold parallel_cells; four l; destruct (check_pair _ _ _); [|discriminate]; intros E; now injection E as <-|lia|intros ->; cbn [List.length Z.of_nat] in LEN; nia|reflexivity|exact COL|lia].
  destruct H as (_ & _ & SOME & PL & OR). specialize (OR eq_refl). destruct (put_list_get _ _ _ _ PL OR) as (B & U & G).
  assert (MP : map pr (flat_map (ce (parallel_cells N NAP)) idx) = flat_map (fun p => [p; (fst p + N, snd p + N)]) (map site_pair idx)).
  { clear - SOME. induction SOME as [|l idx E F IH]; [reflexivity|]. cbn [flat_map map]. rewrite map_app, IH. clear IH. unfold ce in *. unfold parallel_cells in *. four l. cbn [site_pair]. destruct (check_pair _ _ _); [reflexivity|discriminate]. }
  assert (BS : forall p, In p (map site_pair idx) -> 0 <= fst p < snd p /\ snd p < N).
  { intros p Hp. assert (Hp' := Hp). apply in_map_iff in Hp. destruct Hp as (l & <- & Hl). assert (C := proj1 (Forall_forall _ _) SOME l Hl). cbv beta in C. unfold parallel_cells, check_pair, check_site in C. four l. destruct (_ && _) eqn:K in C; [|discriminate]. cbn [site_pair fst snd].
    assert (X : In (z, z0) (map pr (flat_map (ce (parallel_cells N NAP)) idx))). { rewrite MP. apply in_flat_map. exists (z, z0). split; [exact Hp'|now left]. }
    apply in_map_iff in X. destruct X as (e & E & He). apply B in He. rewrite E in He. cbn [fst snd] in He. lia. }
  assert (ND2 : NoDup (map pr (flat_map (ce (parallel_cells N NAP)) idx))).
  { rewrite MP. clear - ND BS. induction (map site_pair idx) as [|p l IH]; [constructor|]. inversion ND as [|? ? X1 X2]; subst. assert (BP := BS p (or_introl eq_refl)). cbn [flat_map app].
    assert (OUT : forall q, In q (flat_map (fun p => [p; (fst p + N, snd p + N)]) l) -> In q l \/ N <= fst q /\ In (fst q - N, snd q - N) l).
    { intros q Hq. apply in_flat_map in Hq. destruct Hq as (p' & Hp' & [->|[<-|[]]]); [now left|right]. cbn [fst snd]. rewrite !Z.add_simpl_r. assert (B := BS p' (or_intror Hp')). split; [lia|]. now destruct p'. }
    constructor; [|constructor].
    - intros [E|Q]; [destruct p; injection E as E1 E2; cbn [fst snd] in *; lia|]. apply OUT in Q. destruct Q as [Q|[Q _]]; [contradiction|lia].
    - intros Q. apply OUT in Q. cbn [fst snd] in Q. destruct Q as [Q|[_ Q]]; [apply (or_intror (A := p = (fst p + N, snd p + N))) in Q; apply BS in Q; cbn [fst snd] in Q; lia|]. rewrite !Z.add_simpl_r in Q. destruct p. contradiction.
    - apply IH; [exact X2|]. intros q Hq. apply BS. now right. }
  specialize (G ND2). split.
  - intros x y s Hx Hy Hs.
    assert (I : In (x, y) (map site_pair idx)) by (apply (all_pairs _ N); [lia|rewrite map_length; nia|exact ND|exact BS|exact Hx|exact Hy]).
    apply in_map_iff in I. destruct I as (l & E & I). assert (C := proj1 (Forall_forall _ _) SOME l I). cbv beta in C. assert (C4 := proj1 (Forall_forall _ _) COL l I). cbv beta in C4.
    destruct l as [|i [|j [|f [|g [|]]]]]; try discriminate C4. cbn [site_pair] in E. injection E as -> ->. exists f, g. split; [exact I|].
    cbn [fst snd]. destruct (G (x + s * N) (y + s * N) (NAP + 2 * f + s) g) as [V1 V2]; [nia| |].
    { apply in_flat_map. exists [x; y; f; g]. split; [exact I|]. unfold ce in *. unfold parallel_cells in *. destruct (check_pair N x y); [|discriminate C]. destruct Hs as [-> | ->]; [left; f_equal; f_equal; [f_equal; lia|lia]|right; left; f_equal; f_equal; f_equal; lia]. }
    split; [exact V1|]. destruct (AP =? 0); [|exact V2].
    destruct (signs_get N (2 * N) (fun i => i + 1) (fun _ => 2 * N) (plus_signs 0 N (fun i => i + 1) (fun _ => N) (snd a1))) as [S1 S2]; [lia|lia|]. destruct (signs_get 0 N (fun i => i + 1) (fun _ => N) (snd a1)) as [S3 _]; [lia|lia|].
    unfold zone in *. destruct Hs as [-> | ->]; [rewrite S2 by lia; apply S3; lia|apply S1; lia].
  - intros i j Hi Hj. destruct (U i (j + N)) as [U1 U2]; [lia| |].
    { rewrite MP. intros Q. apply in_flat_map in Q. destruct Q as (p & Hp & Q). apply BS in Hp. destruct Q as [Q|[Q|[]]]; [subst p; cbn [fst snd] in Hp; lia|injection Q as Q1 Q2; lia]. }
    cbn [fst snd]. split; [exact U1|]. destruct (AP =? 0); [|exact U2].
    destruct (signs_get N (2 * N) (fun i => i + 1) (fun _ => 2 * N) (plus_signs 0 N (fun i => i + 1) (fun _ => N) (snd a1))) as [S1 S2]; [lia|lia|]. destruct (signs_get 0 N (fun i => i + 1) (fun _ => N) (snd a1)) as [S3 S4]; [lia|lia|].
    unfold zone in *. rewrite S2 by lia. rewrite S4 by lia. exact U2.
Qed.
