(** Sums over all configurations, adjoints, derivatives of strings. *)
From Coq Require Import ZArith List Bool Lia Reals Lra FunctionalExtensionality Permutation.
From Coquelicot Require Import Coquelicot.
From Verif Require Import Base.ZLoop Base.RSum Slater.Model Slater.Spec Slater.Derive Green.Model Green.Spec Green.Anti Ham.Model Ham.Spec Grd.Model Grd.Spec.
Import ListNotations.
Local Open Scope Z_scope.

(** ** words *)
Lemma csum_flat_map {A B} (g : A -> list B) (l : list A) f : csum (flat_map g l) f = csum l (fun x => csum (g x) f).
Proof. induction l as [|a l IH]; [reflexivity|]. cbn [flat_map csum]. now rewrite csum_app, IH. Qed.
Lemma words_in {A} (l : list A) n : forall u, In u (words l n) <-> length u = n /\ forall a, In a u -> In a l.
Proof.
  induction n as [|n IH]; intros u; cbn [words].
  - split; [intros [<-|[]]; split; [reflexivity|intros a []]|]. intros [H _]. destruct u; [now left|discriminate].
  - rewrite in_flat_map. split.
    + intros (a & Ha & Hu). apply in_map_iff in Hu. destruct Hu as (v & <- & Hv). apply IH in Hv. destruct Hv as [L Hv]. cbn. split; [now rewrite L|]. intros b [<-|Hb]; auto.
    + intros [L H]. destruct u as [|a u]; [discriminate|]. exists a. split; [apply H; now left|]. apply in_map. apply IH. split; [now injection L|]. intros b Hb. apply H. now right.
Qed.
Fixpoint put {A} (u : list A) (m : nat) (v : A) : list A := match u, m with [], _ => [] | _ :: u, O => v :: u | a :: u, S m => a :: put u m v end.
Lemma put_length {A} (u : list A) m v : length (put u m v) = length u.
Proof. revert m. induction u as [|a u IH]; intros [|m]; cbn; auto. Qed.
Lemma put_in {A} (u : list A) m v a : In a (put u m v) -> In a u \/ a = v.
Proof. revert m. induction u as [|b u IH]; intros [|m] H; cbn in H; auto; destruct H as [<-|H]; cbn; auto. destruct (IH m H); auto. Qed.
Lemma put_nth (u : list Z) m v i : nth i (put u m v) 0 = if (i =? m)%nat && (m <? length u)%nat then v else nth i u 0.
Proof.
  revert m i. induction u as [|a u IH]; intros [|m] [|i]; cbn; try reflexivity; try (now rewrite ?andb_false_r).
  rewrite IH. destruct u; [now rewrite !andb_false_r|reflexivity].
Qed.
Lemma conf_upd u m v : 0 <= m < Z.of_nat (length u) -> upd (conf u) m v = conf (put u (Z.to_nat m) v).
Proof.
  intros H. apply functional_extensionality. intros i. rewrite upd_get. unfold conf. destruct (Z.leb_spec 0 i).
  - rewrite put_nth. assert (B : (Z.to_nat m <? length u)%nat = true) by (apply Nat.ltb_lt; lia). rewrite B, andb_true_r.
    destruct (Z.eqb_spec i m) as [->|Ne]; [now rewrite Nat.eqb_refl|]. destruct (Nat.eqb_spec (Z.to_nat i) (Z.to_nat m)); [lia|reflexivity].
  - destruct (Z.eqb_spec i m); [lia|reflexivity].
Qed.
Lemma csum_eqb l k (f : Z -> C) : NoDup l -> In k l -> csum l (fun j => if j =? k then f j else RtoC 0) = f k.
Proof.
  intros N H. induction N as [|a l Ha N IH]; [destruct H|]. cbn [csum]. destruct H as [->|H].
  - rewrite Z.eqb_refl. rewrite csum_zero; [ring|]. intros j Hj. destruct (Z.eqb_spec j k) as [->|]; [contradiction|reflexivity].
  - destruct (Z.eqb_spec a k) as [->|]; [contradiction|]. rewrite IH by assumption. ring.
Qed.
(** exchanging the roles of two values of one electron *)
Lemma words_move (l : list Z) (a b : Z) : NoDup l -> In a l -> In b l -> forall n m (F : list Z -> list Z -> C), (m < n)%nat ->
  csum (words l n) (fun u => if nth m u 0 =? b then F (put u m a) u else RtoC 0) = csum (words l n) (fun u => if nth m u 0 =? a then F u (put u m b) else RtoC 0).
Proof.
  intros N Ha Hb. induction n as [|n IH]; intros m F Hm; [lia|]. cbn [words]. rewrite !csum_flat_map.
  destruct m as [|m].
  - transitivity (csum l (fun v => if v =? b then csum (words l n) (fun u => F (a :: u) (v :: u)) else RtoC 0)).
    { apply csum_ext. intros v _. rewrite csum_map. cbn [nth put]. destruct (v =? b); [reflexivity|apply csum_zero; reflexivity]. }
    transitivity (csum l (fun v => if v =? a then csum (words l n) (fun u => F (v :: u) (b :: u)) else RtoC 0)).
    { rewrite (csum_eqb l b (fun v => csum (words l n) (fun u => F (a :: u) (v :: u)))), (csum_eqb l a (fun v => csum (words l n) (fun u => F (v :: u) (b :: u)))) by assumption. reflexivity. }
    apply csum_ext. intros v _. rewrite csum_map. cbn [nth put]. destruct (v =? a); [reflexivity|symmetry; apply csum_zero; reflexivity].
  - apply csum_ext. intros v _. rewrite !csum_map. cbn [nth put]. apply (IH m (fun u u' => F (v :: u) (v :: u'))). lia.
Qed.
Lemma csum_swap {A B} (l : list A) (m : list B) f : csum l (fun x => csum m (fun y => f x y)) = csum m (fun y => csum l (fun x => f x y)).
Proof.
  induction l as [|a l IH]; cbn [csum]; [symmetry; now apply csum_zero|]. rewrite IH, <- csum_add. reflexivity.
Qed.
Lemma Cplus_conj a b : Cconj (Cplus a b) = Cplus (Cconj a) (Cconj b). Proof. unfold Cconj, Cplus; cbn. f_equal; ring. Qed.
Lemma Cmult_conj a b : Cconj (Cmult a b) = Cmult (Cconj a) (Cconj b). Proof. unfold Cconj, Cmult; cbn. f_equal; ring. Qed.
Lemma Cconj_conj a : Cconj (Cconj a) = a. Proof. destruct a. unfold Cconj; cbn. f_equal; ring. Qed.
Lemma conj_csum {A} (l : list A) f : Cconj (csum l f) = csum l (fun x => Cconj (f x)).
Proof. induction l as [|a l IH]; cbn [csum]; [unfold Cconj, RtoC; cbn; f_equal; lra|]. rewrite Cplus_conj, IH. reflexivity. Qed.
Lemma csum_scal_r {A} (l : list A) c f : csum l (fun x => Cmult (f x) c) = Cmult (csum l f) c.
Proof. rewrite Cmult_comm, <- csum_scal. apply csum_ext. intros; ring. Qed.
Lemma conj_0 : Cconj (RtoC 0) = RtoC 0. Proof. unfold Cconj, RtoC; cbn. f_equal. lra. Qed.
Lemma conj_R r : Cconj (RtoC r) = RtoC r. Proof. unfold Cconj, RtoC; cbn. f_equal. lra. Qed.

Section Adj.
Variable V : wave.
Notation N := (sites V).
Notation Ne := (Slater.Model.Ne (vS V)).
Notation X := (configurations V).
Hypothesis HN : 0 < N.
Hypothesis HNe : 0 < Ne.
Lemma X_in u : In u X <-> length u = Z.to_nat (2 * Ne) /\ forall a, In a u -> 0 <= a < N.
Proof. unfold configurations. rewrite words_in. split; intros [A B]; split; auto; intros a Ha; specialize (B a Ha); now apply zrange_in. Qed.
Lemma X_len u m : In u X -> In m (labels V) -> 0 <= m < Z.of_nat (length u).
Proof. intros Hu Hm. apply X_in in Hu. apply zrange_in in Hm. destruct Hu as [-> _]. lia. Qed.
Lemma X_lat u : In u X -> forall m, In m (labels V) -> 0 <= conf u m < N.
Proof.
  intros Hu m Hm. pose proof (X_len u m Hu Hm). apply X_in in Hu. destruct Hu as [_ Hu]. unfold conf. destruct (Z.leb_spec 0 m); [|lia]. apply Hu. apply nth_In. lia.
Qed.
Lemma X_put u m v : In u X -> 0 <= v < N -> In (put u m v) X.
Proof. intros Hu Hv. apply X_in in Hu. apply X_in. rewrite put_length. split; [tauto|]. intros a Ha. apply put_in in Ha. destruct Ha as [Ha| ->]; [now apply Hu|exact Hv]. Qed.
Lemma mod_N a : 0 <= a mod N < N. Proof. now apply Z.mod_pos_bound. Qed.

Definition bracket (f g : (Z -> Z) -> C) : C := csum X (fun u => Cmult (Cconj (f (conf u))) (g (conf u))).
Lemma bracket_conj f g : bracket f g = Cconj (bracket g f).
Proof. unfold bracket. rewrite conj_csum. apply csum_ext. intros u _. rewrite Cmult_conj, Cconj_conj. ring. Qed.
Lemma orb_cell u m b : In u X -> In m (labels V) -> orb V (conf u) m = b <-> nth (Z.to_nat m) u 0 = b mod N /\ m / Ne = b / N.
Proof.
  intros Hu Hm. pose proof (orb_div V HN HNe (conf u) m (X_lat u Hu) Hm) as (D1 & D2 & D3).
  assert (E : conf u m = nth (Z.to_nat m) u 0) by (unfold conf; apply zrange_in in Hm; destruct (Z.leb_spec 0 m); [reflexivity|lia]).
  rewrite <- E, <- D1, <- D2. split; [now intros <-|]. intros [A B]. rewrite (Z.div_mod (orb V (conf u) m) N), (Z.div_mod b N) by lia. now rewrite A, B.
Qed.
(** <f| c+_a c_b |g> = conj <g| c+_b c_a |f> *)
Lemma act_adjoint a b f g : a / N = b / N -> bracket (act V (a, b) f) g = bracket f (act V (b, a) g).
Proof.
  intros Hs. unfold bracket, act. cbn [fst snd].
  transitivity (csum X (fun u => csum (labels V) (fun m => if orb V (conf u) m =? b then Cmult (Cconj (f (upd (conf u) m (a mod N)))) (g (conf u)) else RtoC 0))).
  { apply csum_ext. intros u _. rewrite conj_csum, <- csum_scal_r. apply csum_ext. intros m _. destruct (_ =? b); [reflexivity|]. rewrite conj_0. ring. }
  transitivity (csum X (fun u => csum (labels V) (fun m => if orb V (conf u) m =? a then Cmult (Cconj (f (conf u))) (g (upd (conf u) m (b mod N))) else RtoC 0))).
  2:{ apply csum_ext. intros u _. rewrite <- csum_scal. apply csum_ext. intros m _. destruct (_ =? a); [reflexivity|]. ring. }
  rewrite (csum_swap X), (csum_swap X). apply csum_ext. intros m Hm. pose proof Hm as Hm'. apply zrange_in in Hm'.
  destruct (Z.eq_dec (m / Ne) (b / N)) as [E|Ne'].
  - pose proof (words_move (zrange 0 N) (a mod N) (b mod N) (zrange_NoDup 0 N) (proj2 (zrange_in 0 N _) (mod_N a)) (proj2 (zrange_in 0 N _) (mod_N b)) (Z.to_nat (2 * Ne)) (Z.to_nat m)
      (fun u u' => Cmult (Cconj (f (conf u))) (g (conf u'))) ltac:(lia)) as Hw. fold X in Hw.
    etransitivity; [|etransitivity; [exact Hw|]].
    + apply csum_ext. intros u Hu. pose proof (orb_cell u m b Hu Hm) as C. destruct (Z.eqb_spec (orb V (conf u) m) b) as [e|n], (Z.eqb_spec (nth (Z.to_nat m) u 0) (b mod N)) as [e'|n']; try tauto; try reflexivity.
      rewrite conf_upd by now apply X_len. reflexivity.
    + apply csum_ext. intros u Hu. pose proof (orb_cell u m a Hu Hm) as C. destruct (Z.eqb_spec (orb V (conf u) m) a) as [e|n], (Z.eqb_spec (nth (Z.to_nat m) u 0) (a mod N)) as [e'|n']; try (rewrite Hs in C; tauto); try reflexivity.
      rewrite conf_upd by now apply X_len. reflexivity.
  - rewrite !csum_zero; [reflexivity| |].
    + intros u Hu. destruct (Z.eqb_spec (orb V (conf u) m) a) as [e|]; [|reflexivity]. apply (orb_cell u m a Hu Hm) in e. rewrite Hs in e. tauto.
    + intros u Hu. destruct (Z.eqb_spec (orb V (conf u) m) b) as [e|]; [|reflexivity]. apply (orb_cell u m b Hu Hm) in e. tauto.
Qed.
Definition swap (o : Z * Z) : Z * Z := (snd o, fst o).
Definition adj (ops : list (Z * Z)) : list (Z * Z) := rev (map swap ops).
Definition one_spin (ops : list (Z * Z)) : Prop := forall o, In o ops -> fst o / N = snd o / N.
Lemma string_adjoint ops : forall f g, one_spin ops -> bracket (string V ops f) g = bracket f (string V (adj ops) g).
Proof.
  induction ops as [|(a, b) ops IH]; intros f g H; [reflexivity|]. cbn [string]. rewrite IH by (intros o Ho; apply H; now right).
  rewrite act_adjoint by (apply (H (a, b)); now left). unfold adj. cbn [map rev]. rewrite string_app. reflexivity.
Qed.
Lemma element_bracket O f g : element V O f g = csum O (fun t => Cmult (fst t) (bracket (string V (snd t) f) g)).
Proof.
  unfold element, bracket. transitivity (csum X (fun u => csum O (fun t => Cmult (fst t) (Cmult (Cconj (string V (snd t) f (conf u))) (g (conf u)))))).
  - apply csum_ext. intros u _. rewrite <- csum_scal_r. apply csum_ext. intros; ring.
  - rewrite csum_swap. apply csum_ext. intros t _. now rewrite csum_scal.
Qed.
(** <g|O|f>* is the sum of the conjugated terms with adjoint strings *)
Lemma element_conj O f g : (forall t, In t O -> one_spin (snd t)) -> Cconj (element V O g f) = csum O (fun t => Cmult (Cconj (fst t)) (bracket (string V (adj (snd t)) f) g)).
Proof.
  intros H. rewrite element_bracket, conj_csum. apply csum_ext. intros t Ht. rewrite Cmult_conj. f_equal. rewrite string_adjoint by now apply H. now rewrite <- bracket_conj.
Qed.
Lemma bracket_ext f f' g : (forall u, In u X -> f (conf u) = f' (conf u)) -> bracket f g = bracket f' g.
Proof. intros H. unfold bracket. apply csum_ext. intros u Hu. now rewrite H. Qed.

(** ** operators that commute *)
Lemma act_ext o f f' u : (forall u, In u X -> f (conf u) = f' (conf u)) -> In u X -> act V o f (conf u) = act V o f' (conf u).
Proof.
  intros H Hu. unfold act. apply csum_ext. intros m Hm. destruct (_ =? snd o); [|reflexivity]. rewrite conf_upd by now apply X_len. apply H. apply X_put; [exact Hu|apply mod_N].
Qed.
Definition occupied (u : list Z) (a : Z) : C := csum (labels V) (fun m => if orb V (conf u) m =? a then RtoC 1 else RtoC 0).
Lemma upd_id {A} (x : Z -> A) m v : x m = v -> upd x m v = x.
Proof. intros <-. apply functional_extensionality. intros i. rewrite upd_get. now destruct (Z.eqb_spec i m) as [->|]. Qed.
Lemma act_number a f u : In u X -> act V (a, a) f (conf u) = Cmult (occupied u a) (f (conf u)).
Proof.
  intros Hu. unfold act, occupied. cbn [fst snd]. rewrite <- csum_scal_r. apply csum_ext. intros m Hm. destruct (Z.eqb_spec (orb V (conf u) m) a) as [E|]; [|ring].
  pose proof (orb_div V HN HNe (conf u) m (X_lat u Hu) Hm) as (_ & D & _). rewrite upd_id by (rewrite <- E; symmetry; exact D). ring.
Qed.
Lemma numbers_commute a b f u : In u X -> string V [(a, a); (b, b)] f (conf u) = string V [(b, b); (a, a)] f (conf u).
Proof. intros Hu. cbn [string]. rewrite !act_number by exact Hu. ring. Qed.
Lemma act_act a b c d f u : In u X -> a <> d -> operator V (a, b) ->
  act V (a, b) (act V (c, d) f) (conf u) = csum (labels V) (fun m => csum (labels V) (fun m' =>
    if (orb V (conf u) m =? b) && (orb V (conf u) m' =? d) && negb (m =? m') then f (upd (upd (conf u) m (a mod N)) m' (c mod N)) else RtoC 0)).
Proof.
  intros Hu Had (O1 & O2 & O3). cbn [fst snd] in *. unfold act. cbn [fst snd]. apply csum_ext. intros m Hm. destruct (Z.eqb_spec (orb V (conf u) m) b) as [E|]; [|symmetry; now apply csum_zero].
  apply csum_ext. intros m' Hm'. cbn [andb]. destruct (Z.eqb_spec m m') as [<-|Nm].
  - rewrite andb_false_r. assert (E' : orb V (upd (conf u) m (a mod N)) m = a).
    { pose proof Hu as Hu'. rewrite conf_upd by now apply X_len. apply orb_cell; [apply X_put; [exact Hu|apply mod_N]|exact Hm|]. split.
      - rewrite put_nth, Nat.eqb_refl. pose proof (X_len u m Hu Hm). assert ((Z.to_nat m <? length u)%nat = true) as -> by (apply Nat.ltb_lt; lia). reflexivity.
      - apply (orb_cell u m b Hu Hm) in E. rewrite O3. tauto. }
    rewrite E'. destruct (Z.eqb_spec a d); [contradiction|reflexivity].
  - rewrite andb_true_r. assert (E' : orb V (upd (conf u) m (a mod N)) m' = orb V (conf u) m').
    { unfold orb, Pf.Spec.orbital. rewrite upd_other by congruence. reflexivity. }
    rewrite E'. reflexivity.
Qed.
Lemma disjoint_commute a b c d f u : In u X -> operator V (a, b) -> operator V (c, d) -> a <> d -> b <> c ->
  act V (a, b) (act V (c, d) f) (conf u) = act V (c, d) (act V (a, b) f) (conf u).
Proof.
  intros Hu O1 O2 H1 H2. rewrite !act_act by (assumption || congruence). rewrite csum_swap. apply csum_ext. intros m Hm. apply csum_ext. intros m' Hm'.
  rewrite (Z.eqb_sym m' m), (andb_comm (orb V (conf u) m' =? b)). destruct (Z.eqb_spec m m') as [->|Nm]; [now rewrite !andb_false_r|].
  destruct (_ && _); [|reflexivity]. f_equal. apply functional_extensionality. intros i. rewrite !upd_get. destruct (Z.eqb_spec i m) as [->|]; [|reflexivity].
  destruct (Z.eqb_spec m m'); [contradiction|reflexivity].
Qed.

(** ** derivatives *)
Lemma string_derive ops : forall (F : R -> (Z -> Z) -> C) D, (forall u, In u X -> cderive (fun t => F t (conf u)) (D (conf u))) ->
  forall u, In u X -> cderive (fun t => string V ops (F t) (conf u)) (string V ops D (conf u)).
Proof.
  induction ops as [|o ops IH]; intros F D H u Hu; [now apply H|]. cbn [string]. apply (IH (fun t => act V o (F t))); [|exact Hu].
  clear u Hu. intros u Hu. unfold act. apply (cderive_csum (labels V) (fun t m => if orb V (conf u) m =? snd o then F t (upd (conf u) m (fst o mod N)) else RtoC 0)). intros m Hm. destruct (_ =? snd o); [|apply cderive_const].
  rewrite conf_upd by now apply X_len. apply H. apply X_put; [exact Hu|apply mod_N].
Qed.
End Adj.
