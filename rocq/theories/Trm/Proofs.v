From Coq Require Import ZArith List Bool Reals Lia Lra.
From Coquelicot Require Import Complex.
From Verif Require Import Base.ZLoop Base.Checked Pf.Spec Slater.Model Green.Spec Ham.Model Ham.Spec Trm.Model Trm.Spec.
Import ListNotations.
Local Open Scope Z_scope.

(** ** scanning complete lines *)
Lemma ints_app xs s : ints (length xs) (map Int xs ++ s) = Some (xs, s).
Proof. induction xs as [|a xs IH]; [destruct s; reflexivity|]. cbn. now rewrite IH. Qed.
Lemma reals_app ds s : reals (length ds) (ds ++ s) = (map value ds, s).
Proof. induction ds as [|a ds IH]; [destruct s; reflexivity|]. cbn. rewrite IH. now destruct a. Qed.
Lemma convert_line n m l r rest : line_is n m l r -> convert n m (l ++ rest) = Some (fst r, snd r, rest).
Proof.
  intros (<- & Hm & ds & -> & E). unfold convert. rewrite <- app_assoc, ints_app. assert (length ds = m) as <- by (rewrite <- Hm, <- E, map_length; reflexivity).
  now rewrite reals_app, E.
Qed.
Lemma convert_line_end n m l r : line_is n m l r -> convert n m l = Some (fst r, snd r, []).
Proof. intros H. rewrite <- (app_nil_r l) at 1. now apply convert_line. Qed.
Lemma over_same {A} (a b : list A) : length a = length b -> over a b = a.
Proof. intros H. unfold over. rewrite H, skipn_all. apply app_nil_r. Qed.

(** ** loops over rows *)
Section Puts.
Context {A : Type}.
Variable put : Z -> row -> table A -> table A.
Fixpoint puts (rows : list row) (idx : Z) (t : table A) : table A := match rows with [] => t | r :: rows => puts rows (idx + 1) (put idx r t) end.
Variable holds : Z -> row -> table A -> Prop.
Variable wf : row -> Prop.
Hypothesis Hput : forall idx r t, wf r -> holds idx r (put idx r t).
Hypothesis Hkeep : forall i j r r' t, i <> j -> holds i r t -> holds i r (put j r' t).
Lemma puts_keep rows : forall idx t i r, i < idx -> holds i r t -> holds i r (puts rows idx t).
Proof. induction rows as [|r' rows IH]; intros idx t i r Hi H; [exact H|]. cbn [puts]. apply IH; [lia|]. apply Hkeep; [lia|exact H]. Qed.
Lemma puts_holds rows : forall idx t k r, nth_error rows k = Some r -> wf r -> holds (idx + Z.of_nat k) r (puts rows idx t).
Proof.
  induction rows as [|r' rows IH]; intros idx t k r E W; [now destruct k|]. cbn [puts]. destruct k as [|k]; cbn in E.
  - inversion E. subst r'. rewrite Z.add_0_r. apply puts_keep; [lia|now apply Hput].
  - replace (idx + Z.of_nat (S k)) with (idx + 1 + Z.of_nat k) by lia. now apply IH.
Qed.
End Puts.

Section Run.
Context {A : Type}.
Variables (step : Z -> list Z -> list R -> table A -> outcome (table A)) (enough : Z -> bool).
Fixpoint run (rows : list row) (idx : Z) (t : table A) : outcome (table A) :=
  match rows with
  | [] => if enough idx then Done t else Refused
  | r :: rows => match step idx (fst r) (snd r) t with Done t => run rows (idx + 1) t | o => o end
  end.
Lemma main_rows_run n m lines rows : complete n m lines rows -> forall idx x d t, length x = n -> length d = m -> main_rows n m step enough lines idx x d t = run rows idx t.
Proof.
  induction 1 as [|l r lines rows Hl HC IH]; intros idx x d t Hx Hd; [reflexivity|]. cbn [main_rows run]. rewrite (convert_line_end n m l r Hl).
  destruct Hl as (H1 & H2 & _). rewrite !over_same by congruence. destruct (step idx (fst r) (snd r) t); try reflexivity. now apply IH.
Qed.
Variables (K : Z) (ok : row -> bool) (put : Z -> row -> table A -> table A).
Notation puts := (puts put).
Hypothesis Hstep : forall idx r t, 0 <= idx -> step idx (fst r) (snd r) t = if idx <? K then if ok r then Done (put idx r t) else Refused else Outside.
Hypothesis Henough : forall idx, 0 <= idx -> enough idx = (idx =? K).
Lemma run_judged rows : forall idx t, 0 <= idx <= K ->
  run rows idx t = match judged (K - idx) ok rows with Accept => Done (puts rows idx t) | Reject => Refused | Overrun => Outside end.
Proof.
  induction rows as [|r rows IH]; intros idx t Hi.
  - cbn [run puts]. rewrite Henough by lia. unfold judged. rewrite firstn_nil. cbn [forallb length Z.of_nat].
    destruct (Z.eqb_spec idx K), (Z.eqb_spec 0 (K - idx)); try lia; [reflexivity|]. destruct (Z.ltb_spec 0 (K - idx)); [reflexivity|lia].
  - cbn [run puts]. rewrite Hstep by lia. destruct (Z.ltb_spec idx K) as [L|L].
    + assert (EN : Z.to_nat (K - idx) = S (Z.to_nat (K - (idx + 1)))) by lia. unfold judged. rewrite EN. cbn [firstn forallb]. destruct (ok r); [|reflexivity].
      rewrite IH by lia. unfold judged. cbn [andb]. destruct (forallb ok _); [|reflexivity].
      replace (Z.of_nat (length (r :: rows)) =? K - idx) with (Z.of_nat (length rows) =? K - (idx + 1)) by (cbn [length]; rewrite Nat2Z.inj_succ; destruct (Z.eqb_spec (Z.of_nat (length rows)) (K - (idx + 1))), (Z.eqb_spec (Z.succ (Z.of_nat (length rows))) (K - idx)); lia).
      replace (Z.of_nat (length (r :: rows)) <? K - idx) with (Z.of_nat (length rows) <? K - (idx + 1)) by (cbn [length]; rewrite Nat2Z.inj_succ; destruct (Z.ltb_spec (Z.of_nat (length rows)) (K - (idx + 1))), (Z.ltb_spec (Z.succ (Z.of_nat (length rows))) (K - idx)); lia). reflexivity.
    + assert (idx = K) as -> by lia. unfold judged. rewrite Z.sub_diag. cbn [Z.to_nat firstn forallb]. destruct (Z.eqb_spec (Z.of_nat (length (r :: rows))) 0); [cbn in *; lia|]. destruct (Z.ltb_spec (Z.of_nat (length (r :: rows))) 0); [lia|reflexivity].
Qed.
End Run.
Lemma judged_accept K ok rows : judged K ok rows = Accept <-> Z.of_nat (length rows) = K /\ forall r, In r rows -> ok r = true.
Proof.
  unfold judged. split.
  - intros H. destruct (forallb ok (firstn (Z.to_nat K) rows)) eqn:E; [|discriminate]. destruct (Z.eqb_spec (Z.of_nat (length rows)) K) as [L|L]; [|destruct (_ <? _); discriminate].
    split; [exact L|]. rewrite firstn_all2 in E by lia. now apply forallb_forall.
  - intros (L & H). rewrite firstn_all2 by lia. apply forallb_forall in H. rewrite H. now apply Z.eqb_eq in L as ->.
Qed.

(** ** streams *)
Section Streams.
Context {A : Type}.
Variables (n m : nat) (step : Z -> list Z -> list R -> table A -> outcome (table A)) (row_ : Z -> Z) (enough : Z -> bool).
Hypothesis Hn : (0 < n)%nat.
Lemma line_nonempty l r : line_is n m l r -> l <> [].
Proof. intros (H & _ & ds & -> & _) E. destruct (fst r); [cbn in H; lia|discriminate]. Qed.
Lemma stream_run lines rows : complete n m lines rows -> forall fuel idx t, (length rows <= fuel)%nat ->
  map_done fst (uhf_stream n m step row_ enough fuel (concat lines) idx t) = run step enough rows idx t.
Proof.
  induction 1 as [|l r lines rows Hl HC IH]; intros fuel idx t HF.
  - destruct fuel; cbn; now destruct (enough idx).
  - cbn [concat run]. destruct fuel as [|fuel]; [cbn in HF; lia|]. cbn [length] in HF. pose proof (line_nonempty l r Hl) as NE. pose proof (convert_line n m l r (concat lines) Hl) as E.
    remember (l ++ concat lines) as s eqn:Es. destruct s as [|v s]; [destruct l; [now elim NE|discriminate]|]. cbn [uhf_stream]. rewrite E.
    destruct (step idx (fst r) (snd r) t) as [t'| | | |]; try reflexivity. rewrite <- (IH fuel (idx + 1) t' ltac:(lia)).
    destruct (uhf_stream n m step row_ enough fuel (concat lines) (idx + 1) t') as [(t'', ptr)| | | |]; reflexivity.
Qed.
Lemma concat_length lines rows : complete n m lines rows -> (length rows <= length (concat lines))%nat.
Proof. induction 1 as [|l r lines rows Hl HC IH]; [cbn; lia|]. cbn [concat length]. rewrite app_length. pose proof (line_nonempty l r Hl). destruct l; [easy|cbn; lia]. Qed.
Lemma stream_pointer K fuel : (forall idx, enough idx = true -> row_ idx = K) -> forall s idx t t' ptr, uhf_stream n m step row_ enough fuel s idx t = Done (t', ptr) -> In K ptr.
Proof.
  intros HK. induction fuel as [|fuel IH]; intros s idx t t' ptr E; destruct s as [|v s]; cbn [uhf_stream] in E.
  - destruct (enough idx) eqn:Q; [|discriminate]. inversion E. left. now apply HK.
  - discriminate.
  - destruct (enough idx) eqn:Q; [|discriminate]. inversion E. left. now apply HK.
  - destruct (convert n m (v :: s)) as [((x, d), rest)|]; [|discriminate]. destruct (step idx x d t) as [t1| | | |]; try discriminate.
    destruct (uhf_stream n m step row_ enough fuel rest (idx + 1) t1) as [(t2, p2)| | | |] eqn:E2; try discriminate. inversion E; subst. right. exact (IH _ _ _ _ _ E2).
Qed.
End Streams.

(** ** lists of terms *)
Lemma flat_map_rows {B} (f : Z -> list B) (g : row -> list B) rows : forall a, (forall k r, nth_error rows k = Some r -> f (a + Z.of_nat k) = g r) -> flat_map f (zrange a (a + Z.of_nat (length rows))) = flat_map g rows.
Proof.
  induction rows as [|r rows IH]; intros a H; [cbn; rewrite zrange_nil by lia; reflexivity|].
  rewrite zrange_cons by (cbn [length]; lia). cbn [flat_map]. f_equal.
  - rewrite <- (H 0%nat r eq_refl). f_equal. lia.
  - rewrite <- (IH (a + 1)); [f_equal; f_equal; cbn [length]; lia|]. intros k r' E. rewrite <- (H (S k) r' E). f_equal. lia.
Qed.
Lemma flat_map_rows2 {B} (f : Z -> list B) (g : row -> list B) rows : forall a, (forall k r, nth_error rows k = Some r -> f (2 * (a + Z.of_nat k)) ++ f (2 * (a + Z.of_nat k) + 1) = g r) -> flat_map f (zrange (2 * a) (2 * (a + Z.of_nat (length rows)))) = flat_map g rows.
Proof.
  induction rows as [|r rows IH]; intros a H; [cbn [length Z.of_nat]; rewrite zrange_nil by lia; reflexivity|].
  rewrite zrange_cons by (cbn [length]; lia). rewrite zrange_cons by (cbn [length]; lia). cbn [flat_map]. rewrite app_assoc. f_equal.
  - rewrite <- (H 0%nat r eq_refl). now rewrite Z.add_0_r.
  - rewrite <- (IH (a + 1)); [f_equal; f_equal; cbn [length]; lia|]. intros k r' E. rewrite <- (H (S k) r' E). replace (a + 1 + Z.of_nat k) with (a + Z.of_nat (S k)) by lia. reflexivity.
Qed.
