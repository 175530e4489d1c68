From Coq Require Import ZArith List Bool Reals Lia Lra FunctionalExtensionality.
From Coquelicot Require Import Complex.
From Verif Require Import Base.ZLoop Base.RSum Pf.Pfaffian Pf.Spec Slater.Model Slater.Spec Fsz.Spec Ham.Model Ham.Spec Uhf.Model Uhf.Spec Uhf.Rows Uhf.Proofs Uhf.State Uhf.Pass Orb.Model Orb.Spec Orb.Wedge Orb.Params Orb.Readers.
Import ListNotations.
Local Open Scope Z_scope.

Lemma lines_ok n T rand eps lo hi cells c : legal_cells n T cells -> 0 <= lo ->
  (forall x y v, In (x, y, v) cells -> 0 <= Idx T x y -> Cmult v (RtoC (IZR (Sgn T x y))) = c (Idx T x y)) ->
  exists lines, written n T rand eps lo hi cells = Some lines /\ Z.of_nat (length lines) = Z.max 0 (hi - lo) /\
  forall x y v, In (x, y, v) cells -> lo <= Idx T x y < hi -> nth (Z.to_nat (Idx T x y - lo)) lines None = Some (Cplus (c (Idx T x y)) (RtoC (offset rand eps (Idx T x y)))).
Proof.
  intros HL Hlo HC. destruct (written_is n T rand eps lo hi cells HL Hlo) as (lines & E1 & E2 & E3). exists lines. split; [exact E1|]. split; [exact E2|].
  intros x y v I Hk. rewrite (E3 _ Hk). assert (I' : In (x, y, v) (class T cells (Idx T x y))) by (apply filter_In; split; [exact I|apply Z.eqb_refl]).
  destruct (class T cells (Idx T x y)) as [|a l] eqn:Ec; [destruct I'|]. rewrite <- Ec. f_equal. f_equal.
  apply mean_constant; [rewrite Ec; discriminate|]. intros ((x', y'), v') J. apply filter_In in J. destruct J as (J & Q). cbn [fst snd] in *. apply Z.eqb_eq in Q. rewrite <- Q. apply (HC _ _ _ J). lia.
Qed.
Lemma sign_sq ap l e : signs_ok ap l -> In e l -> sign_value (snd e) * sign_value (snd e) = 1.
Proof. intros [(_ & H)|H] I; destruct (H e I) as [-> | ->]; reflexivity. Qed.
Lemma sign_abs ap l e : signs_ok ap l -> In e l -> sign_value (snd e) = 1 \/ sign_value (snd e) = -1.
Proof. intros [(_ & H)|H] I; destruct (H e I) as [-> | ->]; cbn; tauto. Qed.
Lemma C_two : RtoC 2 = Cplus (RtoC 1) (RtoC 1).
Proof. rewrite <- RtoC_plus. reflexivity. Qed.
Lemma undo s (v : C) : s * s = 1 -> Cmult (Cmult (RtoC (IZR s)) v) (RtoC (IZR s)) = v.
Proof. intros E. transitivity (Cmult (RtoC (IZR (s * s))) v); [rewrite mult_IZR, RtoC_mult; ring|rewrite E; ring]. Qed.

Lemma in_general Ns F x y v : In (x, y, v) (cells_general Ns F) -> 0 <= x < 2 * Ns /\ 0 <= y < 2 * Ns /\ v = F x y.
Proof.
  unfold cells_general. intros I. apply in_flat_map in I. destruct I as (si & Hsi & I). apply in_flat_map in I. destruct I as (sj & Hsj & I).
  apply in_flat_map in I. destruct I as (i & Hi & I). apply in_map_iff in I. destruct I as (j & Q & Hj). apply zrange_in in Hsi, Hsj, Hi, Hj. injection Q as <- <- <-.
  assert (si = 0 \/ si = 1) as [-> | ->] by lia; assert (sj = 0 \/ sj = 1) as [-> | ->] by lia; repeat split; lia.
Qed.
Lemma general_in Ns F x y : 0 <= x < 2 * Ns -> 0 <= y < 2 * Ns -> In (x, y, F x y) (cells_general Ns F).
Proof.
  intros Hx Hy. unfold cells_general.
  assert (H : forall x, 0 <= x < 2 * Ns -> exists i s, x = i + s * Ns /\ 0 <= i < Ns /\ 0 <= s < 2).
  { intros z Hz. destruct (Z_lt_ge_dec z Ns); [exists z, 0|exists (z - Ns), 1]; lia. }
  destruct (H x Hx) as (i & si & -> & Hi & Hsi), (H y Hy) as (j & sj & -> & Hj & Hsj).
  apply in_flat_map. exists si. split; [now apply zrange_in|]. apply in_flat_map. exists sj. split; [now apply zrange_in|].
  apply in_flat_map. exists i. split; [now apply zrange_in|]. apply in_map_iff. exists j. split; [reflexivity|now apply zrange_in].
Qed.

(** the amplitudes that the main program forms, from agreeing tables *)
Section From_tables.
Variables (S : sizes) (Q : qptables) (ap : bool) (l : list entry) (m : Z) (U M : tables) (F : Z -> Z -> C) (c : Z -> C) (rand : Z -> R) (eps : Z) (sl : Z -> C).
Notation Ns := (Nsite S).
Hypothesis HN : 0 < Ns.
Hypothesis HA : agree (2 * Ns) m l U M.
Hypothesis HS : signs_ok ap l.
Hypothesis HF : antisymmetric (2 * Ns) F.
Hypothesis HC : adapted F c l.
Hypothesis HQ : unprojected S Q M.
Hypothesis Hsl : forall x y, 0 <= x < y -> y < 2 * Ns -> sl (Idx U x y) = Cplus (c (Idx U x y)) (RtoC (offset rand eps (Idx U x y))).
Lemma image_id x : 0 <= x < 2 * Ns -> image_fsz Ns Q 0 0 x = x.
Proof.
  intros Hx. unfold image_fsz. destruct HQ as (H & _). destruct (H (x mod Ns) (Z.mod_pos_bound x Ns HN)) as (-> & _). pose proof (Z.div_mod x Ns ltac:(lia)). lia.
Qed.
Lemma pair_is x y : 0 <= x < 2 * Ns -> 0 <= y < 2 * Ns -> pair_fsz Ns Q sl 0 0 x y = Cmult (RtoC (IZR (Sgn M x y))) (sl (Idx M x y)).
Proof.
  intros Hx Hy. unfold pair_fsz. rewrite !image_id by assumption. destruct HQ as (H & E1 & E2). rewrite E1, E2.
  destruct (H (x mod Ns) (Z.mod_pos_bound x Ns HN)) as (_ & ->). destruct (H (y mod Ns) (Z.mod_pos_bound y Ns HN)) as (_ & ->). now rewrite !Z.mul_1_l.
Qed.
Lemma element_up x y : 0 <= x < y -> y < 2 * Ns -> exists s, (s = 1 \/ s = -1) /\ element_fsz Ns Q sl 0 0 x y = Cmult (RtoC 2) (Cplus (F x y) (RtoC (IZR s * offset rand eps (Idx U x y)))).
Proof.
  intros Hx Hy. unfold element_fsz. rewrite !pair_is by lia. destruct (HA x y Hx Hy) as ((s & I & Es) & _ & -> & -> & -> & ->).
  rewrite Es. exists (sign_value s). split; [exact (sign_abs ap l _ HS I)|]. rewrite (HC _ _ _ _ I), (Hsl x y Hx Hy), opp_IZR, RtoC_opp, RtoC_mult, C_two. ring.
Qed.
Lemma element_near x y : unit_interval rand -> 0 <= x < 2 * Ns -> 0 <= y < 2 * Ns -> (Cmod (Cminus (element_fsz Ns Q sl 0 0 x y) (Cmult (RtoC 2) (F x y))) <= 2 * powerRZ 10 (- eps))%R.
Proof.
  intros HR Hx Hy. assert (P10 : (0 < powerRZ 10 (- eps))%R) by (apply powerRZ_lt; lra).
  assert (B : forall s k, s = 1 \/ s = -1 -> (Cmod (Cmult (RtoC 2) (RtoC (IZR s * offset rand eps k))) <= 2 * powerRZ 10 (- eps))%R).
  { intros s k Hs. rewrite Cmod_mult, !Cmod_R. unfold offset. specialize (HR k). rewrite (Rabs_pos_eq 2) by lra. apply Rmult_le_compat_l; [lra|].
    assert (0 <= rand k * powerRZ 10 (- eps) <= powerRZ 10 (- eps))%R by (split; [apply Rmult_le_pos; lra|]; rewrite <- (Rmult_1_l (powerRZ 10 (- eps))) at 2; apply Rmult_le_compat_r; lra).
    destruct Hs as [-> | ->]; unfold Rabs; destruct (Rcase_abs _); lra. }
  assert (A : forall x y, 0 <= x < y -> y < 2 * Ns -> exists s, (s = 1 \/ s = -1) /\ Cminus (element_fsz Ns Q sl 0 0 x y) (Cmult (RtoC 2) (F x y)) = Cmult (RtoC 2) (RtoC (IZR s * offset rand eps (Idx U x y)))).
  { intros x' y' Hx' Hy'. destruct (element_up x' y' Hx' Hy') as (s & Hs & ->). exists s. split; [exact Hs|]. ring. }
  destruct (Z_lt_ge_dec x y); [|destruct (Z_lt_ge_dec y x)].
  - destruct (A x y ltac:(lia) ltac:(lia)) as (s & Hs & ->). now apply B.
  - destruct (A y x ltac:(lia) ltac:(lia)) as (s & Hs & E).
    replace (Cminus (element_fsz Ns Q sl 0 0 x y) (Cmult (RtoC 2) (F x y))) with (Copp (Cminus (element_fsz Ns Q sl 0 0 y x) (Cmult (RtoC 2) (F y x)))) by (rewrite (HF x y Hx Hy); unfold element_fsz; ring).
    rewrite Cmod_opp, E. now apply B.
  - assert (x = y) as -> by lia. replace (F y y) with (RtoC 0) by (symmetry; apply C_self_opp; exact (HF y y Hy Hy)). unfold element_fsz.
    replace (Cminus (Cminus _ _) _) with (RtoC 0) by ring. rewrite Cmod_0. lra.
Qed.
Lemma element_exact : (forall k, rand k = 0%R) -> forall x y, 0 <= x < 2 * Ns -> 0 <= y < 2 * Ns -> element_fsz Ns Q sl 0 0 x y = Cmult (RtoC 2) (F x y).
Proof.
  intros HR. assert (A : forall x y, 0 <= x < y -> y < 2 * Ns -> element_fsz Ns Q sl 0 0 x y = Cmult (RtoC 2) (F x y)).
  { intros x y Hx Hy. destruct (element_up x y Hx Hy) as (s & _ & ->). unfold offset. rewrite HR, Rmult_0_l, Rmult_0_r. ring. }
  intros x y Hx Hy. destruct (Z_lt_ge_dec x y); [|destruct (Z_lt_ge_dec y x)].
  - apply A; lia.
  - transitivity (Copp (element_fsz Ns Q sl 0 0 y x)); [unfold element_fsz; ring|]. rewrite (A y x) by lia. rewrite (HF x y Hx Hy). ring.
  - assert (x = y) as -> by lia. replace (F y y) with (RtoC 0) by (symmetry; apply C_self_opp; exact (HF y y Hy Hy)). unfold element_fsz. ring.
Qed.
Lemma pfaffian_exact ps (x : Z -> Z) : (forall k, rand k = 0%R) -> Z.of_nat (length ps) = Ne S -> (forall i j, F i j = geminal ps i j) -> (forall i, 0 <= i < 2 * Ne S -> 0 <= x i < 2 * Ns) ->
  pfaffian_fsz S Q sl x 0 0 = Cmult (RtoC (2 ^ Z.to_nat (Ne S))) (determinant (both ps) (map x (zrange 0 (2 * Ne S)))).
Proof.
  intros HR HL HG Hx. unfold pfaffian_fsz. assert (LZ : length (zrange 0 (2 * Ne S)) = (2 * length ps)%nat) by (unfold zrange; rewrite map_length, seq_length; lia).
  rewrite (pf_ext _ (fun i j => Cmult (RtoC 2) (geminal ps (x i) (x j))) (length (zrange 0 (2 * Ne S)))); [|lia|].
  - rewrite (pf_scale 2 (fun i j => geminal ps (x i) (x j)) (length ps)) by exact LZ. replace (Z.to_nat (Ne S)) with (length ps) by lia. f_equal.
    rewrite <- (pf_map (geminal ps) x (length (zrange 0 (2 * Ne S)))) by lia. apply pf_geminal. rewrite map_length. lia.
  - intros i j Hi Hj. apply zrange_in in Hi, Hj. rewrite (element_exact HR) by (apply Hx; lia). now rewrite HG.
Qed.
End From_tables.

(** ** the orbitals *)
Definition pairs_of (Ne : Z) (phi : Z -> Z -> C) : list ((Z -> C) * (Z -> C)) := map (fun n => (phi (2 * n), phi (2 * n + 1))) (zrange 0 Ne).
Lemma loop_csum (f : Z -> C) n z : loop 0 n (fun k e => Cplus e (f k)) z = Cplus z (csum (zrange 0 n) f).
Proof. unfold loop. generalize (zrange 0 n) as l. intros l. revert z. induction l as [|a l IH]; intros z; cbn [fold_left csum]; [ring|]. rewrite IH. ring. Qed.
Lemma pair_general_geminal Ne R i j : pair_general Ne R i j = geminal (pairs_of Ne (fun n i => Cconj (R i n))) i j.
Proof.
  unfold pair_general, geminal, pairs_of. rewrite (loop_csum (fun m => Cminus (Cmult (Cconj (R i (2 * m))) (Cconj (R j (2 * m + 1)))) (Cmult (Cconj (R i (2 * m + 1))) (Cconj (R j (2 * m)))))).
  rewrite Rows.csum_mapped. rewrite Cplus_0_l. reflexivity.
Qed.
Lemma both_pairs Ne phi : 0 <= Ne -> both (pairs_of Ne phi) = map phi (zrange 0 (2 * Ne)).
Proof.
  intros HN. pattern Ne. apply natlike_ind; [reflexivity| |exact HN]. intros n Hn IH. unfold pairs_of, both in *.
  unfold Z.succ at 1; rewrite (zrange_snoc 0 n) by lia. rewrite map_app, flat_map_app, IH. replace (2 * Z.succ n) with (2 * n + 1 + 1) by lia. rewrite (zrange_snoc 0 (2 * n + 1)), (zrange_snoc 0 (2 * n)) by lia. rewrite !map_app, <- app_assoc. reflexivity.
Qed.
