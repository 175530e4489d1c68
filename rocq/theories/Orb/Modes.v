From Coq Require Import ZArith List Bool Reals Lia Lra FunctionalExtensionality.
From Coquelicot Require Import Complex.
From Verif Require Import Green.Spec Base.ZLoop Base.RSum Pf.Pfaffian Pf.Spec Slater.Model Slater.Spec Fsz.Spec Ham.Model Ham.Spec Uhf.Model Uhf.Spec Uhf.Rows Uhf.Proofs Uhf.State Uhf.Pass Uhf.Final Orb.Model Orb.Spec Orb.Wedge Orb.Params Orb.Readers Orb.Final.
Import ListNotations.
Local Open Scope Z_scope.

Lemma pair_general_anti Ne R n : antisymmetric n (pair_general Ne R).
Proof.
  intros x y _ _. rewrite !pair_general_geminal. unfold geminal. rewrite <- csum_opp. apply csum_ext. intros. ring.
Qed.
Lemma pairs_length Ne phi : 0 <= Ne -> Z.of_nat (length (pairs_of Ne phi)) = Ne.
Proof. intros. unfold pairs_of. rewrite map_length, zrange_length. lia. Qed.
Lemma determinant_general Ne R l : 0 <= Ne -> 2 * Ne <= Z.of_nat (length l) ->
  pf (pair_general Ne R) l = determinant (map (fun n i => Cconj (R i n)) (zrange 0 (2 * Ne))) l.
Proof.
  intros HN HL. rewrite (pf_ext _ (geminal (pairs_of Ne (fun n i => Cconj (R i n)))) (length l) l (le_n _)) by (intros; apply pair_general_geminal).
  rewrite pf_geminal by (pose proof (pairs_length Ne (fun n i => Cconj (R i n)) HN); lia). now rewrite both_pairs.
Qed.

(** ** general orbitals *)
Lemma final_general S flag rows n rand eps c Rs start : 0 < Nsite S -> 0 <= Ne S -> 0 <= n ->
  general_file (Nsite S) n rows -> signs_ok flag (map (general_entry (Nsite S)) rows) ->
  let F := pair_general (Ne S) Rs in adapted F c (map (general_entry (Nsite S)) rows) ->
  exists U M lines, uhf_general (Nsite S) rows = Some U /\ main_general (Nsite S) flag rows = Some M /\
    output_general n U rand eps (Nsite S) F = Some lines /\ Z.of_nat (length lines) = n /\
    forall Q, unprojected S Q M -> let sl := fun k => value (read_lines lines 0 start k) in
      (unit_interval rand -> forall x y, 0 <= x < 2 * Nsite S -> 0 <= y < 2 * Nsite S -> (Cmod (Cminus (element_fsz (Nsite S) Q sl 0 0 x y) (Cmult (RtoC 2) (F x y))) <= 2 * powerRZ 10 (- eps))%R) /\
      ((forall k, rand k = 0%R) -> forall x, (forall i, 0 <= i < 2 * Ne S -> 0 <= x i < 2 * Nsite S) ->
        pfaffian_fsz S Q sl x 0 0 = Cmult (RtoC (2 ^ Z.to_nat (Ne S))) (determinant (map (fun n i => Cconj (Rs i n)) (zrange 0 (2 * Ne S))) (map x (zrange 0 (2 * Ne S))))).
Proof.
  intros HN HE Hn HF HS F HC. set (Ns := Nsite S) in *. set (l := map (general_entry Ns) rows) in *.
  destruct (general_tables Ns n flag rows HF HS) as (U & M & EU & EM & HA & Hlow). fold l in HA.
  assert (HL : legal_cells n U (cells_general Ns F)).
  { intros ((x, y), v) I. destruct (in_general _ _ _ _ _ I) as (Hx & Hy & _). cbn [fst snd]. destruct (Z_lt_ge_dec x y); [right|left; apply Hlow; lia]. destruct (HA x y ltac:(lia) ltac:(lia)) as (_ & H & _). exact H. }
  destruct (lines_ok n U rand eps 0 n (cells_general Ns F) c HL ltac:(lia)) as (lines & E1 & E2 & E3).
  { intros x y v I Hk. destruct (in_general _ _ _ _ _ I) as (Hx & Hy & ->). assert (Hxy : x < y) by (destruct (Z_lt_ge_dec x y); [assumption|rewrite Hlow in Hk; lia]).
    destruct (HA x y ltac:(lia) ltac:(lia)) as ((s & J & Es) & _). rewrite Es, (HC _ _ _ _ J). apply undo. exact (sign_sq flag l _ HS J). }
  exists U, M, lines. split; [exact EU|]. split; [exact EM|]. split; [exact E1|]. split; [lia|]. intros Q HQ sl.
  assert (Hsl : forall x y, 0 <= x < y -> y < 2 * Ns -> sl (Idx U x y) = Cplus (c (Idx U x y)) (RtoC (offset rand eps (Idx U x y)))).
  { intros x y Hx Hy. destruct (HA x y Hx Hy) as (_ & Hk & _). unfold sl. rewrite read_lines_is. rewrite E2.
    destruct (Z.leb_spec 0 (Idx U x y)); [|lia]. destruct (Z.ltb_spec (Idx U x y) (0 + Z.max 0 (n - 0))); [|lia]. cbn [andb].
    rewrite (E3 x y (F x y)); [reflexivity|apply general_in; lia|lia]. }
  split.
  - intros HR x y Hx Hy. exact (element_near S Q flag l n U M F c rand eps sl HN HA HS (pair_general_anti _ _ _) HC HQ Hsl x y HR Hx Hy).
  - intros HR x Hx. rewrite (pfaffian_exact S Q flag l n U M F c rand eps sl HN HA HS (pair_general_anti _ _ _) HC HQ Hsl (pairs_of (Ne S) (fun n i => Cconj (Rs i n))) x HR (pairs_length _ _ HE) ltac:(intros; apply pair_general_geminal) Hx).
    now rewrite both_pairs.
Qed.

(** ** anti-parallel and parallel orbitals *)
Lemma in_ap Ns F x y v : In (x, y, v) (cells_ap Ns F) -> exists i j, site Ns i /\ site Ns j /\ x = i /\ y = j + Ns /\ v = F x y.
Proof.
  unfold cells_ap. intros I. apply in_flat_map in I. destruct I as (i & Hi & I). apply in_map_iff in I. destruct I as (j & Q & Hj). apply zrange_in in Hi, Hj. rewrite Z.mul_0_l, Z.mul_1_l, Z.add_0_r in Q. injection Q as <- <- <-.
  exists i, j. unfold site. repeat split; lia.
Qed.
Lemma ap_in Ns F i j : site Ns i -> site Ns j -> In (i, j + Ns, F i (j + Ns)) (cells_ap Ns F).
Proof.
  intros Hi Hj. unfold cells_ap. apply in_flat_map. exists i. split; [now apply zrange_in|]. apply in_map_iff. exists j. split; [|now apply zrange_in].
  now rewrite Z.mul_0_l, Z.mul_1_l, Z.add_0_r.
Qed.
Lemma in_p Ns F x y v : In (x, y, v) (cells_p Ns F) -> exists i j s, 0 <= i < j /\ j < Ns /\ (s = 0 \/ s = 1) /\ x = i + s * Ns /\ y = j + s * Ns /\ v = F x y.
Proof.
  unfold cells_p. intros I. apply in_flat_map in I. destruct I as (i & Hi & I). apply in_flat_map in I. destruct I as (j & Hj & I). apply zrange_in in Hi, Hj.
  rewrite !Z.mul_0_l, !Z.mul_1_l, !Z.add_0_r in I. destruct I as [Q|[Q|[]]]; injection Q as <- <- <-; exists i, j; [exists 0|exists 1]; repeat split; try lia; auto.
Qed.
Lemma p_in Ns F i j s : 0 <= i < j -> j < Ns -> s = 0 \/ s = 1 -> In (i + s * Ns, j + s * Ns, F (i + s * Ns) (j + s * Ns)) (cells_p Ns F).
Proof.
  intros Hi Hj Hs. unfold cells_p. apply in_flat_map. exists i. split; [apply zrange_in; lia|]. apply in_flat_map. exists j. split; [apply zrange_in; lia|].
  destruct Hs as [-> | ->]; [now left|right; now left].
Qed.
Lemma final_ap_p S flag ap p nap np rand rand' eps c Rs start : 0 < Nsite S -> 0 <= Ne S -> 0 <= nap -> 0 <= np ->
  ap_file (Nsite S) nap ap -> p_file (Nsite S) np p -> signs_ok flag (ap_p_entries (Nsite S) nap ap p) ->
  let F := pair_general (Ne S) Rs in adapted F c (ap_p_entries (Nsite S) nap ap p) ->
  exists U M lines lines', uhf_ap_p (Nsite S) nap ap p = Some U /\ main_ap_p (Nsite S) flag nap ap p = Some M /\
    output_antiparallel (nap + 2 * np) U rand eps (Nsite S) nap F = Some lines /\ Z.of_nat (length lines) = nap /\
    output_parallel (nap + 2 * np) U rand' eps (Nsite S) nap (2 * np) F = Some lines' /\ Z.of_nat (length lines') = 2 * np /\
    forall Q, unprojected S Q M -> let sl := fun k => value (read_lines lines' nap (read_lines lines 0 start) k) in
      (unit_interval rand -> unit_interval rand' -> forall x y, 0 <= x < 2 * Nsite S -> 0 <= y < 2 * Nsite S -> (Cmod (Cminus (element_fsz (Nsite S) Q sl 0 0 x y) (Cmult (RtoC 2) (F x y))) <= 2 * powerRZ 10 (- eps))%R) /\
      ((forall k, rand k = 0%R) -> (forall k, rand' k = 0%R) -> forall x, (forall i, 0 <= i < 2 * Ne S -> 0 <= x i < 2 * Nsite S) ->
        pfaffian_fsz S Q sl x 0 0 = Cmult (RtoC (2 ^ Z.to_nat (Ne S))) (determinant (map (fun n i => Cconj (Rs i n)) (zrange 0 (2 * Ne S))) (map x (zrange 0 (2 * Ne S))))).
Proof.
  intros HN HE Hn Hp HFa HFp HS F HC. set (Ns := Nsite S) in *. set (l := ap_p_entries Ns nap ap p) in *.
  destruct (ap_p_tables Ns nap np flag ap p ltac:(lia) Hn Hp HFa HFp HS) as (U & M & EU & EM & HA & Hcl & Hcp). fold l in HA.
  assert (VAL : forall x y, 0 <= x < y -> y < 2 * Ns -> Cmult (F x y) (RtoC (IZR (Sgn U x y))) = c (Idx U x y)).
  { intros x y Hx Hy. destruct (HA x y Hx Hy) as ((s & J & Es) & _). rewrite Es, (HC _ _ _ _ J). apply undo. exact (sign_sq flag l _ HS J). }
  assert (HLa : legal_cells (nap + 2 * np) U (cells_ap Ns F)).
  { intros ((x, y), v) I. destruct (in_ap _ _ _ _ _ I) as (i & j & Hi & Hj & -> & -> & _). right. cbn [fst snd]. specialize (Hcl i j Hi Hj). lia. }
  assert (HLp : legal_cells (nap + 2 * np) U (cells_p Ns F)).
  { intros ((x, y), v) I. destruct (in_p _ _ _ _ _ I) as (i & j & s & Hi & Hj & Hs & -> & -> & _). right. cbn [fst snd].
    destruct (HA (i + s * Ns) (j + s * Ns) ltac:(destruct Hs as [-> | ->]; lia) ltac:(destruct Hs as [-> | ->]; lia)) as (_ & H & _). exact H. }
  destruct (lines_ok (nap + 2 * np) U rand eps 0 nap (cells_ap Ns F) c HLa ltac:(lia)) as (lines & E1 & E2 & E3).
  { intros x y v I _. destruct (in_ap _ _ _ _ _ I) as (i & j & Hi & Hj & -> & -> & ->). unfold site in *. apply VAL; lia. }
  destruct (lines_ok (nap + 2 * np) U rand' eps nap (nap + 2 * np) (cells_p Ns F) c HLp Hn) as (lines' & E1' & E2' & E3').
  { intros x y v I _. destruct (in_p _ _ _ _ _ I) as (i & j & s & Hi & Hj & Hs & -> & -> & ->). apply VAL; destruct Hs as [-> | ->]; lia. }
  exists U, M, lines, lines'. split; [exact EU|]. split; [exact EM|]. split; [exact E1|]. split; [lia|]. split; [exact E1'|]. split; [lia|]. intros Q HQ sl.
  set (R2 := fun k => if k <? nap then rand k else rand' k).
  assert (Hsl : forall x y, 0 <= x < y -> y < 2 * Ns -> sl (Idx U x y) = Cplus (c (Idx U x y)) (RtoC (offset R2 eps (Idx U x y)))).
  { intros x y Hx Hy. unfold sl. rewrite !read_lines_is. rewrite E2, E2'. destruct (HA x y Hx Hy) as (_ & Hk & _).
    assert (K : (x < Ns <= y) \/ exists i j s, 0 <= i < j /\ j < Ns /\ (s = 0 \/ s = 1) /\ x = i + s * Ns /\ y = j + s * Ns).
    { destruct (Z_lt_ge_dec y Ns); [right; exists x, y, 0; lia|]. destruct (Z_lt_ge_dec x Ns); [left; lia|right; exists (x - Ns), (y - Ns), 1; lia]. }
    destruct K as [K|(i & j & s & Hi & Hj & Hs & -> & ->)].
    - pose proof (Hcl x (y - Ns) ltac:(unfold site; lia) ltac:(unfold site; lia)) as H. replace (y - Ns + Ns) with y in H by lia.
      pose proof (ap_in Ns F x (y - Ns) ltac:(unfold site; lia) ltac:(unfold site; lia)) as I. replace (y - Ns + Ns) with y in I by lia.
      destruct (Z.leb_spec nap (Idx U x y)); [lia|]. cbn [andb]. destruct (Z.leb_spec 0 (Idx U x y)); [|lia]. destruct (Z.ltb_spec (Idx U x y) (0 + Z.max 0 (nap - 0))); [|lia]. cbn [andb].
      rewrite (E3 x y _ I) by lia. unfold value, offset, R2. destruct (Z.ltb_spec (Idx U x y) nap); [reflexivity|lia].
    - pose proof (Hcp i j s Hi Hj Hs) as H. set (k := Idx U (i + s * Ns) (j + s * Ns)) in *.
      destruct (Z.leb_spec nap k); [|lia]. destruct (Z.ltb_spec k (nap + Z.max 0 (nap + 2 * np - nap))); [|lia]. cbn [andb].
      pose proof (E3' _ _ _ (p_in Ns F i j s Hi Hj Hs) ltac:(fold k; lia)) as E. fold k in E. rewrite E. unfold value, offset, R2. destruct (Z.ltb_spec k nap); [lia|reflexivity]. }
  split.
  - intros HR HR' x y Hx Hy. refine (element_near S Q flag l (nap + 2 * np) U M F c R2 eps sl HN HA HS (pair_general_anti _ _ _) HC HQ Hsl x y _ Hx Hy).
    intros k. unfold R2. destruct (k <? nap); auto.
  - intros HR HR' x Hx. rewrite (pfaffian_exact S Q flag l (nap + 2 * np) U M F c R2 eps sl HN HA HS (pair_general_anti _ _ _) HC HQ Hsl (pairs_of (Ne S) (fun n i => Cconj (Rs i n))) x ltac:(intros k; unfold R2; destruct (k <? nap); auto) (pairs_length _ _ HE) ltac:(intros; apply pair_general_geminal) Hx).
    now rewrite both_pairs.
Qed.

(** ** anti-parallel orbitals only *)
Definition spin_pairs (Ns Ne : Z) (u d : Z -> Z -> C) := map (fun n => (spin_up Ns (u n), spin_down Ns (d n))) (zrange 0 Ne).
Lemma doubly_pairs Ns Ne u d : both (spin_pairs Ns Ne u d) = doubly Ns Ne u d.
Proof. unfold both, spin_pairs, doubly. rewrite flat_map_concat_map, map_map, <- flat_map_concat_map. reflexivity. Qed.
Definition product_pair (Ne : Z) (u d : Z -> Z -> C) (i j : Z) : C := csum (zrange 0 Ne) (fun n => Cmult (u n i) (d n j)).
Lemma spin_geminal Ns Ne u d x y : geminal (spin_pairs Ns Ne u d) x y =
  if x <? Ns then (if y <? Ns then RtoC 0 else product_pair Ne u d x (y - Ns)) else (if y <? Ns then Copp (product_pair Ne u d y (x - Ns)) else RtoC 0).
Proof.
  unfold geminal, spin_pairs, product_pair. rewrite csum_mapped. cbn [fst snd]. unfold spin_up, spin_down. destruct (x <? Ns), (y <? Ns).
  - transitivity (csum (zrange 0 Ne) (fun _ => RtoC 0)); [apply csum_ext; intros; ring|now apply csum_zero].
  - apply csum_ext; intros; ring.
  - rewrite <- csum_opp. apply csum_ext; intros; ring.
  - transitivity (csum (zrange 0 Ne) (fun _ => RtoC 0)); [apply csum_ext; intros; ring|now apply csum_zero].
Qed.
Lemma in_ap2 Ns F x y v : In (x, y, v) (cells_ap2 Ns F) -> exists i j, site Ns i /\ site Ns j /\ x = i /\ y = j + Ns /\ v = F i j.
Proof.
  unfold cells_ap2. intros I. apply in_flat_map in I. destruct I as (i & Hi & I). apply in_map_iff in I. destruct I as (j & Q & Hj). apply zrange_in in Hi, Hj. rewrite Z.mul_0_l, Z.mul_1_l, Z.add_0_r in Q. injection Q as <- <- <-.
  exists i, j. unfold site. repeat split; lia.
Qed.
Lemma ap2_in Ns F i j : site Ns i -> site Ns j -> In (i, j + Ns, F i j) (cells_ap2 Ns F).
Proof.
  intros Hi Hj. unfold cells_ap2. apply in_flat_map. exists i. split; [now apply zrange_in|]. apply in_map_iff. exists j. split; [|now apply zrange_in].
  now rewrite Z.mul_0_l, Z.mul_1_l, Z.add_0_r.
Qed.
Lemma final_ap S flag rows n rand eps c (u d : Z -> Z -> C) start beta : 0 < Nsite S -> 0 < Ne S -> 0 <= n -> NSPGaussLeg S = 1 ->
  ap_file (Nsite S) n rows -> signs_ok flag (map (ap_entry (Nsite S)) rows) ->
  let f := product_pair (Ne S) u d in adapted (fun x y => f x (y - Nsite S)) c (map (ap_entry (Nsite S)) rows) ->
  exists U M lines, uhf_ap (Nsite S) rows = Some U /\ main_ap (Nsite S) flag rows = Some M /\
    output_antiparallel_2 n U rand eps (Nsite S) n f = Some lines /\ Z.of_nat (length lines) = n /\
    forall Q, unprojected S Q M -> let sl := fun k => value (read_lines lines 0 start k) in
      (unit_interval rand -> forall i j, site (Nsite S) i -> site (Nsite S) j -> (Cmod (Cminus (pair Q sl 0 0 i j) (f i j)) <= powerRZ 10 (- eps))%R) /\
      ((forall k, rand k = 0%R) -> forall eleIdx, (forall k, 0 <= k < 2 * Ne S -> site (Nsite S) (eleIdx k)) ->
        pfaffian S Q beta sl eleIdx 0 0 0 = determinant (doubly (Nsite S) (Ne S) u d) (map (Pf.Spec.orbital (Nsite S) (Ne S) eleIdx) (zrange 0 (2 * Ne S)))).
Proof.
  intros HN HE Hn HG HF HS f HC. set (Ns := Nsite S) in *. set (l := map (ap_entry Ns) rows) in *.
  destruct (ap_tables Ns n flag rows HF HS) as (U & M & EU & EM & HA). fold l in HA.
  assert (HL : legal_cells n U (cells_ap2 Ns f)).
  { intros ((x, y), v) I. destruct (in_ap2 _ _ _ _ _ I) as (i & j & Hi & Hj & -> & -> & _). right. cbn [fst snd]. destruct (HA i j Hi Hj) as (_ & H & _). exact H. }
  destruct (lines_ok n U rand eps 0 n (cells_ap2 Ns f) c HL ltac:(lia)) as (lines & E1 & E2 & E3).
  { intros x y v I Hk. destruct (in_ap2 _ _ _ _ _ I) as (i & j & Hi & Hj & -> & -> & ->). destruct (HA i j Hi Hj) as ((s & J & Es) & _).
    rewrite Es. pose proof (HC _ _ _ _ J) as E. cbv beta in E. replace (j + Ns - Ns) with j in E by lia. rewrite E. apply undo. exact (sign_sq flag l _ HS J). }
  exists U, M, lines. split; [exact EU|]. split; [exact EM|]. split; [exact E1|]. split; [lia|]. intros Q HQ sl.
  assert (PR : forall i j, site Ns i -> site Ns j -> exists s, (s = 1 \/ s = -1) /\ pair Q sl 0 0 i j = Cplus (f i j) (RtoC (IZR s * offset rand eps (Idx U i (j + Ns))))).
  { intros i j Hi Hj. destruct (HA i j Hi Hj) as ((s & J & Es) & Hk & Ei & Eg). destruct HQ as (H & Q1 & Q2). unfold pair.
    destruct (H i Hi) as (-> & ->). destruct (H j Hj) as (-> & ->). rewrite Q1, Q2, Ei, Eg, !Z.mul_1_l, Es.
    exists (sign_value s). split; [exact (sign_abs flag l _ HS J)|]. unfold sl. rewrite read_lines_is, E2.
    destruct (Z.leb_spec 0 (Idx U i (j + Ns))); [|lia]. destruct (Z.ltb_spec (Idx U i (j + Ns)) (0 + Z.max 0 (n - 0))); [|lia]. cbn [andb].
    rewrite (E3 i (j + Ns) (f i j)); [|now apply ap2_in|lia]. cbn [value]. pose proof (HC _ _ _ _ J) as E. cbv beta in E. replace (j + Ns - Ns) with j in E by lia. rewrite E, RtoC_mult. ring. }
  split.
  - intros HR i j Hi Hj. destruct (PR i j Hi Hj) as (s & Hs & ->). set (k := Idx U i (j + Ns)).
    replace (Cminus (Cplus (f i j) (RtoC (IZR s * offset rand eps k))) (f i j)) with (RtoC (IZR s * offset rand eps k)) by ring. rewrite Cmod_R. unfold offset. specialize (HR k).
    assert (P10 : (0 < powerRZ 10 (- eps))%R) by (apply powerRZ_lt; lra).
    assert (0 <= rand k * powerRZ 10 (- eps) <= powerRZ 10 (- eps))%R by (split; [apply Rmult_le_pos; lra|]; rewrite <- (Rmult_1_l (powerRZ 10 (- eps))) at 2; apply Rmult_le_compat_r; lra).
    destruct Hs as [-> | ->]; unfold Rabs; destruct (Rcase_abs _); lra.
  - intros HR eleIdx Hele. unfold pfaffian. fold Ns. set (ps := spin_pairs Ns (Ne S) u d). set (x := Pf.Spec.orbital Ns (Ne S) eleIdx).
    assert (LZ : length (zrange 0 (2 * Ne S)) = (2 * length ps)%nat) by (unfold ps, spin_pairs; rewrite map_length, !zrange_length; lia).
    rewrite <- doubly_pairs. fold ps. rewrite (pf_ext _ (fun i j => geminal ps (x i) (x j)) (length (zrange 0 (2 * Ne S)))); [|lia|].
    + rewrite <- (pf_map (geminal ps) x (length (zrange 0 (2 * Ne S)))) by lia. apply pf_geminal. rewrite map_length. lia.
    + assert (XP : forall i, In i (zrange 0 (2 * Ne S)) -> site Ns (x i mod Ns) /\ ((x i < Ns /\ x i mod Ns = x i /\ x i / Ns = 0) \/ (Ns <= x i /\ x i mod Ns = x i - Ns /\ x i / Ns = 1))).
      { intros i Hi. apply zrange_in in Hi. pose proof (Hele i Hi) as Hs. unfold site in *. unfold x, Pf.Spec.orbital.
        assert (i / Ne S = 0 \/ i / Ne S = 1) as [-> | ->].
        { destruct (Z_lt_ge_dec i (Ne S)); [left; apply Z.div_small; lia|right; symmetry; apply (Z.div_unique i (Ne S) 1 (i - Ne S)); lia]. }
        - rewrite Z.mul_0_l, Z.add_0_r, Z.mod_small, Z.div_small by lia. lia.
        - rewrite Z.mul_1_l. replace ((eleIdx i + Ns) mod Ns) with (eleIdx i) by (apply (Z.mod_unique _ _ 1); lia). replace ((eleIdx i + Ns) / Ns) with 1 by (apply (Z.div_unique _ _ 1 (eleIdx i)); lia). lia. }
      intros i j Hi Hj. unfold ps. rewrite spin_geminal. unfold half. rewrite HG, Z.eqb_refl. fold (Pf.Spec.orbital Ns (Ne S) eleIdx i). fold (Pf.Spec.orbital Ns (Ne S) eleIdx j). fold x.
      assert (PE : forall a b, site Ns a -> site Ns b -> pair Q sl 0 0 a b = f a b).
      { intros a b Ha Hb. destruct (PR a b Ha Hb) as (s & _ & ->). unfold offset. rewrite HR, Rmult_0_l, Rmult_0_r. ring. }
      destruct (XP i Hi) as (Si & [(L1 & M1 & D1)|(L1 & M1 & D1)]), (XP j Hj) as (Sj & [(L2 & M2 & D2)|(L2 & M2 & D2)]);
        unfold element; rewrite !PE by assumption; rewrite D1, D2; unfold up, down; cbn [Z.eqb Pos.eqb]; rewrite cos_0, sin_0;
        first [rewrite (proj2 (Z.ltb_lt (x i) Ns) L1)|rewrite (proj2 (Z.ltb_ge (x i) Ns) L1)]; first [rewrite (proj2 (Z.ltb_lt (x j) Ns) L2)|rewrite (proj2 (Z.ltb_ge (x j) Ns) L2)];
        rewrite M1, M2; fold f; rewrite !RtoC_mult, ?RtoC_opp; ring.
Qed.

(** ** the orbitals of a pass, and of the two blocks *)
Lemma zheevall_eigen n zheev A : 0 <= n -> diagonalises n zheev -> hermitian n A -> eigenorbitals n A (fst (zheevall zheev n A)) (snd (zheevall zheev n A)).
Proof.
  intros Hn HZ HA. unfold zheevall. set (a := loop 0 n _ _). pose proof (HZ a) as Q. cbv zeta in Q. destruct (zheev n a) as (w, vec) eqn:Ez. cbn [fst snd] in *.
  destruct Q as (Q1 & Q2 & Q3). split; [|split; [exact Q2|exact Q3]].
  intros k i Hk Hi. rewrite <- (Q1 k i Hk Hi). apply csum_ext. intros j Hj. apply zrange_in in Hj. f_equal.
  rewrite <- (from_upper_same n A i j HA Hi Hj). unfold upper_part, from_upper. unfold a. rewrite !copied by assumption. reflexivity.
Qed.
Lemma pair_antiparallel_is Ns Ne zheev Ham : pair_antiparallel Ns Ne zheev Ham =
  product_pair Ne (snd (zheevall zheev Ns (fun i j => Ham i j))) (snd (zheevall zheev Ns (fun i j => Ham (i + Ns) (j + Ns)))).
Proof.
  apply functional_extensionality; intros i. apply functional_extensionality; intros j. unfold pair_antiparallel, product_pair.
  rewrite (loop_csum (fun n => Cmult (snd (zheevall zheev Ns (fun i j => Ham i j)) n i) (snd (zheevall zheev Ns (fun i j => Ham (i + Ns) (j + Ns))) n j))). now rewrite Cplus_0_l.
Qed.
Lemma block_hermitian Ns Ham : 0 <= Ns -> hermitian (2 * Ns) Ham -> hermitian Ns (fun i j => Ham i j) /\ hermitian Ns (fun i j => Ham (i + Ns) (j + Ns)).
Proof. intros HN H. split; intros i j Hi Hj; apply H; lia. Qed.
Lemma final_ap_whole S flag rows n rand eps c Ham zheev start beta : 0 < Nsite S -> 0 < Ne S -> 0 <= n -> NSPGaussLeg S = 1 ->
  diagonalises (Nsite S) zheev -> hermitian (2 * Nsite S) Ham ->
  ap_file (Nsite S) n rows -> signs_ok flag (map (ap_entry (Nsite S)) rows) ->
  let f := pair_antiparallel (Nsite S) (Ne S) zheev Ham in adapted (fun x y => f x (y - Nsite S)) c (map (ap_entry (Nsite S)) rows) ->
  exists u d eu ed, eigenorbitals (Nsite S) (fun i j => Ham i j) eu u /\ eigenorbitals (Nsite S) (fun i j => Ham (i + Nsite S) (j + Nsite S)) ed d /\
  exists U M lines, uhf_ap (Nsite S) rows = Some U /\ main_ap (Nsite S) flag rows = Some M /\
    output_antiparallel_2 n U rand eps (Nsite S) n f = Some lines /\ Z.of_nat (length lines) = n /\
    forall Q, unprojected S Q M -> let sl := fun k => value (read_lines lines 0 start k) in
      (unit_interval rand -> forall i j, site (Nsite S) i -> site (Nsite S) j -> (Cmod (Cminus (pair Q sl 0 0 i j) (f i j)) <= powerRZ 10 (- eps))%R) /\
      ((forall k, rand k = 0%R) -> forall eleIdx, (forall k, 0 <= k < 2 * Ne S -> site (Nsite S) (eleIdx k)) ->
        pfaffian S Q beta sl eleIdx 0 0 0 = determinant (doubly (Nsite S) (Ne S) u d) (map (Pf.Spec.orbital (Nsite S) (Ne S) eleIdx) (zrange 0 (2 * Ne S)))).
Proof.
  intros HN HE Hn HG HZ HH HF HS f HC. destruct (block_hermitian (Nsite S) Ham ltac:(lia) HH) as (H1 & H2).
  eexists _, _, _, _. split; [exact (zheevall_eigen (Nsite S) zheev _ ltac:(lia) HZ H1)|]. split; [exact (zheevall_eigen (Nsite S) zheev _ ltac:(lia) HZ H2)|].
  unfold f in *. rewrite pair_antiparallel_is in *. exact (final_ap S flag rows n rand eps c _ _ start beta HN HE Hn HG HF HS HC).
Qed.
Lemma final_pass V H Ne zheev mix G : 0 < sites V -> sites_ok V H -> two_sites H -> files_hermitian (sites V) H -> diagonalises (2 * sites V) zheev -> 0 <= Ne <= sites V -> hermitian (2 * sites V) G ->
  let p := step (sites V) H (2 * Ne) zheev mix G in let v := fun k i => Cconj (pR p i k) in
  eigenorbitals (2 * sites V) (makeham (sites V) H G) (pEigen p) v /\
  (forall i j, pGreen p i j = csum (zrange 0 (2 * Ne)) (fun k => Cmult (Cconj (v k i)) (v k j))) /\
  (forall l, Z.of_nat (length l) = 2 * Ne -> pf (pair_general Ne (pR p)) l = determinant (map v (zrange 0 (2 * Ne))) l) /\
  (forall l, 2 * Ne < Z.of_nat (length l) -> pf (pair_general Ne (pR p)) l = RtoC 0).
Proof.
  intros HN HS HT HF HZ HM HG p v.
  assert (HA : hermitian (2 * sites V) (makeham (sites V) H G)) by (now apply final_hermitian).
  split; [|split; [|split]].
  - pose proof (zheevall_eigen (2 * sites V) zheev (makeham (sites V) H G) ltac:(lia) HZ HA) as (Q1 & Q2 & Q3). unfold v, p, step, diag.
    destruct (zheevall zheev (2 * sites V) (makeham (sites V) H G)) as (w, vec). cbn [fst snd pR pEigen] in *.
    assert (E : (fun k i : Z => Cconj (Cconj (vec k i))) = vec) by (apply functional_extensionality; intros k; apply functional_extensionality; intros i; apply Cconj_conj).
    rewrite E. repeat split; assumption.
  - intros i j. unfold v, p, step, diag. destruct (zheevall zheev (2 * sites V) (makeham (sites V) H G)) as (w, vec). cbn [pR pGreen]. unfold green. apply csum_ext. intros k _. now rewrite !Cconj_conj.
  - intros l Hl. apply determinant_general; lia.
  - intros l Hl. rewrite determinant_general by lia. apply determinant_length. rewrite map_length, zrange_length. lia.
Qed.
Lemma final_gap V H Nsize zheev mix G : diagonalises (2 * sites V) zheev -> 1 <= Nsize < 2 * sites V ->
  let p := step (sites V) H Nsize zheev mix G in
  exists g, output_gap (sites V) Nsize (pEigen p) = Some g /\ (0 <= g)%R /\ g = (pEigen p Nsize - pEigen p (Nsize - 1))%R.
Proof.
  intros HZ HM p. exists (pEigen p Nsize - pEigen p (Nsize - 1))%R. split; [|split; [|reflexivity]].
  - unfold output_gap, read_eigen. destruct (Z.leb_spec 0 (Nsize - 1)); [|lia]. destruct (Z.ltb_spec (Nsize - 1) (2 * sites V)); [|lia]. destruct (Z.leb_spec 0 Nsize); [|lia]. destruct (Z.ltb_spec Nsize (2 * sites V)); [|lia]. reflexivity.
  - destruct (step_orbitals V H Nsize zheev HZ mix G) as (_ & _ & _ & Q3). pose proof (Q3 (Nsize - 1) Nsize ltac:(lia) ltac:(lia)). fold p in H0. lra.
Qed.
