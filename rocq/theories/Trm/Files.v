From Coq Require Import ZArith List Bool Reals Lia Lra.
From Coquelicot Require Import Complex.
From Verif Require Import Base.ZLoop Base.Checked Pf.Spec Slater.Model Green.Spec Ham.Model Ham.Spec Trm.Model Trm.Spec Trm.Proofs.
Import ListNotations.
Local Open Scope Z_scope.

(** row k of the table is row k of the file *)
Definition holds {A} (n : Z) (v : row -> A) (i : Z) (r : row) (t : table A) : Prop := (forall c, 0 <= c < n -> fst t i c = z r (Z.to_nat c)) /\ snd t i = v r.
Definition table_is {A} (n : Z) (v : row -> A) (rows : list row) (t : table A) : Prop := forall k r, nth_error rows k = Some r -> holds n v (Z.of_nat k) r t.
Definition pair_holds (i : Z) (r : row) (t : table R) : Prop :=
  fst t (2 * i) 0 = z r 0 /\ fst t (2 * i) 1 = z r 1 /\ snd t (2 * i) = x r 0 /\ fst t (2 * i + 1) 0 = z r 1 /\ fst t (2 * i + 1) 1 = z r 0 /\ snd t (2 * i + 1) = x r 0.
Definition pairs_are (rows : list row) (t : table R) : Prop := forall k r, nth_error rows k = Some r -> pair_holds (Z.of_nat k) r t.
Definition result {A} (v : verdict) (t : table A) : outcome (table A) := match v with Accept => Done t | Reject => Refused | Overrun => Outside end.

Lemma inb_ltb K idx : 0 <= idx -> inb K idx = (idx <? K).
Proof. intros H. unfold inb. destruct (Z.leb_spec 0 idx); [reflexivity|lia]. Qed.
Lemma check_is i n : check_site i n = in_range n i.
Proof. unfold check_site, in_range. destruct (Z.leb_spec n i), (Z.ltb_spec i 0), (Z.leb_spec 0 i), (Z.ltb_spec i n); try lia; reflexivity. Qed.
Lemma set_row_at {A} k xs (t : table A) i c : fst (set_row k xs t) i c = if (i =? k) && inb (Z.of_nat (length xs)) c then nth (Z.to_nat c) xs 0 else fst t i c.
Proof. reflexivity. Qed.
Lemma set_keep {A} (n : Z) v i j r xs (w : A) t : i <> j -> holds n v i r t -> holds n v i r (set_val j w (set_row j xs t)).
Proof.
  intros D (H1 & H2). split.
  - intros c Hc. cbn [set_val fst]. rewrite set_row_at. destruct (Z.eqb_spec i j); [lia|]. now apply H1.
  - cbn [set_val snd set_row]. rewrite upd_other by lia. exact H2.
Qed.
Lemma set_put {A} (n : nat) v i r xs (w : A) t : length xs = n -> (forall c, (c < n)%nat -> nth c xs 0 = z r c) -> w = v r -> holds (Z.of_nat n) v i r (set_val i w (set_row i xs t)).
Proof.
  intros Hl Hx ->. split; [|cbn [set_val snd]; apply upd_same].
  intros c Hc. cbn [set_val fst]. rewrite set_row_at, Z.eqb_refl, Hl. unfold inb. destruct (Z.leb_spec 0 c); [|lia]. destruct (Z.ltb_spec c (Z.of_nat n)); [|lia]. cbn [andb]. apply Hx. lia.
Qed.

Definition v_re (r : row) : R := x r 0.
Definition v_c (r : row) : C := (x r 0, x r 1).
Ltac cells := intros c Hc; unfold z; repeat (destruct c as [|c]; [reflexivity|]); lia.

(** ** the main program *)
Section Main.
Variables (Nsite K : Z) (rows : list row).
Lemma transfer_file lines t : complete 4 2 lines rows -> 0 < K -> exists t', get_transfer_info Nsite K lines t = result (judged K (good_trans Nsite) rows) t' /\ table_is 4 v_c rows t'.
Proof.
  intros HC HK. unfold get_transfer_info. destruct (Z.eqb_spec K 0); [lia|]. rewrite (main_rows_run _ _ 4 2 lines rows HC) by reflexivity.
  set (put := fun idx (r : row) (t : table C) => set_val idx (v_c r) (set_row idx [z r 0; z r 1; z r 2; z r 3] t)).
  rewrite (run_judged _ _ K (good_trans Nsite) put); [|intros idx r t0 Hi; rewrite (inb_ltb K idx Hi)|intros; reflexivity|lia].
  - rewrite Z.sub_0_r. exists (puts put rows 0 t). split; [reflexivity|]. intros k r E. change (Z.of_nat k) with (0 + Z.of_nat k).
    apply (puts_holds put (holds 4 v_c)) with (wf := fun _ => True); [|intros; now apply set_keep|exact E|exact I]. intros. apply (set_put 4); [reflexivity|cells|reflexivity].
  - unfold check_pair_site. rewrite !check_is. unfold good_trans, ok_sites. cbn [forallb]. rewrite andb_true_r. reflexivity.
Qed.
Lemma intra_file lines t : complete 1 1 lines rows -> 0 < K -> exists t', get_info_coulomb_intra Nsite K lines t = result (judged K (good_one Nsite) rows) t' /\ table_is 1 v_re rows t'.
Proof.
  intros HC HK. unfold get_info_coulomb_intra. destruct (Z.eqb_spec K 0); [lia|]. rewrite (main_rows_run _ _ 1 1 lines rows HC) by reflexivity.
  set (put := fun idx (r : row) (t : table R) => set_val idx (v_re r) (set_row idx [z r 0] t)).
  rewrite (run_judged _ _ K (good_one Nsite) put); [|intros idx r t0 Hi; rewrite (inb_ltb K idx Hi)|intros; reflexivity|lia].
  - rewrite Z.sub_0_r. exists (puts put rows 0 t). split; [reflexivity|]. intros k r E. change (Z.of_nat k) with (0 + Z.of_nat k).
    apply (puts_holds put (holds 1 v_re)) with (wf := fun _ => True); [|intros; now apply set_keep|exact E|exact I]. intros. apply (set_put 1); [reflexivity|cells|reflexivity].
  - rewrite !check_is. unfold good_one, ok_sites. cbn [forallb]. rewrite andb_true_r. reflexivity.
Qed.
Lemma pair_file lines t : complete 2 1 lines rows -> 0 < K -> exists t', read_pair_d_value Nsite K lines t = result (judged K (good_two Nsite) rows) t' /\ table_is 2 v_re rows t'.
Proof.
  intros HC HK. unfold read_pair_d_value. destruct (Z.eqb_spec K 0); [lia|]. rewrite (main_rows_run _ _ 2 1 lines rows HC) by reflexivity.
  set (put := fun idx (r : row) (t : table R) => set_val idx (v_re r) (set_row idx [z r 0; z r 1] t)).
  rewrite (run_judged _ _ K (good_two Nsite) put); [|intros idx r t0 Hi; rewrite (inb_ltb K idx Hi)|intros; reflexivity|lia].
  - rewrite Z.sub_0_r. exists (puts put rows 0 t). split; [reflexivity|]. intros k r E. change (Z.of_nat k) with (0 + Z.of_nat k).
    apply (puts_holds put (holds 2 v_re)) with (wf := fun _ => True); [|intros; now apply set_keep|exact E|exact I]. intros. apply (set_put 2); [reflexivity|cells|reflexivity].
  - unfold check_pair_site. rewrite !check_is. unfold good_two, ok_sites. cbn [forallb]. rewrite andb_true_r. reflexivity.
Qed.
Lemma all_file TwoSz lines t : complete 8 2 lines rows -> 0 < K -> exists t', get_info_inter_all TwoSz Nsite K lines t = result (judged K (good_all TwoSz Nsite) rows) t' /\ table_is 8 v_c rows t'.
Proof.
  intros HC HK. unfold get_info_inter_all. destruct (Z.eqb_spec K 0); [lia|]. rewrite (main_rows_run _ _ 8 2 lines rows HC) by reflexivity.
  set (put := fun idx (r : row) (t : table C) => set_val idx (v_c r) (set_row idx [z r 0; z r 1; z r 2; z r 3; z r 4; z r 5; z r 6; z r 7] t)).
  rewrite (run_judged _ _ K (good_all TwoSz Nsite) put); [|intros idx r t0 Hi; rewrite (inb_ltb K idx Hi)|intros; reflexivity|lia].
  - rewrite Z.sub_0_r. exists (puts put rows 0 t). split; [reflexivity|]. intros k r E. change (Z.of_nat k) with (0 + Z.of_nat k).
    apply (puts_holds put (holds 8 v_c)) with (wf := fun _ => True); [|intros; now apply set_keep|exact E|exact I]. intros. apply (set_put 8); [reflexivity|cells|reflexivity].
  - unfold check_quad_site, check_pair_site. rewrite !check_is. unfold good_all, ok_sites, at_. fold (z r 0) (z r 1) (z r 2) (z r 3) (z r 4) (z r 5) (z r 6) (z r 7). cbn [forallb].
    destruct (idx <? K); [|reflexivity]. destruct (in_range Nsite (z r 0)), (in_range Nsite (z r 2)), (in_range Nsite (z r 4)), (in_range Nsite (z r 6)); cbn [andb]; try reflexivity.
    destruct (TwoSz =? -1), ((z r 1 =? z r 3) && (z r 5 =? z r 7)); reflexivity.
Qed.
Lemma two_body_file lines t : complete 8 0 lines rows -> 0 < K -> exists t', get_info_two_body_g Nsite K lines t = result (judged K (ok_sites Nsite [0; 2; 4; 6]%nat) rows) t' /\ table_is 8 (fun _ => tt) rows t'.
Proof.
  intros HC HK. unfold get_info_two_body_g. destruct (Z.eqb_spec K 0); [lia|]. rewrite (main_rows_run _ _ 8 0 lines rows HC) by reflexivity.
  set (put := fun idx (r : row) (t : table unit) => set_row idx [z r 0; z r 1; z r 2; z r 3; z r 4; z r 5; z r 6; z r 7] t).
  rewrite (run_judged _ _ K (ok_sites Nsite [0; 2; 4; 6]%nat) put); [|intros idx r t0 Hi; rewrite (inb_ltb K idx Hi)|intros; reflexivity|lia].
  - rewrite Z.sub_0_r. exists (puts put rows 0 t). split; [reflexivity|]. intros k r E. change (Z.of_nat k) with (0 + Z.of_nat k).
    apply (puts_holds put (holds 8 (fun _ => tt))) with (wf := fun _ => True); [| |exact E|exact I].
    + intros idx r0 t0 _. split; [|now destruct (snd _ _)]. refine (proj1 (set_put (A := unit) 8 (fun _ => tt) idx r0 _ tt t0 _ _ _)); [reflexivity|cells|reflexivity].
    + intros i j r0 r' t0 D H. split; [|now destruct (snd _ _)]. exact (proj1 (set_keep 8 (fun _ => tt) i j r0 _ tt t0 D H)).
  - unfold check_quad_site, check_pair_site. rewrite !check_is. unfold ok_sites. cbn [forallb]. rewrite andb_true_r, !andb_assoc. reflexivity.
Qed.
Lemma hop_file lines t : complete 2 1 lines rows -> 0 < K -> exists t', read_pair_hop_value Nsite (2 * K) lines t = result (judged K (good_two Nsite) rows) t' /\ pairs_are rows t'.
Proof.
  intros HC HK. unfold read_pair_hop_value. destruct (Z.eqb_spec (2 * K) 0); [lia|]. rewrite (main_rows_run _ _ 2 1 lines rows HC) by reflexivity.
  set (put := fun idx (r : row) (t : table R) => set_val (2 * idx + 1) (x r 0) (set_row (2 * idx + 1) [z r 1; z r 0] (set_val (2 * idx) (x r 0) (set_row (2 * idx) [z r 0; z r 1] t)))).
  rewrite (run_judged _ _ K (good_two Nsite) put); [|intros idx r t0 Hi; rewrite !inb_ltb by lia|intros idx Hi; destruct (Z.eqb_spec (2 * idx) (2 * K)), (Z.eqb_spec idx K); lia|lia].
  - rewrite Z.sub_0_r. exists (puts put rows 0 t). split; [reflexivity|]. intros k r E. change (Z.of_nat k) with (0 + Z.of_nat k).
    apply (puts_holds put pair_holds) with (wf := fun _ => True); [| |exact E|exact I].
    + intros idx r0 t0 _. unfold put, pair_holds, set_val, set_row. cbn [fst snd length Z.of_nat]. rewrite !Z.eqb_refl.
      destruct (Z.eqb_spec (2 * idx) (2 * idx + 1)); [lia|]. cbn [andb]. rewrite !upd_same, upd_other, upd_same by lia. repeat split; reflexivity.
    + intros i j r0 r' t0 D (H1 & H2 & H3 & H4 & H5 & H6). unfold put, pair_holds, set_val, set_row. cbn [fst snd].
      destruct (Z.eqb_spec (2 * i) (2 * j + 1)); [lia|]. destruct (Z.eqb_spec (2 * i + 1) (2 * j + 1)); [lia|]. destruct (Z.eqb_spec (2 * i) (2 * j)); [lia|]. destruct (Z.eqb_spec (2 * i + 1) (2 * j)); [lia|].
      cbn [andb]. rewrite !upd_other by lia. repeat split; assumption.
  - replace (2 * idx <? 2 * K) with (idx <? K) by (destruct (Z.ltb_spec idx K), (Z.ltb_spec (2 * idx) (2 * K)); lia).
    replace (2 * idx + 1 <? 2 * K) with (idx <? K) by (destruct (Z.ltb_spec idx K), (Z.ltb_spec (2 * idx + 1) (2 * K)); lia).
    unfold check_pair_site. rewrite !check_is. unfold good_two, ok_sites. cbn [forallb]. rewrite andb_true_r. unfold at_. fold (z r 0) (z r 1).
    destruct (idx <? K); [|reflexivity]. destruct (in_range Nsite (z r 0) && in_range Nsite (z r 1)); reflexivity.
Qed.
End Main.

(** ** the Hartree-Fock program *)
Section Uhf.
Variables (K : Z) (rows : list row).
Definition any (r : row) : bool := true.
Lemma uhf_transfer_file lines re t : complete 4 2 lines rows -> 0 < K -> exists t', uhf_transfer K lines re t = result (judged K any rows) t' /\ table_is 4 v_c rows t'.
Proof.
  intros HC HK. unfold uhf_transfer. destruct (Z.ltb_spec 0 K); [|lia].
  set (put := fun idx (r : row) (t : table C) => set_val idx (v_c r) (set_row idx (fst r) t)).
  set (step := fun idx (xs : list Z) (ds : list R) (t : table C) => if idx <? K then Done (put idx (xs, ds) t) else Outside).
  assert (E : forall lines rows, complete 4 2 lines rows -> forall idx re t, 0 <= idx -> uhf_transfer_rows K lines idx re t = run step (fun idx => idx =? K) rows idx t).
  { clear. intros lines rows HC. induction HC as [|l r lines rows Hl HC IH]; intros idx re t Hi; [reflexivity|]. cbn [uhf_transfer_rows run]. rewrite (inb_ltb K idx Hi). unfold step at 1. destruct (idx <? K); [|reflexivity].
    rewrite (convert_line_end 4 2 l r Hl). destruct Hl as (H1 & H2 & _). rewrite over_same by exact H2. rewrite IH by lia. reflexivity. }
  rewrite (E lines rows HC) by lia. rewrite (run_judged _ _ K any put); [|intros idx (xs, ds) t0 Hi; reflexivity|intros; reflexivity|lia].
  rewrite Z.sub_0_r. exists (puts put rows 0 t). split; [reflexivity|]. intros k r Er. change (Z.of_nat k) with (0 + Z.of_nat k).
  apply (puts_holds put (holds 4 v_c)) with (wf := fun r => length (fst r) = 4%nat); [|intros; now apply set_keep|exact Er|].
  - intros. apply (set_put 4); [assumption|reflexivity|reflexivity].
  - clear - HC Er. revert k Er. induction HC as [|l r0 lines rows (Hl & _) HC IH]; intros k Er; destruct k as [|k]; cbn in Er; try discriminate; [now inversion Er; subst|exact (IH k Er)].
Qed.
Lemma wf_rows n m lines k r : complete n m lines rows -> nth_error rows k = Some r -> length (fst r) = n /\ length (snd r) = m.
Proof.
  intros HC. revert k. induction HC as [|l r0 lines rs (Hl & Hl2 & _) HC IH]; intros k Er; destruct k as [|k]; cbn in Er; try discriminate; [now inversion Er; subst|exact (IH k Er)].
Qed.
Definition put_direct (idx : Z) (r : row) (t : table R) : table R := let t := set_row idx (fst r) t in match snd r with [] => t | v :: _ => set_val idx v t end.
Lemma direct_holds n i r t : length (fst r) = n /\ length (snd r) = 1%nat -> holds (Z.of_nat n) v_re i r (put_direct i r t).
Proof. intros (H1 & H2). unfold put_direct. destruct r as (xs, [|v [|? ?]]); cbn in *; try discriminate. apply set_put; [assumption|reflexivity|reflexivity]. Qed.
Lemma direct_keep n i j r r' t : i <> j -> holds n v_re i r t -> holds n v_re i r (put_direct j r' t).
Proof.
  intros D H. unfold put_direct. destruct (snd r') as [|v l]; [|now apply set_keep]. split; [|exact (proj2 H)]. exact (proj1 (set_keep n v_re i j r (fst r') 0%R t D H)).
Qed.
Lemma uhf_lines_file n lines t : complete n 1 lines rows -> 0 < K -> exists t', uhf_lines n K lines t = result (judged K any rows) t' /\ table_is (Z.of_nat n) v_re rows t'.
Proof.
  intros HC HK. unfold uhf_lines. destruct (Z.ltb_spec 0 K); [|lia].
  set (step := fun idx (xs : list Z) (ds : list R) (t : table R) => if idx <? K then Done (put_direct idx (xs, ds) t) else Outside).
  assert (E : forall lines rows, complete n 1 lines rows -> forall idx t, 0 <= idx -> uhf_line_rows n K lines idx t = run step (fun idx => idx =? K) rows idx t).
  { clear. intros lines rows HC. induction HC as [|l r lines rows Hl HC IH]; intros idx t Hi; [reflexivity|]. cbn [uhf_line_rows run]. rewrite (inb_ltb K idx Hi). unfold step at 1. destruct (idx <? K); [|reflexivity].
    rewrite (convert_line_end n 1 l r Hl). rewrite IH by lia. reflexivity. }
  rewrite (E lines rows HC) by lia. rewrite (run_judged _ _ K any put_direct); [|intros idx (xs, ds) t0 Hi; reflexivity|intros; reflexivity|lia].
  rewrite Z.sub_0_r. exists (puts put_direct rows 0 t). split; [reflexivity|]. intros k r Er. change (Z.of_nat k) with (0 + Z.of_nat k).
  apply (puts_holds put_direct (holds (Z.of_nat n) v_re)) with (wf := fun r => length (fst r) = n /\ length (snd r) = 1%nat); [intros; now apply direct_holds|intros; now apply direct_keep|exact Er|exact (wf_rows n 1 lines k r HC Er)].
Qed.
Lemma uhf_pairs_file lines t : complete 2 1 lines rows -> 0 < K -> exists t', map_done fst (uhf_pairs K (concat lines) t) = result (judged K any rows) t' /\ table_is 2 v_re rows t'.
Proof.
  intros HC HK. unfold uhf_pairs. destruct (Z.ltb_spec 0 K); [|lia]. rewrite (stream_run 2 1 _ _ _ ltac:(lia) lines rows HC) by exact (concat_length 2 1 ltac:(lia) lines rows HC).
  rewrite (run_judged _ _ K any put_direct); [|intros idx (xs, ds) t0 Hi; cbn [fst snd]; rewrite (inb_ltb K idx Hi); reflexivity|intros; reflexivity|lia].
  rewrite Z.sub_0_r. exists (puts put_direct rows 0 t). split; [reflexivity|]. intros k r Er. change (Z.of_nat k) with (0 + Z.of_nat k).
  apply (puts_holds put_direct (holds 2 v_re)) with (wf := fun r => length (fst r) = 2%nat /\ length (snd r) = 1%nat); [intros; now apply (direct_holds 2)|intros; now apply direct_keep|exact Er|exact (wf_rows 2 1 lines k r HC Er)].
Qed.
Definition put_hop (idx : Z) (r : row) (t : table R) : table R := let t := put_direct (2 * idx) r t in
  set_val (2 * idx + 1) (snd t (2 * idx)) (set_row (2 * idx + 1) [fst t (2 * idx) 1; fst t (2 * idx) 0] t).
Lemma uhf_hop_file lines t : complete 2 1 lines rows -> 0 < K -> exists t', map_done fst (uhf_pair_hop (2 * K) (concat lines) t) = result (judged K any rows) t' /\ pairs_are rows t'.
Proof.
  intros HC HK. unfold uhf_pair_hop. destruct (Z.ltb_spec 0 (2 * K)); [|lia]. rewrite (stream_run 2 1 _ _ _ ltac:(lia) lines rows HC) by exact (concat_length 2 1 ltac:(lia) lines rows HC).
  rewrite (run_judged _ _ K any put_hop).
  - rewrite Z.sub_0_r. exists (puts put_hop rows 0 t). split; [reflexivity|]. intros k r Er. change (Z.of_nat k) with (0 + Z.of_nat k).
    apply (puts_holds put_hop pair_holds) with (wf := fun r => length (fst r) = 2%nat /\ length (snd r) = 1%nat); [| |exact Er|exact (wf_rows 2 1 lines k r HC Er)].
    + intros idx r0 t0 W. destruct (direct_holds 2 (2 * idx) r0 t0 W) as (Q1 & Q2). unfold put_hop. cbv zeta. set (u := put_direct (2 * idx) r0 t0) in *.
      pose proof (Q1 0 ltac:(lia)) as A0. pose proof (Q1 1 ltac:(lia)) as A1. rewrite A0, A1, Q2. unfold pair_holds. cbn [set_val fst snd]. unfold set_row. cbn [fst snd length Z.of_nat]. rewrite !Z.eqb_refl.
      destruct (Z.eqb_spec (2 * idx) (2 * idx + 1)); [lia|]. cbn [andb]. rewrite A0, A1, upd_other, upd_same by lia. repeat split; try reflexivity. exact Q2.
    + intros i j r0 r' t0 D (H1 & H2 & H3 & H4 & H5 & H6). unfold put_hop. cbv zeta.
      assert (KEEP : forall a, a <> 2 * j -> (forall c, fst (put_direct (2 * j) r' t0) a c = fst t0 a c) /\ snd (put_direct (2 * j) r' t0) a = snd t0 a).
      { intros a Ha. unfold put_direct. split; [intros c|]; destruct (snd r'); cbn [set_val fst snd set_row]; try (destruct (Z.eqb_spec a (2 * j)); [lia|]); try rewrite upd_other by lia; reflexivity. }
      set (u := put_direct (2 * j) r' t0) in *. unfold pair_holds. cbn [set_val fst snd]. unfold set_row. cbn [fst snd].
      destruct (Z.eqb_spec (2 * i) (2 * j + 1)); [lia|]. destruct (Z.eqb_spec (2 * i + 1) (2 * j + 1)); [lia|]. cbn [andb]. rewrite !upd_other by lia.
      destruct (KEEP (2 * i) ltac:(lia)) as (B1 & B2). destruct (KEEP (2 * i + 1) ltac:(lia)) as (B3 & B4). rewrite !B1, B2, !B3, B4. repeat split; assumption.
  - intros idx (xs, ds) t0 Hi. cbn [fst snd]. rewrite !inb_ltb by lia.
    replace (2 * idx <? 2 * K) with (idx <? K) by (destruct (Z.ltb_spec idx K), (Z.ltb_spec (2 * idx) (2 * K)); lia).
    replace (2 * idx + 1 <? 2 * K) with (idx <? K) by (destruct (Z.ltb_spec idx K), (Z.ltb_spec (2 * idx + 1) (2 * K)); lia). destruct (idx <? K); reflexivity.
  - intros idx _. rewrite Z.mul_comm, Z.div_mul by lia. reflexivity.
  - lia.
Qed.
Lemma uhf_all_file lines reim t : complete 8 2 lines rows -> 0 < K -> exists t', map_done fst (uhf_inter_all K (concat lines) reim t) = result (judged K any rows) t' /\ table_is 8 v_c rows t'.
Proof.
  intros HC HK. unfold uhf_inter_all. destruct (Z.ltb_spec 0 K); [|lia]. rewrite (stream_run 8 2 _ _ _ ltac:(lia) lines rows HC) by exact (concat_length 8 2 ltac:(lia) lines rows HC).
  set (put := fun idx (r : row) (t : table C) => let b := if idx =? 0 then reim else snd t (idx - 1) in set_val idx (let d := over (snd r) [fst b; snd b] in (real d 0, real d 1)) (set_row idx (fst r) t)).
  rewrite (run_judged _ _ K any put); [|intros idx (xs, ds) t0 Hi; cbn [fst snd]; rewrite (inb_ltb K idx Hi); reflexivity|intros; reflexivity|lia].
  rewrite Z.sub_0_r. exists (puts put rows 0 t). split; [reflexivity|]. intros k r Er. change (Z.of_nat k) with (0 + Z.of_nat k).
  apply (puts_holds put (holds 8 v_c)) with (wf := fun r => length (fst r) = 8%nat /\ length (snd r) = 2%nat); [|intros; now apply set_keep|exact Er|exact (wf_rows 8 2 lines k r HC Er)].
  intros idx r0 t0 (W1 & W2). unfold put. cbv zeta. rewrite over_same by exact W2. apply (set_put 8); [assumption|reflexivity|reflexivity].
Qed.
End Uhf.
