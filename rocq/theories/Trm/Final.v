From Coq Require Import ZArith List Bool Reals Lia Lra.
From Coquelicot Require Import Complex.
From Verif Require Import Base.ZLoop Base.Checked Pf.Spec Slater.Model Green.Spec Ham.Model Ham.Spec Trm.Model Trm.Spec Trm.Proofs Trm.Files.
Import ListNotations.
Local Open Scope Z_scope.

Lemma decide {A} (P : list row -> table A -> Prop) K ok rows (rd : outcome (table A)) t : 0 <= K -> (0 < K -> exists t', rd = result (judged K ok rows) t' /\ P rows t') -> (K = 0 -> rd = Done t) -> P [] t ->
  exists t', rd = result (judged K ok (used K rows)) t' /\ P (used K rows) t'.
Proof.
  intros HK H H0 HP. unfold used. destruct (Z.eqb_spec K 0) as [-> | N]; [|apply H; lia]. exists t. split; [|exact HP]. now rewrite H0.
Qed.
Lemma table_nil {A} n v (t : table A) : table_is n v [] t. Proof. intros k r E. now destruct k. Qed.
Lemma pairs_nil t : pairs_are [] t. Proof. intros k r E. now destruct k. Qed.

(** ** terms from tables *)
Section Terms.
Variables (V : wave) (F : files) (Y : contents) (tr al : table C) (ia ie hu pa ex : table R).
Notation N := (sites V).
Hypotheses (Ptr : table_is 4 v_c (r_trans Y) tr) (Pia : table_is 1 v_re (r_intra Y) ia) (Pie : table_is 2 v_re (r_inter Y) ie) (Phu : table_is 2 v_re (r_hund Y) hu)
  (Ppa : pairs_are (r_pair Y) pa) (Pex : table_is 2 v_re (r_exch Y) ex) (Pal : table_is 8 v_c (r_all Y) al) (HC : counted F Y).
Notation H := (to_terms F (tr, ia, ie, hu, pa, ex, al)).
Lemma terms_stated : hamiltonian V H = stated N Y.
Proof.
  destruct HC as (C1 & C2 & C3 & C4 & C5 & C6 & C7). unfold hamiltonian, diagonal, hopping, stated, to_terms. cbn [NIntra NInter NHund NTransfer NPair NExchange NInterAll].
  rewrite <- C1, <- C2, <- C3, <- C4, <- C5, <- C6, <- C7.
  f_equal; [f_equal; [|f_equal]|f_equal; [|f_equal; [|f_equal]]].
  - apply (flat_map_rows _ (t_intra N) (r_intra Y) 0). intros k r E. destruct (Pia k r E) as (Q & Qv). unfold h_intra, t_intra, number. cbn [Intra ParaIntra Z.add]. rewrite Qv, (Q 0) by lia. reflexivity.
  - apply (flat_map_rows _ (t_inter N) (r_inter Y) 0). intros k r E. destruct (Pie k r E) as (Q & Qv). unfold h_inter, t_inter, number. cbn [Inter ParaInter Z.add]. rewrite Qv, (Q 0), (Q 1) by lia. reflexivity.
  - apply (flat_map_rows _ (t_hund N) (r_hund Y) 0). intros k r E. destruct (Phu k r E) as (Q & Qv). unfold h_hund, t_hund, number. cbn [Hund ParaHund Z.add]. rewrite Qv, (Q 0), (Q 1) by lia. rewrite <- RtoC_opp. reflexivity.
  - apply (flat_map_rows _ (t_transfer N) (r_trans Y) 0). intros k r E. destruct (Ptr k r E) as (Q & Qv). unfold h_transfer, t_transfer. cbn [Transfer ParaTransfer Z.add]. rewrite Qv, (Q 0), (Q 1), (Q 2), (Q 3) by lia. reflexivity.
  - apply (flat_map_rows2 _ (t_pair N) (r_pair Y) 0). intros k r E. destruct (Ppa k r E) as (Q1 & Q2 & Q3 & Q4 & Q5 & Q6). unfold h_pair, t_pair. cbn [Pair ParaPair]. rewrite Z.add_0_l, Q1, Q2, Q3, Q4, Q5, Q6. reflexivity.
  - apply (flat_map_rows _ (t_exchange N) (r_exch Y) 0). intros k r E. destruct (Pex k r E) as (Q & Qv). unfold h_exchange, t_exchange. cbn [Exchange ParaExchange Z.add]. rewrite Qv, (Q 0), (Q 1) by lia. reflexivity.
  - apply (flat_map_rows _ (t_interall N) (r_all Y) 0). intros k r E. destruct (Pal k r E) as (Q & Qv). unfold h_interall, t_interall. cbn [InterAll ParaInterAll Z.add]. rewrite Qv, (Q 0), (Q 1), (Q 2), (Q 3), (Q 4), (Q 5), (Q 6), (Q 7) by lia. reflexivity.
Qed.
Lemma row_at (rows : list row) k : 0 <= k < Z.of_nat (length rows) -> exists r, nth_error rows (Z.to_nat k) = Some r /\ In r rows.
Proof.
  intros Hk. destruct (nth_error rows (Z.to_nat k)) as [r|] eqn:E; [exists r; split; [reflexivity|exact (nth_error_In _ _ E)]|]. apply nth_error_None in E. lia.
Qed.
Lemma range_site i : in_range N i = true -> site V i.
Proof. unfold in_range, site. rewrite andb_true_iff, Z.leb_le, Z.ltb_lt. lia. Qed.
Lemma sites_at cs r c : ok_sites N cs r = true -> In c cs -> site V (z r c).
Proof. unfold ok_sites. rewrite forallb_forall. intros Hs Hc. apply range_site. exact (Hs c Hc). Qed.
Lemma spin_at cs r c : ok_spins cs r -> In c cs -> spin (z r c).
Proof. intros Hs Hc. unfold spin. destruct (Hs c Hc) as [-> | ->]; lia. Qed.
Lemma terms_sites TwoSz : good TwoSz N Y -> spins_good Y -> sites_ok V H.
Proof.
  intros (G1 & G2 & G3 & G4) (S1 & S2). destruct HC as (C1 & C2 & C3 & C4 & C5 & C6 & C7). unfold to_terms. constructor; cbn [NIntra NInter NHund NTransfer NPair NExchange NInterAll Intra Inter Hund Transfer Pair Exchange InterAll]; intros k Hk.
  - destruct (row_at (r_intra Y) k ltac:(lia)) as (r & E & I). destruct (Pia _ r E) as (Q & _). rewrite Z2Nat.id in Q by lia. rewrite (Q 0) by lia. apply (sites_at [0%nat]); [exact (G2 r I)|cbn; tauto].
  - destruct (row_at (r_inter Y) k ltac:(lia)) as (r & E & I). destruct (Pie _ r E) as (Q & _). rewrite Z2Nat.id in Q by lia. rewrite (Q 0), (Q 1) by lia.
    pose proof (G3 r ltac:(rewrite !in_app_iff; tauto)) as G. split; apply (sites_at [0; 1]%nat); try exact G; cbn; tauto.
  - destruct (row_at (r_hund Y) k ltac:(lia)) as (r & E & I). destruct (Phu _ r E) as (Q & _). rewrite Z2Nat.id in Q by lia. rewrite (Q 0), (Q 1) by lia.
    pose proof (G3 r ltac:(rewrite !in_app_iff; tauto)) as G. split; apply (sites_at [0; 1]%nat); try exact G; cbn; tauto.
  - destruct (row_at (r_trans Y) k ltac:(lia)) as (r & E & I). destruct (Ptr _ r E) as (Q & _). rewrite Z2Nat.id in Q by lia. rewrite (Q 0), (Q 1), (Q 2), (Q 3) by lia.
    pose proof (G1 r I) as G. pose proof (S1 r I) as S. repeat split; try (apply (spin_at [1; 3]%nat r); [exact S|cbn; tauto]); apply (sites_at [0; 2]%nat r); try exact G; cbn; tauto.
  - destruct (row_at (r_pair Y) (k / 2)) as (r & E & I). { split; [apply Z.div_pos; lia|]. apply Z.div_lt_upper_bound; lia. }
    destruct (Ppa _ r E) as (Q1 & Q2 & _ & Q4 & Q5 & _). rewrite Z2Nat.id in Q1, Q2, Q4, Q5 by (apply Z.div_pos; lia).
    pose proof (G3 r ltac:(rewrite !in_app_iff; tauto)) as G. pose proof (Z.div_mod k 2 ltac:(lia)) as D. pose proof (Z.mod_pos_bound k 2 ltac:(lia)) as M.
    assert (Z0 : site V (z r 0)) by (apply (sites_at [0; 1]%nat); [exact G|cbn; tauto]). assert (Z1 : site V (z r 1)) by (apply (sites_at [0; 1]%nat); [exact G|cbn; tauto]).
    assert (k = 2 * (k / 2) \/ k = 2 * (k / 2) + 1) as [-> | ->] by lia; rewrite ?Q1, ?Q2, ?Q4, ?Q5; tauto.
  - destruct (row_at (r_exch Y) k ltac:(lia)) as (r & E & I). destruct (Pex _ r E) as (Q & _). rewrite Z2Nat.id in Q by lia. rewrite (Q 0), (Q 1) by lia.
    pose proof (G3 r ltac:(rewrite !in_app_iff; tauto)) as G. split; apply (sites_at [0; 1]%nat); try exact G; cbn; tauto.
  - destruct (row_at (r_all Y) k ltac:(lia)) as (r & E & I). destruct (Pal _ r E) as (Q & _). rewrite Z2Nat.id in Q by lia. rewrite (Q 0), (Q 1), (Q 2), (Q 3), (Q 4), (Q 5), (Q 6), (Q 7) by lia.
    pose proof (G4 r I) as G. unfold good_all in G. apply andb_true_iff in G as (G & _). pose proof (S2 r I) as S.
    repeat split; try (apply (spin_at [1; 3; 5; 7]%nat r); [exact S|cbn; tauto]); apply (sites_at [0; 2; 4; 6]%nat r); try exact G; cbn; tauto.
Qed.
Lemma terms_spins TwoSz : good TwoSz N Y -> TwoSz <> -1 -> forall k, 0 <= k < NInterAll H -> InterAll H k 1 = InterAll H k 3 /\ InterAll H k 5 = InterAll H k 7.
Proof.
  intros (_ & _ & _ & G4) HT k Hk. destruct HC as (_ & _ & _ & _ & _ & _ & C7). unfold to_terms in *. cbn [NInterAll InterAll] in *.
  destruct (row_at (r_all Y) k ltac:(lia)) as (r & E & I). destruct (Pal _ r E) as (Q & _). rewrite Z2Nat.id in Q by lia. rewrite (Q 1), (Q 3), (Q 5), (Q 7) by lia.
  pose proof (G4 r I) as G. unfold good_all in G. apply andb_true_iff in G as (_ & G). apply Z.eqb_neq in HT. rewrite HT in G. cbn [orb] in G. apply andb_true_iff in G as (A & B). apply Z.eqb_eq in A, B. exact (conj A B).
Qed.
End Terms.

(** ** the whole *)
Lemma also_done {A B} v w (t : table A) (u : table B) o : also (result v t) (result w u) = Done o -> v = Accept /\ w = Accept /\ o = (t, u).
Proof. destruct v, w; cbn; intros E; try discriminate. now inversion E. Qed.
Lemma also_done_r {A B} (a : outcome A) w (u : table B) o : also a (result w u) = Done o -> exists p, a = Done p /\ w = Accept /\ o = (p, u).
Proof. destruct a, w; cbn; intros E; try discriminate. inversion E. now eexists. Qed.
Lemma map_done_inv {A B} (f : A -> B) a h : map_done f a = Done h -> exists p, a = Done p /\ h = f p.
Proof. destruct a; cbn; intros E; try discriminate. inversion E. now eexists. Qed.
Lemma seven F v1 v2 v3 v4 v5 v6 v7 (tr al : table C) (ia ie hu pa ex : table R) h :
  map_done (to_terms F) (also (also (also (also (also (also (result v1 tr) (result v2 ia)) (result v3 ie)) (result v4 hu)) (result v5 pa)) (result v6 ex)) (result v7 al)) = Done h <->
  (v1 = Accept /\ v2 = Accept /\ v3 = Accept /\ v4 = Accept /\ v5 = Accept /\ v6 = Accept /\ v7 = Accept) /\ h = to_terms F (tr, ia, ie, hu, pa, ex, al).
Proof.
  split; [|intros ((-> & -> & -> & -> & -> & -> & ->) & ->); reflexivity]. intros E. apply map_done_inv in E as (p & E & ->).
  apply also_done_r in E as (p6 & E & -> & ->). apply also_done_r in E as (p5 & E & -> & ->). apply also_done_r in E as (p4 & E & -> & ->). apply also_done_r in E as (p3 & E & -> & ->). apply also_done_r in E as (p2 & E & -> & ->).
  apply also_done in E as (-> & -> & ->). repeat split.
Qed.

Section Main.
Variables (V : wave) (TwoSz : Z) (F : files) (X : contents) (B : before).
Notation N := (sites V). Notation Y := (in_effect F X).
Hypotheses (HX : all_complete F X) (HN : counts_ok F).
Lemma final_main h : main_hamiltonian N TwoSz F B = Done h -> counted F Y /\ good TwoSz N Y /\ hamiltonian V h = stated N Y /\ (spins_good Y -> sites_ok V h) /\
  (TwoSz <> -1 -> forall k, 0 <= k < NInterAll h -> InterAll h k 1 = InterAll h k 3 /\ InterAll h k 5 = InterAll h k 7).
Proof.
  destruct HX as (X1 & X2 & X3 & X4 & X5 & X6 & X7), HN as (N1 & N2 & N3 & N4 & N5 & N6 & N7).
  destruct (decide (table_is 4 v_c) (n_trans F) (good_trans N) (r_trans X) (get_transfer_info N (n_trans F) (l_trans F) (b_c B)) (b_c B) N1 (fun H => transfer_file N _ _ _ _ X1 H) ltac:(intros ->; reflexivity) (table_nil _ _ _)) as (tr & E1 & P1).
  destruct (decide (table_is 1 v_re) (n_intra F) (good_one N) (r_intra X) (get_info_coulomb_intra N (n_intra F) (l_intra F) (b_r B)) (b_r B) N2 (fun H => intra_file N _ _ _ _ X2 H) ltac:(intros ->; reflexivity) (table_nil _ _ _)) as (ia & E2 & P2).
  destruct (decide (table_is 2 v_re) (n_inter F) (good_two N) (r_inter X) (read_pair_d_value N (n_inter F) (l_inter F) (b_r B)) (b_r B) N3 (fun H => pair_file N _ _ _ _ X3 H) ltac:(intros ->; reflexivity) (table_nil _ _ _)) as (ie & E3 & P3).
  destruct (decide (table_is 2 v_re) (n_hund F) (good_two N) (r_hund X) (read_pair_d_value N (n_hund F) (l_hund F) (b_r B)) (b_r B) N4 (fun H => pair_file N _ _ _ _ X4 H) ltac:(intros ->; reflexivity) (table_nil _ _ _)) as (hu & E4 & P4).
  destruct (decide pairs_are (n_pair F) (good_two N) (r_pair X) (read_pair_hop_value N (2 * n_pair F) (l_pair F) (b_r B)) (b_r B) N5 (fun H => hop_file N _ _ _ _ X5 H) ltac:(intros ->; reflexivity) (pairs_nil _)) as (pa & E5 & P5).
  destruct (decide (table_is 2 v_re) (n_exch F) (good_two N) (r_exch X) (read_pair_d_value N (n_exch F) (l_exch F) (b_r B)) (b_r B) N6 (fun H => pair_file N _ _ _ _ X6 H) ltac:(intros ->; reflexivity) (table_nil _ _ _)) as (ex & E6 & P6).
  destruct (decide (table_is 8 v_c) (n_all F) (good_all TwoSz N) (r_all X) (get_info_inter_all TwoSz N (n_all F) (l_all F) (b_c B)) (b_c B) N7 (fun H => all_file N _ _ TwoSz _ _ X7 H) ltac:(intros ->; reflexivity) (table_nil _ _ _)) as (al & E7 & P7).
  unfold main_hamiltonian. rewrite E1, E2, E3, E4, E5, E6, E7. intros E. apply seven in E as ((A1 & A2 & A3 & A4 & A5 & A6 & A7) & ->).
  apply judged_accept in A1 as (C1 & G1), A2 as (C2 & G2), A3 as (C3 & G3), A4 as (C4 & G4), A5 as (C5 & G5), A6 as (C6 & G6), A7 as (C7 & G7).
  assert (HC : counted F Y) by (repeat split; assumption).
  assert (HG : good TwoSz N Y). { split; [exact G1|]. split; [exact G2|]. split; [|exact G7]. intros r I. rewrite !in_app_iff in I. destruct I as [I|[I|[I|I]]]; [exact (G3 r I)|exact (G4 r I)|exact (G5 r I)|exact (G6 r I)]. }
  split; [exact HC|]. split; [exact HG|]. split; [exact (terms_stated V F Y tr al ia ie hu pa ex P1 P2 P3 P4 P5 P6 P7 HC)|]. split.
  - intros S. exact (terms_sites V F Y tr al ia ie hu pa ex P1 P2 P3 P4 P5 P6 P7 HC TwoSz HG S).
  - intros HT. exact (terms_spins V F Y tr al ia ie hu pa ex P7 HC TwoSz HG HT).
Qed.
Lemma final_main_accepts : counted F Y -> good TwoSz N Y -> exists h, main_hamiltonian N TwoSz F B = Done h.
Proof.
  intros (C1 & C2 & C3 & C4 & C5 & C6 & C7) (G1 & G2 & G3 & G4). destruct HX as (X1 & X2 & X3 & X4 & X5 & X6 & X7), HN as (N1 & N2 & N3 & N4 & N5 & N6 & N7).
  destruct (decide (table_is 4 v_c) (n_trans F) (good_trans N) (r_trans X) (get_transfer_info N (n_trans F) (l_trans F) (b_c B)) (b_c B) N1 (fun H => transfer_file N _ _ _ _ X1 H) ltac:(intros ->; reflexivity) (table_nil _ _ _)) as (tr & E1 & P1).
  destruct (decide (table_is 1 v_re) (n_intra F) (good_one N) (r_intra X) (get_info_coulomb_intra N (n_intra F) (l_intra F) (b_r B)) (b_r B) N2 (fun H => intra_file N _ _ _ _ X2 H) ltac:(intros ->; reflexivity) (table_nil _ _ _)) as (ia & E2 & P2).
  destruct (decide (table_is 2 v_re) (n_inter F) (good_two N) (r_inter X) (read_pair_d_value N (n_inter F) (l_inter F) (b_r B)) (b_r B) N3 (fun H => pair_file N _ _ _ _ X3 H) ltac:(intros ->; reflexivity) (table_nil _ _ _)) as (ie & E3 & P3).
  destruct (decide (table_is 2 v_re) (n_hund F) (good_two N) (r_hund X) (read_pair_d_value N (n_hund F) (l_hund F) (b_r B)) (b_r B) N4 (fun H => pair_file N _ _ _ _ X4 H) ltac:(intros ->; reflexivity) (table_nil _ _ _)) as (hu & E4 & P4).
  destruct (decide pairs_are (n_pair F) (good_two N) (r_pair X) (read_pair_hop_value N (2 * n_pair F) (l_pair F) (b_r B)) (b_r B) N5 (fun H => hop_file N _ _ _ _ X5 H) ltac:(intros ->; reflexivity) (pairs_nil _)) as (pa & E5 & P5).
  destruct (decide (table_is 2 v_re) (n_exch F) (good_two N) (r_exch X) (read_pair_d_value N (n_exch F) (l_exch F) (b_r B)) (b_r B) N6 (fun H => pair_file N _ _ _ _ X6 H) ltac:(intros ->; reflexivity) (table_nil _ _ _)) as (ex & E6 & P6).
  destruct (decide (table_is 8 v_c) (n_all F) (good_all TwoSz N) (r_all X) (get_info_inter_all TwoSz N (n_all F) (l_all F) (b_c B)) (b_c B) N7 (fun H => all_file N _ _ TwoSz _ _ X7 H) ltac:(intros ->; reflexivity) (table_nil _ _ _)) as (al & E7 & P7).
  unfold main_hamiltonian. rewrite E1, E2, E3, E4, E5, E6, E7. eexists. apply seven. split; [|reflexivity].
  assert (G3' : forall rows, (forall r, In r rows -> In r (r_inter Y ++ r_hund Y ++ r_pair Y ++ r_exch Y)) -> forall r, In r rows -> good_two N r = true) by (intros rows Hi r I; exact (G3 r (Hi r I))).
  repeat split; apply judged_accept; (split; [assumption|]); try assumption; apply G3'; intros r I; rewrite !in_app_iff; cbn [r_inter r_hund r_pair r_exch in_effect]; tauto.
Qed.
End Main.

Section Uhf.
Variables (V : wave) (F : files) (X : contents) (B : before).
Notation N := (sites V). Notation Y := (in_effect F X).
Hypotheses (HX : all_complete F X) (HN : counts_ok F).
Lemma final_uhf : (counted F Y <-> exists h, uhf_hamiltonian F B = Done h) /\ forall h, uhf_hamiltonian F B = Done h -> hamiltonian V h = stated N Y.
Proof.
  destruct HX as (X1 & X2 & X3 & X4 & X5 & X6 & X7), HN as (N1 & N2 & N3 & N4 & N5 & N6 & N7).
  destruct (decide (table_is 4 v_c) (n_trans F) any (r_trans X) (uhf_transfer (n_trans F) (l_trans F) (b_re B) (b_c B)) (b_c B) N1 (fun H => uhf_transfer_file _ _ _ _ _ X1 H) ltac:(intros ->; reflexivity) (table_nil _ _ _)) as (tr & E1 & P1).
  destruct (decide (table_is 1 v_re) (n_intra F) any (r_intra X) (uhf_lines 1 (n_intra F) (l_intra F) (b_r B)) (b_r B) N2 (fun H => uhf_lines_file _ _ 1 _ _ X2 H) ltac:(intros ->; reflexivity) (table_nil _ _ _)) as (ia & E2 & P2).
  destruct (decide (table_is 2 v_re) (n_inter F) any (r_inter X) (uhf_lines 2 (n_inter F) (l_inter F) (b_r B)) (b_r B) N3 (fun H => uhf_lines_file _ _ 2 _ _ X3 H) ltac:(intros ->; reflexivity) (table_nil _ _ _)) as (ie & E3 & P3).
  destruct (decide (table_is 2 v_re) (n_hund F) any (r_hund X) (map_done fst (uhf_pairs (n_hund F) (concat (l_hund F)) (b_r B))) (b_r B) N4 (fun H => uhf_pairs_file _ _ _ _ X4 H) ltac:(intros ->; reflexivity) (table_nil _ _ _)) as (hu & E4 & P4).
  destruct (decide pairs_are (n_pair F) any (r_pair X) (map_done fst (uhf_pair_hop (2 * n_pair F) (concat (l_pair F)) (b_r B))) (b_r B) N5 (fun H => uhf_hop_file _ _ _ _ X5 H) ltac:(intros ->; reflexivity) (pairs_nil _)) as (pa & E5 & P5).
  destruct (decide (table_is 2 v_re) (n_exch F) any (r_exch X) (map_done fst (uhf_pairs (n_exch F) (concat (l_exch F)) (b_r B))) (b_r B) N6 (fun H => uhf_pairs_file _ _ _ _ X6 H) ltac:(intros ->; reflexivity) (table_nil _ _ _)) as (ex & E6 & P6).
  destruct (decide (table_is 8 v_c) (n_all F) any (r_all X) (map_done fst (uhf_inter_all (n_all F) (concat (l_all F)) (b_reim B) (b_c B))) (b_c B) N7 (fun H => uhf_all_file _ _ _ _ _ X7 H) ltac:(intros ->; reflexivity) (table_nil _ _ _)) as (al & E7 & P7).
  assert (TO : forall h, uhf_hamiltonian F B = Done h -> counted F Y /\ hamiltonian V h = stated N Y).
  { intros h. unfold uhf_hamiltonian. rewrite E1, E2, E3, E4, E5, E6, E7. intros E. apply seven in E as ((A1 & A2 & A3 & A4 & A5 & A6 & A7) & ->).
    apply judged_accept in A1 as (C1 & _), A2 as (C2 & _), A3 as (C3 & _), A4 as (C4 & _), A5 as (C5 & _), A6 as (C6 & _), A7 as (C7 & _).
    assert (HC : counted F Y) by (repeat split; assumption). split; [exact HC|]. exact (terms_stated V F Y tr al ia ie hu pa ex P1 P2 P3 P4 P5 P6 P7 HC). }
  split; [|intros h E; exact (proj2 (TO h E))]. split; [|intros (h & E); exact (proj1 (TO h E))].
  intros (C1 & C2 & C3 & C4 & C5 & C6 & C7). unfold uhf_hamiltonian. rewrite E1, E2, E3, E4, E5, E6, E7. eexists. apply seven. split; [|reflexivity].
  repeat split; apply judged_accept; (split; [assumption|reflexivity]).
Qed.
End Uhf.

Lemma result_agrees {A} v (t : table A) : agrees v (result v t). Proof. now destruct v. Qed.
Lemma final_judged Nsite TwoSz K rows : 0 < K ->
  (forall lines t, complete 4 2 lines rows -> agrees (judged K (good_trans Nsite) rows) (get_transfer_info Nsite K lines t)) /\
  (forall lines t, complete 1 1 lines rows -> agrees (judged K (good_one Nsite) rows) (get_info_coulomb_intra Nsite K lines t)) /\
  (forall lines t, complete 2 1 lines rows -> agrees (judged K (good_two Nsite) rows) (read_pair_d_value Nsite K lines t)) /\
  (forall lines t, complete 2 1 lines rows -> agrees (judged K (good_two Nsite) rows) (read_pair_hop_value Nsite (2 * K) lines t)) /\
  (forall lines t, complete 8 2 lines rows -> agrees (judged K (good_all TwoSz Nsite) rows) (get_info_inter_all TwoSz Nsite K lines t)) /\
  (forall lines t, complete 8 0 lines rows -> agrees (judged K (ok_sites Nsite [0; 2; 4; 6]%nat) rows) (get_info_two_body_g Nsite K lines t)).
Proof.
  intros HK. repeat split; intros lines t HC.
  - destruct (transfer_file Nsite K rows lines t HC HK) as (t' & -> & _). apply result_agrees.
  - destruct (intra_file Nsite K rows lines t HC HK) as (t' & -> & _). apply result_agrees.
  - destruct (pair_file Nsite K rows lines t HC HK) as (t' & -> & _). apply result_agrees.
  - destruct (hop_file Nsite K rows lines t HC HK) as (t' & -> & _). apply result_agrees.
  - destruct (all_file Nsite K rows TwoSz lines t HC HK) as (t' & -> & _). apply result_agrees.
  - destruct (two_body_file Nsite K rows lines t HC HK) as (t' & -> & _). apply result_agrees.
Qed.
Lemma final_requests Nsite K rows lines t t' : 0 < K -> complete 8 0 lines rows -> get_info_two_body_g Nsite K lines t = Done t' ->
  Z.of_nat (length rows) = K /\ forall k r, nth_error rows k = Some r -> forall c, 0 <= c < 8 -> fst t' (Z.of_nat k) c = z r (Z.to_nat c).
Proof.
  intros HK HC E. destruct (two_body_file Nsite K rows lines t HC HK) as (t0 & E0 & P). rewrite E0 in E. destruct (judged K _ rows) eqn:J; cbn in E; try discriminate. inversion E; subst t0.
  apply judged_accept in J as (L & _). split; [exact L|]. intros k r Er c Hc. exact (proj1 (P k r Er) c Hc).
Qed.
Lemma extra_row Nsite K lines rows t : 0 < K -> complete 4 2 lines rows -> K < Z.of_nat (length rows) -> (forall r, In r rows -> good_trans Nsite r = true) -> get_transfer_info Nsite K lines t = Outside.
Proof.
  intros HK HC HL HG. destruct (transfer_file Nsite K rows lines t HC HK) as (t' & -> & _).
  assert (judged K (good_trans Nsite) rows = Overrun) as ->; [|reflexivity]. unfold judged.
  assert (forallb (good_trans Nsite) (firstn (Z.to_nat K) rows) = true) as ->. { apply forallb_forall. intros r I. apply HG. rewrite <- (firstn_skipn (Z.to_nat K) rows). apply in_or_app. now left. }
  destruct (Z.eqb_spec (Z.of_nat (length rows)) K); [lia|]. destruct (Z.ltb_spec (Z.of_nat (length rows)) K); [lia|reflexivity].
Qed.
Lemma pointer_behind N s t t' ptr : 0 < N -> (uhf_pairs N s t = Done (t', ptr) -> In N ptr) /\ (uhf_pair_hop (2 * N) s t = Done (t', ptr) -> In (2 * N) ptr).
Proof.
  intros HN. split; intros E.
  - unfold uhf_pairs in E. destruct (Z.ltb_spec 0 N); [|lia]. refine (stream_pointer 2 1 _ _ _ N (length s) _ s 0 t t' ptr E). intros idx Q. now apply Z.eqb_eq in Q.
  - unfold uhf_pair_hop in E. destruct (Z.ltb_spec 0 (2 * N)); [|lia]. refine (stream_pointer 2 1 _ _ _ (2 * N) (length s) _ s 0 t t' ptr E). intros idx Q. apply Z.eqb_eq in Q. rewrite Z.mul_comm, Z.div_mul in Q by lia. now subst.
Qed.
