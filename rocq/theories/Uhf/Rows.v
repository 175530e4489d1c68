(** The one-particle matrix of makeham.c, row by row of the definition files. *)
From Coq Require Import ZArith List Bool Lia Reals.
From Coquelicot Require Import Complex.
From Verif Require Import Base.ZLoop Base.RSum Pf.Pfaffian Pf.Spec Green.Spec Ham.Model Ham.Spec Uhf.Model Uhf.Spec.
Import ListNotations.
Local Open Scope Z_scope.

Lemma csum_flat {A B} (g : A -> list B) (l : list A) f : csum (flat_map g l) f = csum l (fun x => csum (g x) f).
Proof. induction l as [|x l IH]; cbn [flat_map csum]; [reflexivity|]. now rewrite csum_app, IH. Qed.
Lemma csum_mapped {A B} (g : A -> B) (l : list A) f : csum (map g l) f = csum l (fun x => f (g x)).
Proof. induction l as [|x l IH]; cbn [map csum]; [reflexivity|]. now rewrite IH. Qed.
Lemma csum_conj {A} (l : list A) f : Cconj (csum l f) = csum l (fun x => Cconj (f x)).
Proof. induction l as [|x l IH]; cbn [csum]; [apply (f_equal2 (@pair R R)); cbn; ring|]. rewrite <- IH. apply (f_equal2 (@pair R R)); cbn; ring. Qed.
Lemma csum_one n i (f : Z -> C) : 0 <= i < n -> csum (zrange 0 n) (fun k => if k =? i then f k else RtoC 0) = f i.
Proof.
  intros Hi. rewrite <- (csum_delta (zrange 0 n) i f); [|apply zrange_NoDup|now apply zrange_in]. apply csum_ext. intros k _. unfold delta.
  rewrite (Z.eqb_sym i k). destruct (k =? i); ring.
Qed.

(** ** additions to matrix entries *)
Definition within (n : Z) (e : Z * Z * C) : Prop := 0 <= fst (fst e) < n /\ 0 <= snd (fst e) < n.
Definition weigh (D : matrix) (e : Z * Z * C) : C := Cmult (snd e) (D (fst (fst e)) (snd (fst e))).
Lemma pairing_add n M D e : within n e -> pairing n (add M e) D = Cplus (pairing n M D) (weigh D e).
Proof.
  destruct e as [[i j] v]. intros (Hi & Hj). cbn [fst snd] in Hi, Hj. unfold pairing, weigh. cbn [fst snd].
  rewrite <- (csum_one n i (fun i => Cmult v (D i j)) Hi), <- csum_add. apply csum_ext. intros a _.
  destruct (Z.eqb_spec a i) as [->|N].
  - rewrite <- (csum_one n j (fun b => Cmult v (D i b)) Hj), <- csum_add. apply csum_ext. intros b _. cbn [add]. rewrite Z.eqb_refl. destruct (b =? j); cbn [andb]; ring.
  - rewrite Cplus_0_r. apply csum_ext. intros b _. cbn [add]. destruct (Z.eqb_spec a i); [contradiction|]. reflexivity.
Qed.
Lemma pairing_adds n D l : forall M, Forall (within n) l -> pairing n (adds l M) D = Cplus (pairing n M D) (csum l (weigh D)).
Proof.
  induction l as [|e l IH]; intros M HL; [cbn [adds fold_left csum]; ring|]. apply Forall_cons_iff in HL. destruct HL as (He & HL).
  unfold adds. cbn [fold_left csum]. change (fold_left add l (add M e)) with (adds l (add M e)). rewrite IH by exact HL. rewrite pairing_add by exact He. ring.
Qed.
Lemma pairing_loop n D m (row : Z -> list (Z * Z * C)) M : (forall k, 0 <= k < m -> Forall (within n) (row k)) ->
  pairing n (loop 0 m (fun k => adds (row k)) M) D = Cplus (pairing n M D) (csum (zrange 0 m) (fun k => csum (row k) (weigh D))).
Proof.
  intros HR. destruct (Z_le_gt_dec 0 m) as [Hm|Hm]; [|rewrite loop_nil, zrange_nil by lia; cbn [csum]; ring].
  enough (G : forall j, 0 <= j <= m -> pairing n (loop 0 j (fun k => adds (row k)) M) D = Cplus (pairing n M D) (csum (zrange 0 j) (fun k => csum (row k) (weigh D)))) by (apply G; lia).
  intros j Hj. destruct Hj as (Hj0 & Hjm). revert Hjm. pattern j. apply natlike_ind; [intros; rewrite loop_nil, zrange_nil by lia; cbn [csum]; ring| |exact Hj0].
  intros i Hi IH Him. rewrite <- Z.add_1_r, loop_last, zrange_snoc by lia. rewrite pairing_adds by (apply HR; lia). rewrite IH by lia. rewrite csum_app. cbn [csum]. ring.
Qed.

(** ** one row: the entries are the derivative of the energy of the strings *)
Definition derivative (O : observable) (l : list (Z * Z * C)) (G D : matrix) : Prop := forall t,
  mean_energy O (plus G (scale t D)) = Cplus (Cplus (mean_energy O G) (Cmult t (csum l (weigh D)))) (Cmult (Cmult t t) (second_order O D)).
Lemma derivative_rows (m : Z) (o : Z -> observable) (row : Z -> list (Z * Z * C)) G D : (forall k, 0 <= k < m -> derivative (o k) (row k) G D) ->
  forall t, mean_energy (flat_map o (zrange 0 m)) (plus G (scale t D)) =
    Cplus (Cplus (mean_energy (flat_map o (zrange 0 m)) G) (Cmult t (csum (zrange 0 m) (fun k => csum (row k) (weigh D))))) (Cmult (Cmult t t) (second_order (flat_map o (zrange 0 m)) D)).
Proof.
  intros HD t. unfold mean_energy, second_order. rewrite !csum_flat. rewrite <- !csum_scal, <- !csum_add. apply csum_ext. intros k Hk. apply zrange_in in Hk. exact (HD k Hk t).
Qed.
Lemma mean_app O O' G : mean_energy (O ++ O') G = Cplus (mean_energy O G) (mean_energy O' G). Proof. apply csum_app. Qed.
Lemma second_app O O' D : second_order (O ++ O') D = Cplus (second_order O D) (second_order O' D). Proof. apply csum_app. Qed.

Section Rows.
Variables (V : wave) (H : terms) (G D : matrix).
Notation N := (sites V).
Hypothesis HN : 0 < N.
Hypothesis HS : sites_ok V H.
Hypothesis HG : forall i, 0 <= i < 2 * N -> snd (G i i) = 0%R.
Ltac unroll := unfold derivative, mean_energy, second_order, weigh, plus, scale; cbn [csum fst snd wick wick2].
Lemma kron_not a b : a <> b -> kron a b = RtoC 0. Proof. intros Hn. unfold kron. destruct (Z.eqb_spec a b); [contradiction|reflexivity]. Qed.
Lemma kron_same a : kron a a = RtoC 1. Proof. unfold kron. now rewrite Z.eqb_refl. Qed.
Lemma charge_is u d : 0 <= u < 2 * N -> 0 <= d < 2 * N -> charge G u d = Cplus (G u u) (G d d).
Proof. intros Hu Hd. unfold charge. pose proof (HG u Hu). pose proof (HG d Hd). destruct (G u u) as (a, b), (G d d) as (a', b'). cbn in *. subst. unfold RtoC, Cplus. cbn. f_equal. ring. Qed.
Ltac split_within := repeat (apply Forall_cons; [split; cbn [fst snd]; lia|]); apply Forall_nil.
Lemma spin_site r s : 0 <= r < N -> 0 <= s <= 1 -> 0 <= r + s * N < 2 * N.
Proof. intros. assert (s = 0 \/ s = 1) as [-> | ->] by lia; lia. Qed.

Lemma transfer_row k : 0 <= k < NTransfer H -> derivative (h_transfer V H k) (add_transfer N H k) G D /\ Forall (within (2 * N)) (add_transfer N H k).
Proof.
  intros Hk. destruct (ok_transfer V H HS k Hk) as (A & B & A' & B'). split; [|apply Forall_cons; [split; cbn [fst snd]; now apply spin_site|apply Forall_nil]].
  intros t. unfold h_transfer, add_transfer. unroll. ring.
Qed.
Lemma intra_row k : 0 <= k < NIntra H -> derivative (h_intra V H k) (add_intra N H G k) G D /\ Forall (within (2 * N)) (add_intra N H G k).
Proof.
  intros Hk. pose proof (ok_intra V H HS k Hk) as A. unfold site in A. split; [|unfold add_intra; split_within].
  intros t. unfold h_intra, add_intra, number. rewrite !Z.mul_0_l, !Z.mul_1_l, !Z.add_0_r. unroll. rewrite !kron_not by lia. ring.
Qed.
Lemma inter_row k : 0 <= k < NInter H -> Inter H k 0 <> Inter H k 1 -> derivative (h_inter V H k) (add_inter N H G k) G D /\ Forall (within (2 * N)) (add_inter N H G k).
Proof.
  intros Hk Hd. destruct (ok_inter V H HS k Hk) as (A & A'). unfold site in A, A'. split; [|unfold add_inter; split_within].
  intros t. unfold h_inter, add_inter, number. cbn [map fst snd]. rewrite !Z.mul_0_l, !Z.mul_1_l, !Z.add_0_r. unroll. rewrite !kron_not by lia. rewrite !charge_is by lia. ring.
Qed.
Lemma hund_row k : 0 <= k < NHund H -> Hund H k 0 <> Hund H k 1 -> derivative (h_hund V H k) (add_hund N H G k) G D /\ Forall (within (2 * N)) (add_hund N H G k).
Proof.
  intros Hk Hd. destruct (ok_hund V H HS k Hk) as (A & A'). unfold site in A, A'. split; [|unfold add_hund; split_within].
  intros t. unfold h_hund, add_hund, number. cbn [map fst snd]. rewrite !Z.mul_0_l, !Z.mul_1_l, !Z.add_0_r. unroll. rewrite !kron_not by lia. ring.
Qed.
Lemma exchange_row k : 0 <= k < NExchange H -> derivative (h_exchange V H k) (add_exchange N H G k) G D /\ Forall (within (2 * N)) (add_exchange N H G k).
Proof.
  intros Hk. destruct (ok_exchange V H HS k Hk) as (A & A'). unfold site in A, A'. split; [|unfold add_exchange; split_within].
  intros t. unfold h_exchange, add_exchange. rewrite !Z.mul_0_l, !Z.mul_1_l, !Z.add_0_r. unroll. rewrite !kron_not by lia. ring.
Qed.
Lemma pair_row k : 0 <= k < NPair H -> derivative (h_pair V H k) (add_pair N H G k) G D /\ Forall (within (2 * N)) (add_pair N H G k).
Proof.
  intros Hk. destruct (ok_pair V H HS k Hk) as (A & A'). unfold site in A, A'. split; [|unfold add_pair; split_within].
  intros t. unfold h_pair, add_pair. rewrite !Z.mul_0_l, !Z.mul_1_l, !Z.add_0_r. unroll. rewrite !kron_not by lia. ring.
Qed.
Lemma interall_row k : 0 <= k < NInterAll H -> derivative (h_interall V H k) (add_interall N H G k) G D /\ Forall (within (2 * N)) (add_interall N H G k).
Proof.
  intros Hk. destruct (ok_interall V H HS k Hk) as (A0 & A1 & A2 & A3 & A4 & A5 & A6 & A7).
  pose proof (spin_site _ _ A0 A1) as S1. pose proof (spin_site _ _ A2 A3) as S2. pose proof (spin_site _ _ A4 A5) as S3. pose proof (spin_site _ _ A6 A7) as S4.
  unfold h_interall, add_interall. cbv zeta.
  set (s1 := InterAll H k 0 + InterAll H k 1 * N) in *. set (s2 := InterAll H k 2 + InterAll H k 3 * N) in *. set (s3 := InterAll H k 4 + InterAll H k 5 * N) in *. set (s4 := InterAll H k 6 + InterAll H k 7 * N) in *.
  clearbody s1 s2 s3 s4. destruct ((s1 =? s2) && (s3 =? s4) && (s1 =? s3)) eqn:E.
  - apply andb_prop in E. destruct E as (E & E3). apply andb_prop in E. destruct E as (E1 & E2). apply Z.eqb_eq in E1, E2, E3. subst s2 s4 s3. split; [|split_within].
    intros t. unroll. rewrite !kron_same. ring.
  - split.
    + intros t. destruct (Z.eqb_spec s2 s3) as [<-|Ne]; cbn [app]; unroll; [rewrite !kron_same|rewrite !kron_not by assumption]; ring.
    + apply Forall_app. split; [split_within|]. destruct (s2 =? s3); [split_within|apply Forall_nil].
Qed.

Lemma pairing_zero n : pairing n (fun _ _ => RtoC 0) D = RtoC 0.
Proof. apply csum_zero. intros i _. apply csum_zero. intros j _. ring. Qed.
Theorem makeham_derivative : two_sites H -> forall t,
  mean_energy (hamiltonian V H) (plus G (scale t D)) =
  Cplus (Cplus (mean_energy (hamiltonian V H) G) (Cmult t (pairing (2 * N) (makeham N H G) D))) (Cmult (Cmult t t) (second_order (hamiltonian V H) D)).
Proof.
  intros (T1 & T2) t. unfold makeham. cbv zeta.
  rewrite !pairing_loop; try (intros k Hk); [| now apply transfer_row|now apply intra_row|apply inter_row; auto|apply hund_row; auto|now apply exchange_row|now apply pair_row|now apply interall_row].
  rewrite pairing_zero. unfold hamiltonian, diagonal, hopping. rewrite !mean_app, !second_app.
  rewrite (derivative_rows _ _ _ G D (fun k Hk => proj1 (intra_row k Hk)) t), (derivative_rows _ _ _ G D (fun k Hk => proj1 (inter_row k Hk (T1 k Hk))) t),
    (derivative_rows _ _ _ G D (fun k Hk => proj1 (hund_row k Hk (T2 k Hk))) t), (derivative_rows _ _ _ G D (fun k Hk => proj1 (transfer_row k Hk)) t),
    (derivative_rows _ _ _ G D (fun k Hk => proj1 (pair_row k Hk)) t), (derivative_rows _ _ _ G D (fun k Hk => proj1 (exchange_row k Hk)) t), (derivative_rows _ _ _ G D (fun k Hk => proj1 (interall_row k Hk)) t).
  ring.
Qed.
End Rows.
