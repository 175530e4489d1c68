(** Loops that fill cells of arrays. *)
From Coq Require Import ZArith List Bool Lia Reals.
From Coquelicot Require Import Complex.
From Verif Require Import Base.ZLoop Base.RSum Pf.Pfaffian Pf.Spec Ltl.Model Ltl.Arr Blk.Model Blk.Spec Blk.Alg.
Import ListNotations.
Local Open Scope Z_scope.

(** one cell per round, its value depending on nothing the other rounds change *)
Lemma loop_cells a b (p : Z -> Z) (f : Z -> (Z -> C) -> Z -> C) (g : Z -> (Z -> C) -> C) A : a <= b ->
  (forall i B, a <= i < b -> f i B = upd B (p i) (g i B)) ->
  (forall i i', a <= i < b -> a <= i' < b -> p i = p i' -> i = i') ->
  (forall i B B', a <= i < b -> (forall q, (forall i', a <= i' < b -> i' <> i -> q <> p i') -> B q = B' q) -> g i B = g i B') ->
  let R := loop a b f A in (forall i, a <= i < b -> R (p i) = g i A) /\ (forall q, (forall i, a <= i < b -> q <> p i) -> R q = A q).
Proof.
  intros Hab Hf Hp Hg R.
  assert (G : (fun m B => (forall i, a <= i < m -> B (p i) = g i A) /\ (forall q, (forall i, a <= i < m -> q <> p i) -> B q = A q)) b R).
  { apply loop_inv; [exact Hab| |].
    - split; [lia|reflexivity].
    - intros m B Hm (I1 & I2). rewrite Hf by exact Hm. assert (E : g m B = g m A). { apply Hg; [exact Hm|]. intros q Hq. apply I2. intros i Hi. apply Hq; lia. }
      split.
      + intros i Hi. destruct (Z.eq_dec i m) as [->|N]; [now rewrite upd_same|]. rewrite upd_other; [apply I1; lia|]. intros F. apply Hp in F; lia.
      + intros q Hq. rewrite upd_other by (apply Hq; lia). apply I2. intros i Hi. apply Hq. lia. }
  exact G.
Qed.
(** a column of cells *)
Lemma loop_column ld a b c (f : Z -> (Z -> C) -> Z -> C) (g : Z -> (Z -> C) -> C) A : a <= b -> (forall i, a <= i < b -> 0 <= i < ld) ->
  (forall i B, a <= i < b -> f i B = put B ld i c (g i B)) ->
  (forall i B B', a <= i < b -> (forall r c', 0 <= r < ld -> (c' = c -> r = i \/ ~ (a <= r < b)) -> at_ B ld r c' = at_ B' ld r c') -> g i B = g i B') ->
  forall r c', 0 <= r < ld -> at_ (loop a b f A) ld r c' = if (c' =? c) && (a <=? r) && (r <? b) then g r A else at_ A ld r c'.
Proof.
  intros Hab Hld Hf Hg r c' Hr. destruct (loop_cells a b (fun i => i + c * ld) f g A Hab Hf) as (R1 & R2).
  - intros i i' Hi Hi' E. lia.
  - intros i B B' Hi HB. apply Hg; [exact Hi|]. intros r0 c0 Hr0 H0. unfold at_. apply HB. intros i' Hi' Hne E. apply cell_eq in E; [|assumption|now apply Hld]. destruct E as (-> & ->). destruct (H0 eq_refl); lia.
  - destruct (Z.eqb_spec c' c) as [->|Nc]; cbn [andb].
    + destruct (Z.leb_spec a r), (Z.ltb_spec r b); cbn [andb]; try (apply R2; intros i Hi E; apply cell_eq in E; [|assumption|now apply Hld]; lia). unfold at_ at 1. now apply R1.
    + apply R2. intros i Hi E. apply cell_eq in E; [lia|assumption|now apply Hld].
Qed.
(** a row of cells *)
Lemma loop_row ld a b l (f : Z -> (Z -> C) -> Z -> C) (g : Z -> C -> C) A : a <= b -> 0 <= l < ld ->
  (forall o B, a <= o < b -> f o B = put B ld l o (g o (at_ B ld l o))) ->
  forall r c, 0 <= r < ld -> at_ (loop a b f A) ld r c = if (r =? l) && (a <=? c) && (c <? b) then g c (at_ A ld r c) else at_ A ld r c.
Proof.
  intros Hab Hl Hf r c Hr. destruct (loop_cells a b (fun o => l + o * ld) f (fun o B => g o (at_ B ld l o)) A Hab Hf) as (R1 & R2).
  - intros i i' Hi Hi' E. nia.
  - intros i B B' Hi HB. f_equal. apply HB. intros i' Hi' Hne E. apply cell_eq in E; [lia|assumption..].
  - destruct (Z.eqb_spec r l) as [->|Nc]; cbn [andb].
    + destruct (Z.leb_spec a c), (Z.ltb_spec c b); cbn [andb]; try (apply R2; intros i Hi E; apply cell_eq in E; [lia|assumption..]). unfold at_ at 1. now apply R1.
    + apply R2. intros i Hi E. apply cell_eq in E; [lia|assumption..].
Qed.
(** a rectangle or a triangle *)
Lemma loop_cells2 ld ro co k (lo hi : Z -> Z) (f : Z -> Z -> (Z -> C) -> Z -> C) (g : Z -> Z -> C -> C) A : 0 <= k ->
  (forall j, 0 <= j < k -> lo j <= hi j) -> (forall i j, 0 <= j < k -> lo j <= i < hi j -> 0 <= i + ro < ld) ->
  (forall i j B, 0 <= j < k -> lo j <= i < hi j -> f j i B = put B ld (i + ro) (j + co) (g i j (at_ B ld (i + ro) (j + co)))) ->
  forall r c, 0 <= r < ld -> at_ (loop 0 k (fun j B => loop (lo j) (hi j) (f j) B) A) ld r c =
    if (0 <=? c - co) && (c - co <? k) && (lo (c - co) <=? r - ro) && (r - ro <? hi (c - co)) then g (r - ro) (c - co) (at_ A ld r c) else at_ A ld r c.
Proof.
  intros Hk Hlh Hld Hf.
  set (P := fun m B => forall r c, 0 <= r < ld -> at_ B ld r c = if (0 <=? c - co) && (c - co <? m) && (lo (c - co) <=? r - ro) && (r - ro <? hi (c - co)) then g (r - ro) (c - co) (at_ A ld r c) else at_ A ld r c).
  apply (loop_inv P); [exact Hk| |].
  - intros r c Hr. destruct (Z.leb_spec 0 (c - co)), (Z.ltb_spec (c - co) 0); cbn [andb]; (reflexivity || lia).
  - intros j B Hj IH.
    set (P2 := fun m B2 => forall r c, 0 <= r < ld -> at_ B2 ld r c = if (c - co =? j) && (lo j <=? r - ro) && (r - ro <? m) then g (r - ro) j (at_ B ld r c) else at_ B ld r c).
    assert (G : P2 (hi j) (loop (lo j) (hi j) (f j) B)).
    { apply (loop_inv P2); [now apply Hlh| |].
      - intros r c Hr. destruct (Z.leb_spec (lo j) (r - ro)), (Z.ltb_spec (r - ro) (lo j)); try lia; now rewrite ?andb_false_r, ?andb_true_r.
      - intros i B2 Hi IH2 r c Hr. rewrite Hf by assumption. rewrite at_put by (assumption || now apply (Hld i j)). destruct (Z.eqb_spec r (i + ro)) as [->|Nr].
        + destruct (Z.eqb_spec c (j + co)) as [->|Nc]; cbn [andb].
          * rewrite IH2 by assumption. replace (j + co - co) with j by lia. replace (i + ro - ro) with i by lia. rewrite Z.eqb_refl. destruct (Z.leb_spec (lo j) i), (Z.ltb_spec i i), (Z.ltb_spec i (i + 1)); try lia. reflexivity.
          * rewrite IH2 by assumption. destruct (Z.eqb_spec (c - co) j); [lia|reflexivity].
        + cbn [andb]. rewrite IH2 by assumption. destruct (Z.ltb_spec (r - ro) i), (Z.ltb_spec (r - ro) (i + 1)); try lia; reflexivity. }
    intros r c Hr. rewrite (G r c Hr). destruct (Z.eqb_spec (c - co) j) as [E|N]; cbn [andb].
    + rewrite (IH r c Hr). rewrite E. destruct (Z.leb_spec 0 j), (Z.ltb_spec j j), (Z.ltb_spec j (j + 1)); try lia. cbn [andb]. reflexivity.
    + rewrite (IH r c Hr). destruct (Z.ltb_spec (c - co) j), (Z.ltb_spec (c - co) (j + 1)); try lia; reflexivity.
Qed.

Lemma dot_at n U x Q y : dot n U (x * n) Q (y * n) = csum (zrange 0 n) (fun i => Cmult (at_ U n i x) (at_ Q n i y)).
Proof. apply csum_ext. intros i _. unfold at_. now rewrite (Z.add_comm (x * n)), (Z.add_comm (y * n)). Qed.

Lemma full_low A ld i j : i < j -> full A ld i j = at_ A ld i j. Proof. intros. unfold full. destruct (Z.ltb_spec i j); [reflexivity|lia]. Qed.
Lemma full_high A ld i j : j < i -> full A ld i j = Copp (at_ A ld j i). Proof. intros. unfold full. destruct (Z.ltb_spec i j), (Z.ltb_spec j i); (reflexivity || lia). Qed.
Lemma full_diag A ld i : full A ld i i = RtoC 0. Proof. unfold full. destruct (Z.ltb_spec i i); (reflexivity || lia). Qed.
Lemma full_skew A ld i j : full A ld j i = Copp (full A ld i j).
Proof. unfold full. destruct (Z.ltb_spec i j), (Z.ltb_spec j i); try lia; ring. Qed.

(** skslc: a column of the skew matrix *)
Lemma skslc_at n m c A Q : 0 <= m < n -> forall r c', 0 <= r < n -> at_ (skslc n m (c * n) A n Q) n r c' = if c' =? c then full A n r m else at_ Q n r c'.
Proof.
  intros Hm r c' Hr. unfold skslc. cbv zeta.
  rewrite (loop_column n (m + 1) n c _ (fun j _ => Copp (at_ A n m j))); [|lia|lia|intros; apply upd_put; lia|reflexivity|exact Hr].
  rewrite (loop_column n 0 m c _ (fun j _ => at_ A n j m)); [|lia|lia|intros; apply upd_put; lia|reflexivity|exact Hr].
  rewrite (upd_put Q n m c (RtoC 0)) by lia. rewrite at_put by lia. destruct (Z.eqb_spec c' c) as [->|N]; cbn [andb].
  - destruct (Z.leb_spec (m + 1) r), (Z.ltb_spec r n); cbn [andb]; try lia; [rewrite full_high by lia; reflexivity|].
    destruct (Z.leb_spec 0 r), (Z.ltb_spec r m); cbn [andb]; try lia; [now rewrite full_low|]. assert (r = m) as -> by lia. rewrite Z.eqb_refl. cbn [andb]. now rewrite full_diag.
  - rewrite andb_false_r. reflexivity.
Qed.
(** skmv: a column of the product *)
Lemma csum_full n A (x : Z -> C) i : 0 <= i < n ->
  Cminus (csum (zrange i n) (fun j => Cmult (at_ A n i j) (x j))) (csum (zrange 0 (i + 1)) (fun j => Cmult (at_ A n j i) (x j))) = csum (zrange 0 n) (fun j => Cmult (full A n i j) (x j)).
Proof.
  intros Hi. rewrite (zrange_app 0 i n) by lia. rewrite csum_app. rewrite (zrange_cons i n) by lia. rewrite (zrange_snoc 0 i) by lia. rewrite csum_app. cbn [csum fold_right].
  rewrite (csum_ext (zrange 0 i) (fun j => Cmult (full A n i j) (x j)) (fun j => Copp (Cmult (at_ A n j i) (x j)))) by (intros j Hj; apply zrange_in in Hj; rewrite full_high by lia; ring).
  rewrite csum_opp. change (fold_right (fun x0 a => Cplus (Cmult (at_ A n i x0) (x x0)) a) (RtoC 0) (zrange (i + 1) n)) with (csum (zrange (i + 1) n) (fun j => Cmult (at_ A n i j) (x j))).
  change (fold_right (fun x0 a => Cplus (Cmult (full A n i x0) (x x0)) a) (RtoC 0) (zrange (i + 1) n)) with (csum (zrange (i + 1) n) (fun j => Cmult (full A n i j) (x j))).
  rewrite (csum_ext (zrange (i + 1) n) (fun j => Cmult (full A n i j) (x j)) (fun j => Cmult (at_ A n i j) (x j))) by (intros j Hj; apply zrange_in in Hj; rewrite full_low by lia; ring).
  rewrite full_diag. ring.
Qed.
Lemma skmv_at n A U u Q y : 0 <= n -> forall r c, 0 <= r < n -> at_ (skmv n A n U (u * n) Q (y * n)) n r c = if c =? y then csum (zrange 0 n) (fun j => Cmult (full A n r j) (at_ U n j u)) else at_ Q n r c.
Proof.
  intros Hn r c Hr. unfold skmv.
  rewrite (loop_column n 0 n y _ (fun i _ => Cminus (csum (zrange i n) (fun j => Cmult (at_ A n i j) (U (u * n + j)))) (csum (zrange 0 (i + 1)) (fun j => Cmult (at_ A n j i) (U (u * n + j)))))); [|lia|lia|intros; apply upd_put; lia|reflexivity|exact Hr].
  destruct (Z.eqb_spec c y); cbn [andb]; [|reflexivity]. destruct (Z.leb_spec 0 r), (Z.ltb_spec r n); cbn [andb]; try lia. rewrite csum_full by exact Hr. apply csum_ext. intros j _. unfold at_. now rewrite (Z.add_comm (u * n)).
Qed.
(** gemmt and gemm *)
Lemma gemmt_at n k alpha A a B b M : 0 <= n -> forall r c, 0 <= r < n -> at_ (gemmt n k alpha A a n B b n M n) n r c =
  if (0 <=? c) && (c <? n) && (r <=? c) then Cplus (at_ M n r c) (Cmult alpha (csum (zrange 0 k) (fun l => Cmult (A (a + r + l * n)) (B (b + c + l * n))))) else at_ M n r c.
Proof.
  intros Hn r c Hr. unfold gemmt.
  rewrite (loop_cells2 n 0 0 n (fun _ => 0) (fun j => j + 1) _ (fun i j v => Cplus v (Cmult alpha (csum (zrange 0 k) (fun l => Cmult (A (a + i + l * n)) (B (b + j + l * n))))))); [|lia|lia|lia|intros i j B0 _ _; now rewrite !Z.add_0_r|exact Hr].
  rewrite !Z.sub_0_r. destruct (Z.leb_spec 0 c), (Z.ltb_spec c n), (Z.leb_spec 0 r), (Z.ltb_spec r (c + 1)), (Z.leb_spec r c); cbn [andb]; try lia; reflexivity.
Qed.
Lemma gemm_at n c0 k AB Cm ldc Y : 0 <= n -> 0 <= c0 -> forall r c, 0 <= r < n -> at_ (gemm n c0 k AB n Cm ldc Y n) n r c =
  if (0 <=? c) && (c <? c0) then csum (zrange 0 k) (fun l => Cmult (at_ AB n r l) (at_ Cm ldc l c)) else at_ Y n r c.
Proof.
  intros Hn Hc r c Hr. unfold gemm.
  rewrite (loop_cells2 n 0 0 c0 (fun _ => 0) (fun j => n) _ (fun i j v => csum (zrange 0 k) (fun l => Cmult (at_ AB n i l) (at_ Cm ldc l j)))); [|lia|lia|lia|intros i j B0 _ _; now rewrite !Z.add_0_r|exact Hr].
  rewrite !Z.sub_0_r. destruct (Z.leb_spec 0 c), (Z.ltb_spec c c0), (Z.leb_spec 0 r), (Z.ltb_spec r n); cbn [andb]; try lia; reflexivity.
Qed.
