(** The panelled triangular product, the mirrored triangle, and the tridiagonal solver. *)
From Coq Require Import ZArith List Bool Lia Reals Permutation.
From Coquelicot Require Import Complex.
From Verif Require Import Base.ZLoop Base.Checked Base.RSum Pf.Pfaffian Pf.Spec Ltl.Model Ltl.Spec Ltl.Pfa Ltl.Arr.
Import ListNotations.
Local Open Scope Z_scope.

Lemma zrange_shift d a b : zrange (a + d) (b + d) = map (fun k => k + d) (zrange a b).
Proof.
  destruct (Z_le_gt_dec a b) as [H|H]; [|now rewrite !zrange_nil by lia].
  replace b with (a + Z.of_nat (Z.to_nat (b - a))) by lia. generalize (Z.to_nat (b - a)). clear. intros m. induction m as [|m IH]; [now rewrite !zrange_nil by lia|].
  replace (a + Z.of_nat (S m) + d) with (a + Z.of_nat m + d + 1) by lia. replace (a + Z.of_nat (S m)) with (a + Z.of_nat m + 1) by lia. rewrite !zrange_snoc by lia. rewrite map_app, IH. reflexivity.
Qed.
Lemma csum_shift d a b f : csum (zrange (a + d) (b + d)) f = csum (zrange a b) (fun k => f (k + d)).
Proof. rewrite zrange_shift. apply csum_map. Qed.

(** the cells of A' B, A unit triangular *)
Definition product_cell (upper : bool) (n : Z) (A : Z -> C) (ldA : Z) (B : Z -> C) (ldB r c : Z) : C :=
  Cplus (at_ B ldB r c) (csum (if upper then zrange 0 r else zrange (r + 1) n) (fun k => Cmult (at_ A ldA k r) (at_ B ldB k c))).
Lemma trmm_all upper n A ldA B ldB : 0 <= n <= ldB -> forall r c, 0 <= r < n -> 0 <= c < n -> at_ (trmm upper n n A 0 ldA B 0 ldB) ldB r c = product_cell upper n A ldA B ldB r c.
Proof.
  intros Hn r c Hr Hc. rewrite (trmm_cells upper n n A 0 ldA B 0 ldB 0 0) by lia.
  replace ((0 <=? c) && (c <? 0 + n) && (0 <=? r) && (r <? 0 + n)) with true by (symmetry; rewrite !andb_true_iff, !Z.leb_le, !Z.ltb_lt; lia).
  unfold product_cell. f_equal. rewrite Z.sub_0_r. destruct upper; apply csum_ext; intros k _; reflexivity.
Qed.
Lemma trmmt_cells (upper : bool) np n A ldA B ldB : 1 <= np -> 0 <= n <= ldB -> forall r c, 0 <= r < n -> 0 <= c < n -> (if upper then r <= c else c <= r) ->
  at_ (trmmt upper np n A ldA B ldB) ldB r c = product_cell upper n A ldA B ldB r c.
Proof.
  intros Hnp Hn r c Hr Hc Htri. unfold trmmt.
  set (P := fun p R => forall r c, 0 <= r < n -> 0 <= c < n -> (c < p * np -> (if upper then r <= c else c <= r) -> at_ R ldB r c = product_cell upper n A ldA B ldB r c) /\ (p * np <= c -> at_ R ldB r c = at_ B ldB r c)).
  set (np' := (n + np - 1) / np). assert (Hq : n <= np' * np /\ 0 <= np'). { unfold np'. assert (D := Z.div_mod (n + np - 1) np ltac:(lia)). assert (D2 := Z.mod_pos_bound (n + np - 1) np ltac:(lia)). split; [nia|]. apply Z.div_pos; lia. }
  match goal with |- at_ ?X _ _ _ = _ => assert (G : P np' X) end.
  { apply loop_inv; [lia| |].
    - intros r0 c0 Hr0 Hc0. split; [lia|reflexivity].
    - clear r c Hr Hc Htri. intros p R Hp IH r c Hr Hc. cbv zeta. set (j := p * np). set (nloc := Z.min np (n - j)).
      assert (Hj : 0 <= j < n). { assert ((np' - 1) * np <= n - 1). { unfold np'. assert (D := Z.mul_div_le (n + np - 1) np ltac:(lia)). lia. } unfold j. split; [nia|]. nia. }
      assert (Hnl : 1 <= nloc <= n - j /\ (nloc = np \/ j + nloc = n)) by (unfold nloc; lia).
      assert (Col : forall r, 0 <= r < n -> forall c, j <= c < n -> at_ R ldB r c = at_ B ldB r c). { intros r0 Hr0 c0 Hc0. apply IH; unfold j in *; lia. }
      destruct (Z_lt_ge_dec c j) as [Hlt|Hge].
      + assert (E : at_ (if upper then trmm true (j + nloc) nloc A 0 ldA R (j * ldB) ldB else trmm false (n - j) nloc A (j + j * ldA) ldA R (j + j * ldB) ldB) ldB r c = at_ R ldB r c).
        { destruct upper; [rewrite (trmm_cells true _ _ _ _ _ _ _ _ 0 j)|rewrite (trmm_cells false _ _ _ _ _ _ _ _ j j)]; try lia; destruct (Z.leb_spec j c); try lia; reflexivity. }
        rewrite E. split; intros; [apply IH; unfold j in *; (assumption || lia)|nia].
      + split.
        * intros Hc' Htri. assert (Hc2 : j <= c < j + nloc) by (unfold j in *; lia). destruct upper.
          -- rewrite (trmm_cells true _ _ _ _ _ _ _ _ 0 j) by lia. replace ((j <=? c) && (c <? j + nloc) && (0 <=? r) && (r <? 0 + (j + nloc))) with true by (symmetry; rewrite !andb_true_iff, !Z.leb_le, !Z.ltb_lt; lia).
             unfold product_cell. rewrite Z.sub_0_r. rewrite Col by lia. f_equal. apply csum_ext. intros k Hk. apply zrange_in in Hk. rewrite Col by lia. reflexivity.
          -- rewrite (trmm_cells false _ _ _ _ _ _ _ _ j j) by lia. replace ((j <=? c) && (c <? j + nloc) && (j <=? r) && (r <? j + (n - j))) with true by (symmetry; rewrite !andb_true_iff, !Z.leb_le, !Z.ltb_lt; lia).
             unfold product_cell. rewrite Col by lia. f_equal. replace (zrange (r + 1) n) with (zrange (r - j + 1 + j) (n - j + j)) by (f_equal; lia). rewrite csum_shift. apply csum_ext. intros k Hk. apply zrange_in in Hk. rewrite Col by lia. unfold at_. f_equal; f_equal; lia.
        * intros Hc'. assert (Hc2 : j + nloc <= c) by (unfold j in *; lia). rewrite <- (Col r Hr c ltac:(lia)).
          destruct upper; [rewrite (trmm_cells true _ _ _ _ _ _ _ _ 0 j)|rewrite (trmm_cells false _ _ _ _ _ _ _ _ j j)]; try lia; destruct (Z.leb_spec j c), (Z.ltb_spec c (j + nloc)); try lia; reflexivity. }
  apply G; try assumption. lia.
Qed.

Definition mirror (upper : bool) (n ld : Z) (A : Z -> C) : Z -> C :=
  loop 0 n (fun j A => loop (if upper then j + 1 else 0) (if upper then n else j) (fun i A => put A ld i j (Copp (at_ A ld j i))) (put A ld j j (RtoC 0))) A.
Lemma mirror_cells (upper : bool) n ld A : 0 <= n <= ld -> forall r c, 0 <= r < n -> 0 <= c < n ->
  at_ (mirror upper n ld A) ld r c = if r =? c then RtoC 0 else if (if upper then r <? c else c <? r) then at_ A ld r c else Copp (at_ A ld c r).
Proof.
  intros Hn. unfold mirror.
  set (P := fun m R => forall r c, 0 <= r < n -> 0 <= c < n -> at_ R ld r c = if c <? m then (if r =? c then RtoC 0 else if (if upper then r <? c else c <? r) then at_ A ld r c else Copp (at_ A ld c r)) else at_ A ld r c).
  match goal with |- forall r c, _ -> _ -> at_ ?X _ _ _ = _ => assert (G : P n X) end.
  { apply loop_inv; [lia| |].
    - intros r c Hr Hc. destruct (Z.ltb_spec c 0); [lia|reflexivity].
    - intros j R Hj IH. set (lo := if upper then j + 1 else 0). set (hi := if upper then n else j).
      assert (I : (fun k R' => forall r c, 0 <= r < n -> 0 <= c < n -> at_ R' ld r c = if c =? j then (if r =? j then RtoC 0 else if (lo <=? r) && (r <? k) then Copp (at_ A ld j r) else at_ A ld r j) else at_ R ld r c) hi
        (loop lo hi (fun i A => put A ld i j (Copp (at_ A ld j i))) (put R ld j j (RtoC 0)))).
      { apply loop_inv; [unfold lo, hi; destruct upper; lia| |].
        - intros r c Hr Hc. rewrite at_put by lia. destruct (Z.eqb_spec c j) as [->|], (Z.eqb_spec r j) as [->|]; cbn [andb]; try reflexivity.
          destruct (Z.leb_spec lo r), (Z.ltb_spec r lo); try lia; cbn [andb]; rewrite IH by lia; rewrite Z.ltb_irrefl; reflexivity.
        - intros i R' Hi IH' r c Hr Hc. assert (Hin : 0 <= i < n /\ i <> j) by (unfold lo, hi in *; destruct upper; lia). rewrite at_put by lia. destruct (Z.eqb_spec r i) as [->|Hri]; cbn [andb].
          + destruct (Z.eqb_spec c j) as [->|]; [|rewrite IH' by lia; destruct (Z.eqb_spec c j); [lia|reflexivity]]. destruct (Z.eqb_spec i j); [lia|]. destruct (Z.leb_spec lo i), (Z.ltb_spec i (i + 1)); try lia. cbn [andb]. f_equal.
            rewrite IH' by lia. destruct (Z.eqb_spec i j); [lia|]. rewrite IH by lia. destruct (Z.ltb_spec i j); [|reflexivity]. unfold lo, hi in *. destruct upper; [lia|]. destruct (Z.eqb_spec j i), (Z.ltb_spec i j); try lia. reflexivity.
          + rewrite IH' by lia. destruct (Z.ltb_spec r i), (Z.ltb_spec r (i + 1)); try lia; reflexivity. }
      intros r c Hr Hc. cbn beta in I. rewrite I by lia. destruct (Z.eqb_spec c j) as [->|Hcj].
      + destruct (Z.ltb_spec j (j + 1)); [|lia]. destruct (Z.eqb_spec r j) as [->|]; [reflexivity|]. unfold lo, hi. destruct upper.
        * destruct (Z.leb_spec (j + 1) r), (Z.ltb_spec r n), (Z.ltb_spec r j); try lia; reflexivity.
        * destruct (Z.leb_spec 0 r), (Z.ltb_spec r j), (Z.ltb_spec j r); try lia; reflexivity.
      + rewrite IH by lia. destruct (Z.ltb_spec c j), (Z.ltb_spec c (j + 1)); try lia; reflexivity. }
  intros r c Hr Hc. rewrite (G r c Hr Hc). destruct (Z.ltb_spec c n); [reflexivity|lia].
Qed.

(** ** the tridiagonal solver *)
Lemma loopM_ok {S} (P : Z -> S -> Prop) n (f : Z -> S -> option S) s : P 0 s -> (forall i s, 0 <= i < n -> P i s -> exists s', f i s = Some s' /\ P (i + 1) s') -> 0 <= n -> exists s', loopM 0 n f s = Some s' /\ P n s'.
Proof.
  intros H0 Hs Hn. assert (G : forall m, (m <= Z.to_nat n)%nat -> exists s', loopM 0 (Z.of_nat m) f s = Some s' /\ P (Z.of_nat m) s').
  { induction m as [|m IH]; intros Hm; [exists s; split; [now apply loopM_nil|exact H0]|]. destruct (IH ltac:(lia)) as (s1 & E1 & P1). destruct (Hs (Z.of_nat m) s1 ltac:(lia) P1) as (s2 & E2 & P2). exists s2.
    replace (Z.of_nat (Datatypes.S m)) with (Z.of_nat m + 1) by lia. rewrite loopM_last by lia. rewrite E1. now split. }
  replace n with (Z.of_nat (Z.to_nat n)) by lia. now apply G.
Qed.
Lemma loopM_none {S} n (f : Z -> S -> option S) i : 0 <= i < n -> (forall s, f i s = None) -> forall s, loopM 0 n f s = None.
Proof.
  intros Hi Hf s. replace n with (i + 1 + Z.of_nat (Z.to_nat (n - i - 1))) by lia. generalize (Z.to_nat (n - i - 1)). intros m. induction m as [|m IH].
  - replace (i + 1 + Z.of_nat 0) with (i + 1) by lia. rewrite loopM_last by lia. destruct (loopM 0 i f s); cbn; [apply Hf|reflexivity].
  - replace (i + 1 + Z.of_nat (Datatypes.S m)) with (i + 1 + Z.of_nat m + 1) by lia. rewrite loopM_last by lia. now rewrite IH.
Qed.
Lemma quotient_none x : quotient x (RtoC 0) = None. Proof. unfold quotient. destruct (Ceq_dec _ _); congruence. Qed.
Lemma quotient_some x y : y <> RtoC 0 -> quotient x y = Some (Cdiv x y). Proof. intros. unfold quotient. destruct (Ceq_dec _ _); congruence. Qed.
Lemma row_fail n ld row (g : Z -> (Z -> C) -> C) d X : 0 < n -> d = RtoC 0 -> loopM 0 n (fun j X => bind (quotient (g j X) d) (fun v => Some (put X ld row j v))) X = None.
Proof. intros Hpos ->. apply (loopM_none n _ 0); [lia|]. intros s. now rewrite quotient_none. Qed.
Section Fill.
Variables (n ld row : Z) (g : Z -> (Z -> C) -> C) (d : C).
Hypothesis (Hn : 0 <= n <= ld) (Hrow : 0 <= row < n).
Hypothesis Hg : forall j X Y, 0 <= j < n -> (forall r c, 0 <= r < n -> 0 <= c < n -> r <> row -> at_ X ld r c = at_ Y ld r c) -> g j X = g j Y.
Lemma row_fill X : d <> RtoC 0 -> exists Y, loopM 0 n (fun j X => bind (quotient (g j X) d) (fun v => Some (put X ld row j v))) X = Some Y /\
  (forall r c, 0 <= r < n -> 0 <= c < n -> r <> row -> at_ Y ld r c = at_ X ld r c) /\ (forall c, 0 <= c < n -> at_ Y ld row c = Cdiv (g c X) d).
Proof.
  intros Hd. set (P := fun k Y => (forall r c, 0 <= r < n -> 0 <= c < n -> r <> row -> at_ Y ld r c = at_ X ld r c) /\ (forall c, 0 <= c < k -> at_ Y ld row c = Cdiv (g c X) d)).
  destruct (loopM_ok P n (fun j X => bind (quotient (g j X) d) (fun v => Some (put X ld row j v))) X) as (Y & E & PY); [|intros j Y Hj (I1 & I2)|lia|].
  - split; [reflexivity|intros; lia].
  - rewrite quotient_some by exact Hd. cbn [bind]. eexists. split; [reflexivity|]. split.
    + intros r c Hr Hc Hne. rewrite at_put_other by (lia || tauto). now apply I1.
    + intros c Hc. rewrite at_put by lia. rewrite Z.eqb_refl. cbn [andb]. destruct (Z.eqb_spec c j) as [->|]; [|apply I2; lia]. f_equal. apply Hg; assumption.
  - exists Y. split; [exact E|]. exact PY.
Qed.
End Fill.

Section Sktdsmx.
Variables (n m : Z) (vT : Z -> C) (B : Z -> C) (ldB ldC : Z).
Hypothesis (Hm : 1 <= m) (Hn : n = 2 * m) (HC : n <= ldC).
Lemma half_count : (n - 1) / 2 = m - 1. Proof. subst n. replace (2 * m - 1) with (1 + (m - 1) * 2) by lia. rewrite Z.div_add by lia. cbn. lia. Qed.
Lemma Copp_nonzero z : z <> RtoC 0 -> Copp z <> RtoC 0.
Proof. intros H E. apply H. replace z with (Copp (Copp z)) by ring. rewrite E. ring. Qed.
Lemma sktdsmx_solves X : (forall k, 0 <= k < m -> vT (2 * k) <> RtoC 0) ->
  exists Y, sktdsmx n vT B ldB X ldC = Some Y /\ forall i j, 0 <= i < n -> 0 <= j < n ->
    product n (tridiagonal (fun i => Copp (vT i))) (at_ Y ldC) i j = at_ B ldB i j.
Proof.
  intros Hv. unfold sktdsmx. rewrite half_count.
  destruct (row_fill n ldC 1 (fun j _ => at_ B ldB 0 j) (Copp (vT 0)) ltac:(lia) ltac:(lia) ltac:(reflexivity) X) as (X1 & E1 & K1 & V1). { apply Copp_nonzero. exact (Hv 0 ltac:(lia)). }
  rewrite E1. cbn [bind].
  set (P2 := fun k Y => (forall c, 0 <= c < n -> Cmult (Copp (vT 0)) (at_ Y ldC 1 c) = at_ B ldB 0 c) /\
    (forall q c, 1 <= q <= k -> 0 <= c < n -> Cplus (Cmult (vT (2 * q - 1)) (at_ Y ldC (2 * q - 1) c)) (Cmult (Copp (vT (2 * q))) (at_ Y ldC (2 * q + 1) c)) = at_ B ldB (2 * q) c)).
  assert (D : forall a b, b <> RtoC 0 -> Cmult b (Cdiv a b) = a). { intros a b Hb. field. exact Hb. }
  destruct (loopM_ok P2 (m - 1) (fun k X => let i := 2 * (k + 1) in loopM 0 n (fun j X => bind (quotient (Cminus (at_ B ldB i j) (Cmult (at_ X ldC (i - 1) j) (vT (i - 1)))) (Copp (vT i))) (fun v => Some (put X ldC (i + 1) j v))) X) X1) as (X2 & E2 & P2').
  { split; [|intros; lia]. intros c Hc. rewrite V1 by lia. apply D. apply Copp_nonzero. exact (Hv 0 ltac:(lia)). }
  { intros k Y Hk (I1 & I2). cbv zeta. set (i := 2 * (k + 1)).
    destruct (row_fill n ldC (i + 1) (fun j X => Cminus (at_ B ldB i j) (Cmult (at_ X ldC (i - 1) j) (vT (i - 1)))) (Copp (vT i)) ltac:(lia) ltac:(lia)) with (X := Y) as (Z1 & E & K & V).
    - intros j U W Hj HUW. rewrite HUW by lia. reflexivity.
    - apply Copp_nonzero. apply (Hv (k + 1)). lia.
    - exists Z1. split; [exact E|]. split.
      + intros c Hc. rewrite K by lia. now apply I1.
      + intros q c Hq Hc. destruct (Z.eq_dec q (k + 1)) as [->|]; [|rewrite !K by lia; apply I2; lia]. fold i. rewrite V, K by lia. rewrite D by (apply Copp_nonzero; apply (Hv (k + 1)); lia). ring. }
  { lia. }
  cbv zeta in E2. rewrite E2. cbn [bind].
  destruct (row_fill n ldC (n - 2) (fun j _ => at_ B ldB (n - 1) j) (vT (n - 2)) ltac:(lia) ltac:(lia) ltac:(reflexivity) X2) as (X3 & E3 & K3 & V3). { replace (n - 2) with (2 * (m - 1)) by lia. apply Hv. lia. }
  rewrite E3. cbn [bind].
  set (P4 := fun k Y => P2 (m - 1) Y /\ (forall c, 0 <= c < n -> Cmult (vT (n - 2)) (at_ Y ldC (n - 2) c) = at_ B ldB (n - 1) c) /\
    (forall q c, 0 <= q < k -> 0 <= c < n -> let i := n - 3 - 2 * q in Cplus (Cmult (vT (i - 1)) (at_ Y ldC (i - 1) c)) (Cmult (Copp (vT i)) (at_ Y ldC (i + 1) c)) = at_ B ldB i c)).
  assert (Hlast : vT (n - 2) <> RtoC 0) by (replace (n - 2) with (2 * (m - 1)) by lia; apply Hv; lia).
  destruct (loopM_ok P4 (m - 1) (fun k X => let i := n - 3 - 2 * k in loopM 0 n (fun j X => bind (quotient (Cplus (at_ B ldB i j) (Cmult (at_ X ldC (i + 1) j) (vT i))) (vT (i - 1))) (fun v => Some (put X ldC (i - 1) j v))) X) X3) as (X4 & E4 & (I1 & I2) & I3 & I4).
  { split; [|split; [|intros; lia]].
    - destruct P2' as (I1 & I2). split; [intros c Hc; rewrite K3 by lia; now apply I1|]. intros q c Hq Hc. rewrite !K3 by lia. apply I2; lia.
    - intros c Hc. rewrite V3 by lia. apply D. exact Hlast. }
  { intros k Y Hk ((I1 & I2) & I3 & I4). cbv zeta. set (i := n - 3 - 2 * k).
    assert (Hvi : vT (i - 1) <> RtoC 0). { replace (i - 1) with (2 * (m - 2 - k)) by (unfold i; lia). apply Hv. lia. }
    destruct (row_fill n ldC (i - 1) (fun j X => Cplus (at_ B ldB i j) (Cmult (at_ X ldC (i + 1) j) (vT i))) (vT (i - 1)) ltac:(lia) ltac:(lia)) with (X := Y) as (Z1 & E & K & V).
    - intros j U W Hj HUW. rewrite HUW by lia. reflexivity.
    - exact Hvi.
    - exists Z1. split; [exact E|]. split; [split|split].
      + intros c Hc. rewrite K by lia. now apply I1.
      + intros q c Hq Hc. rewrite !K by lia. apply I2; lia.
      + intros c Hc. rewrite K by lia. now apply I3.
      + intros q c Hq Hc. cbv zeta. destruct (Z.eq_dec q k) as [->|]; [|rewrite !K by lia; apply I4; lia]. fold i. rewrite V, K by lia. rewrite D by exact Hvi. ring. }
  { lia. }
  cbv zeta in E4. exists X4. split; [exact E4|].
  assert (T : forall i j, 0 <= i < n -> 0 <= j < n -> product n (tridiagonal (fun i => Copp (vT i))) (at_ X4 ldC) i j =
    Cplus (if i =? 0 then RtoC 0 else Cmult (vT (i - 1)) (at_ X4 ldC (i - 1) j)) (if i =? n - 1 then RtoC 0 else Cmult (Copp (vT i)) (at_ X4 ldC (i + 1) j))).
  { intros i j Hi Hj. unfold product. transitivity (Cplus (csum (zrange 0 n) (fun k => Cmult (delta (i - 1) k) (if i =? 0 then RtoC 0 else Cmult (vT (i - 1)) (at_ X4 ldC (i - 1) j)))) (csum (zrange 0 n) (fun k => Cmult (delta (i + 1) k) (if i =? n - 1 then RtoC 0 else Cmult (Copp (vT i)) (at_ X4 ldC (i + 1) j))))).
    - rewrite <- csum_add. apply csum_ext. intros k Hk. apply zrange_in in Hk. unfold tridiagonal, delta. destruct (Z.eq_dec k (i + 1)) as [E|N1]; [|destruct (Z.eq_dec k (i - 1)) as [E|N2]];
        destruct (Z.eqb_spec k (i + 1)), (Z.eqb_spec i (k + 1)), (Z.eqb_spec (i - 1) k), (Z.eqb_spec (i + 1) k), (Z.eqb_spec i 0), (Z.eqb_spec i (n - 1)); try lia; try (rewrite E; ring); ring.
    - f_equal.
      + destruct (Z.eqb_spec i 0) as [->|]; [apply csum_zero; intros; ring|]. apply (csum_delta (zrange 0 n) (i - 1) (fun _ => Cmult (vT (i - 1)) (at_ X4 ldC (i - 1) j))); [apply zrange_NoDup|apply zrange_in; lia].
      + destruct (Z.eqb_spec i (n - 1)) as [->|]; [apply csum_zero; intros; ring|]. apply (csum_delta (zrange 0 n) (i + 1) (fun _ => Cmult (Copp (vT i)) (at_ X4 ldC (i + 1) j))); [apply zrange_NoDup|apply zrange_in; lia]. }
  intros i j Hi Hj. rewrite T by assumption. destruct (Z.eqb_spec i 0) as [->|Hi0].
  - destruct (Z.eqb_spec 0 (n - 1)); [lia|]. rewrite <- (I1 j Hj). cbn. ring.
  - destruct (Z.eqb_spec i (n - 1)) as [->|Hi1].
    + rewrite <- (I3 j Hj). replace (n - 1 - 1) with (n - 2) by lia. ring.
    + destruct (Z.Even_or_Odd i) as [(q & Hq)|(q & Hq)].
      * subst i. apply I2; lia.
      * specialize (I4 (m - 2 - q) j ltac:(lia) Hj). cbv zeta in I4. replace (n - 3 - 2 * (m - 2 - q)) with i in I4 by lia. exact I4.
Qed.
Lemma sktdsmx_fails X k : 0 <= k < m -> vT (2 * k) = RtoC 0 -> sktdsmx n vT B ldB X ldC = None.
Proof.
  intros Hk Hv. unfold sktdsmx. rewrite half_count. destruct (Z.eq_dec k 0) as [->|Hk0].
  - replace (2 * 0) with 0 in Hv by lia. rewrite (row_fail n ldC 1 (fun j _ => at_ B ldB 0 j) (Copp (vT 0))); [reflexivity|lia|]. rewrite Hv. ring.
  - destruct (loopM 0 n _ X) as [X1|]; [|reflexivity]. cbn [bind]. rewrite (loopM_none (m - 1) _ (k - 1)); [reflexivity|lia|]. intros s. cbv zeta. replace (2 * (k - 1 + 1)) with (2 * k) by lia.
    apply (row_fail n ldC (2 * k + 1) (fun j X => Cminus (at_ B ldB (2 * k) j) (Cmult (at_ X ldC (2 * k - 1) j) (vT (2 * k - 1)))) (Copp (vT (2 * k)))); [lia|]. rewrite Hv. ring.
Qed.
End Sktdsmx.
