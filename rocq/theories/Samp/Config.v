(** Electron tables: one invariant for both representations. *)
From Coq Require Import ZArith List Bool Lia.
From Verif Require Import Base.ZLoop Base.Checked Proj.Model Proj.Spec Samp.Prog Samp.Model Samp.Spec.
Import ListNotations.
Local Open Scope Z_scope.

Lemma cell_inj N r s r' s' : 0 <= r < N -> 0 <= r' < N -> 0 <= s <= 1 -> 0 <= s' <= 1 ->
  r + s * N = r' + s' * N -> r = r' /\ s = s'.
Proof.
  intros. assert (s = 0 \/ s = 1) as [-> | ->] by lia; assert (s' = 0 \/ s' = 1) as [-> | ->] by lia; lia.
Qed.
Lemma cell_range N r s : 0 <= r < N -> 0 <= s <= 1 -> 0 <= r + s * N < 2 * N.
Proof. intros. assert (s = 0 \/ s = 1) as [-> | ->] by lia; lia. Qed.
Lemma cell_split N i : 0 <= i < 2 * N -> exists r s, 0 <= r < N /\ 0 <= s <= 1 /\ i = r + s * N.
Proof.
  intros. destruct (Z_lt_le_dec i N); [exists i, 0|exists (i - N), 1]; lia.
Qed.

Lemma move_count M (spn : Z -> Z) x t : 0 <= x < M ->
  zsum (zrange 0 M) (fun y => if upd spn x t y =? 0 then 1 else 0)
  = zsum (zrange 0 M) (fun y => if spn y =? 0 then 1 else 0) + (if t =? 0 then 1 else 0) - (if spn x =? 0 then 1 else 0).
Proof.
  intros Hx. rewrite (zsum_range_split1 0 M x) by lia.
  rewrite (zsum_range_split1 0 M x (fun y => if spn y =? 0 then 1 else 0)) by lia.
  rewrite upd_same.
  rewrite (zsum_ext _ (fun x0 => if x0 =? x then 0 else if upd spn x t x0 =? 0 then 1 else 0)
    (fun x0 => if x0 =? x then 0 else if spn x0 =? 0 then 1 else 0)); [lia|].
  intros y _. rewrite upd_get. destruct (y =? x); reflexivity.
Qed.

Section Cons.
Variables (N M c : Z).   (* sites, electrons, offset of the labels of spin 1 *)

Record Cons (idx cfg num spn : Z -> Z) : Prop := {
  k_elec : forall x, 0 <= x < M -> 0 <= idx x < N /\ 0 <= spn x <= 1 /\ 0 <= x - spn x * c /\
             cfg (idx x + spn x * N) = x - spn x * c;
  k_site : forall r s, 0 <= r < N -> 0 <= s <= 1 ->
    (cfg (r + s * N) = -1 /\ num (r + s * N) = 0) \/
    (exists x, 0 <= x < M /\ idx x = r /\ spn x = s /\ num (r + s * N) = 1)
}.

Lemma Cons_ext idx cfg num spn idx' cfg' num' spn' :
  (forall i, 0 <= i < M -> idx i = idx' i) -> (forall i, 0 <= i < 2 * N -> cfg i = cfg' i) ->
  (forall i, 0 <= i < 2 * N -> num i = num' i) -> (forall i, 0 <= i < M -> spn i = spn' i) ->
  Cons idx cfg num spn -> Cons idx' cfg' num' spn'.
Proof.
  intros E1 E2 E3 E4 [H1 H2]. constructor.
  - intros x Hx. destruct (H1 x Hx) as (A & B & C & D). rewrite <- E1, <- E4 by assumption.
    repeat (split; [assumption|]). rewrite <- E2 by (apply cell_range; assumption). assumption.
  - intros r s Hr Hs. assert (Hi := cell_range N r s Hr Hs). rewrite <- E2, <- E3 by assumption.
    destruct (H2 r s Hr Hs) as [A|(x & A & B & C & D)]; [left; assumption|right].
    exists x. rewrite <- E1, <- E4 by assumption. auto.
Qed.

Section One.
Variables idx cfg num spn : Z -> Z.
Hypothesis H : Cons idx cfg num spn.

Lemma Cons_inj x y : 0 <= x < M -> 0 <= y < M -> idx x = idx y -> spn x = spn y -> x = y.
Proof.
  intros Hx Hy E1 E2. destruct H as [H1 H2].
  destruct (H1 x Hx) as (_ & _ & _ & A). destruct (H1 y Hy) as (_ & _ & _ & B).
  rewrite E1, E2 in A. rewrite A in B. lia.
Qed.
Lemma Cons_num1 x : 0 <= x < M -> num (idx x + spn x * N) = 1.
Proof.
  intros Hx. destruct H as [H1 H2]. destruct (H1 x Hx) as (A & B & C & D).
  destruct (H2 _ _ A B) as [(E & _)|(y & _ & _ & _ & E)]; [lia|assumption].
Qed.
Lemma Cons_free r s : 0 <= r < N -> 0 <= s <= 1 -> (cfg (r + s * N) = -1 <-> num (r + s * N) = 0).
Proof.
  intros Hr Hs. destruct H as [H1 H2]. destruct (H2 r s Hr Hs) as [(A & B)|(x & A & B & C & D)].
  - tauto.
  - destruct (H1 x A) as (_ & _ & E & F). rewrite B, C in *. split; intros; lia.
Qed.
Lemma Cons_at r s : 0 <= r < N -> 0 <= s <= 1 -> cfg (r + s * N) <> -1 ->
  exists x, 0 <= x < M /\ idx x = r /\ spn x = s /\ cfg (r + s * N) = x - s * c /\ num (r + s * N) = 1.
Proof.
  intros Hr Hs Hc. destruct H as [H1 H2]. destruct (H2 r s Hr Hs) as [(A & B)|(x & A & B & C & D)]; [tauto|].
  exists x. destruct (H1 x A) as (_ & _ & E & F). rewrite B, C in *. auto.
Qed.
Lemma Cons_occ01 : occ01 N num.
Proof.
  intros i Hi. destruct (cell_split N i Hi) as (r & s & Hr & Hs & ->).
  destruct H as [H1 H2]. destruct (H2 r s Hr Hs) as [(A & B)|(x & A & B & C & D)]; auto.
Qed.

(** the number of electrons of spin s, counted on the sites and counted on the electrons *)
Lemma Cons_count s : 0 <= s <= 1 ->
  zsum (zrange 0 N) (fun r => num (r + s * N)) = zsum (zrange 0 M) (fun x => if spn x =? s then 1 else 0).
Proof.
  intros Hs.
  rewrite (zsum_ext _ _ (fun r => zsum (zrange 0 M) (fun x => if spn x =? s then if idx x =? r then 1 else 0 else 0))).
  - rewrite zsum_swap. apply zsum_ext. intros x Hx. apply zrange_in in Hx.
    destruct (Z.eqb_spec (spn x) s) as [Es|Es]; [|apply zsum_zero; reflexivity].
    destruct (k_elec _ _ _ _ H x Hx) as (A & _).
    rewrite (zsum_range_split1 0 N (idx x)) by lia. rewrite Z.eqb_refl.
    rewrite zsum_zero; [reflexivity|]. intros r Hr. cbn beta.
    destruct (Z.eqb_spec r (idx x)) as [e|e]; [reflexivity|].
    destruct (Z.eqb_spec (idx x) r); [congruence|reflexivity].
  - intros r Hr. apply zrange_in in Hr.
    destruct (k_site _ _ _ _ H r s Hr Hs) as [(A & B)|(x & A & B & C & D)].
    + rewrite B. symmetry. apply zsum_zero. intros x Hx. apply zrange_in in Hx.
      destruct (Z.eqb_spec (spn x) s) as [Es|]; [|reflexivity].
      destruct (Z.eqb_spec (idx x) r) as [Er|]; [|reflexivity].
      destruct (k_elec _ _ _ _ H x Hx) as (_ & _ & E & F). rewrite Es, Er, A in *. lia.
    + rewrite D. rewrite (zsum_range_split1 0 M x) by lia.
      rewrite C, B, !Z.eqb_refl. rewrite zsum_zero; [reflexivity|].
      intros y Hy. apply zrange_in in Hy. cbn beta. destruct (Z.eqb_spec y x) as [e|e]; [reflexivity|].
      destruct (Z.eqb_spec (spn y) s) as [Es|]; [|reflexivity].
      destruct (Z.eqb_spec (idx y) r) as [Er|]; [|reflexivity].
      exfalso. apply e. apply Cons_inj; congruence || assumption.
Qed.

(** electron x moves to the free cell (r', t) *)
Variables (x r' t : Z).
Hypothesis Hx : 0 <= x < M.
Hypothesis Hr' : 0 <= r' < N.
Hypothesis Ht : 0 <= t <= 1.
Hypothesis Hfree : cfg (r' + t * N) = -1.
Let r := idx x.
Let s := spn x.

Lemma Cons_legal : legal_hop N r s r' t num.
Proof.
  unfold r, s. destruct (k_elec _ _ _ _ H x Hx) as (A & B & C & D).
  repeat (split; [lia|]). split; [now apply Cons_num1|left].
  now apply Cons_free.
Qed.
Lemma Cons_cell_ne : r + s * N <> r' + t * N.
Proof.
  intros E. destruct (k_elec _ _ _ _ H x Hx) as (A & B & C & D).
  unfold r, s in E. rewrite E in D. lia.
Qed.
Lemma Cons_move : 0 <= x - t * c ->
  Cons (upd idx x r') (upd (upd cfg (r + s * N) (-1)) (r' + t * N) (x - t * c))
       (hop N r s r' t num) (upd spn x t).
Proof.
  intros Hlab. destruct (k_elec _ _ _ _ H x Hx) as (A & B & C & D). fold r s in A, B, C, D.
  assert (Hne := Cons_cell_ne). constructor.
  - intros y Hy. rewrite !upd_get. destruct (Z.eqb_spec y x) as [->|Hyx].
    + rewrite Z.eqb_refl. lia.
    + destruct (k_elec _ _ _ _ H y Hy) as (A' & B' & C' & D').
      repeat (split; [lia|]).
      destruct (Z.eqb_spec (idx y + spn y * N) (r' + t * N)) as [E|E].
      { rewrite E in D'. lia. }
      destruct (Z.eqb_spec (idx y + spn y * N) (r + s * N)) as [E'|E']; [|assumption].
      apply cell_inj in E'; [|assumption..]. destruct E' as (E1 & E2).
      exfalso. apply Hyx. apply Cons_inj; assumption.
  - intros q u Hq Hu. unfold hop. rewrite !upd_get.
    destruct (Z.eqb_spec (q + u * N) (r' + t * N)) as [E|E].
    + right. apply cell_inj in E; [|assumption..]. destruct E as (-> & ->).
      exists x. rewrite !upd_same. auto.
    + destruct (Z.eqb_spec (q + u * N) (r + s * N)) as [E'|E']; [left; auto|].
      destruct (k_site _ _ _ _ H q u Hq Hu) as [A1|(y & A1 & A2 & A3 & A4)]; [left; assumption|right].
      exists y. destruct (Z.eq_dec y x) as [->|Hyx].
      { exfalso. apply E'. unfold r, s. now rewrite A2, A3. }
      rewrite !upd_other by assumption. auto.
Qed.
End One.
End Cons.

(** undoing a move restores every cell *)
Lemma undo_move (num : Z -> Z) a b v u j : a <> b -> num a = v -> num b = u ->
  forall v1 u1, upd (upd (upd (upd num a v1) b u1) a v) b u j = num j.
Proof.
  intros Hab Ha Hb v1 u1. rewrite !upd_get.
  destruct (Z.eqb_spec j b) as [->|]; [congruence|]. destruct (Z.eqb_spec j a) as [->|]; congruence.
Qed.
Lemma undo_one (num : Z -> Z) a v u j : num a = v -> upd (upd num a u) a v j = num j.
Proof. intros Ha. rewrite !upd_get. destruct (Z.eqb_spec j a) as [->|]; congruence. Qed.
Lemma upd_ext {V} (f g : Z -> V) i v : (forall j, f j = g j) -> forall j, upd f i v j = upd g i v j.
Proof. intros H j. rewrite !upd_get. destruct (j =? i); auto. Qed.

(** the two public statements in terms of the invariant *)
Definition spn0 (Ne : Z) (x : Z) : Z := if x <? Ne then 0 else 1.

Lemma consistent_Cons N Ne w : 0 < Ne ->
  (consistent N Ne w <-> Cons N (2 * Ne) Ne (eleIdx w) (eleCfg w) (eleNum w) (spn0 Ne)).
Proof.
  intros Hne. unfold spn0. split; intros [H1 H2]; constructor.
  - intros x Hx. destruct (Z.ltb_spec x Ne).
    + destruct (H1 x 0 ltac:(lia) ltac:(lia)) as (r & A & B & C).
      rewrite ?Z.mul_0_l, ?Z.add_0_r in *. subst r. rewrite C. lia.
    + destruct (H1 (x - Ne) 1 ltac:(lia) ltac:(lia)) as (r & A & B & C).
      replace (x - Ne + 1 * Ne) with x in A by lia. rewrite A, C. lia.
  - intros r s Hr Hs. destruct (H2 r s Hr Hs) as [A|(mi & A & B & C & D)]; [left; exact A|right].
    exists (mi + s * Ne). assert (s = 0 \/ s = 1) as [-> | ->] by lia;
      destruct (Z.ltb_spec (mi + 0 * Ne) Ne); destruct (Z.ltb_spec (mi + 1 * Ne) Ne); repeat split; lia || assumption.
  - intros mi s Hm Hs. specialize (H1 (mi + s * Ne)).
    assert (s = 0 \/ s = 1) as [-> | ->] by lia;
      [destruct (Z.ltb_spec (mi + 0 * Ne) Ne)|destruct (Z.ltb_spec (mi + 1 * Ne) Ne)]; try lia;
      destruct H1 as (A & _ & _ & B); try lia; eexists; (split; [reflexivity|]); split; try lia; rewrite B; lia.
  - intros r s Hr Hs. destruct (H2 r s Hr Hs) as [A|(x & A & B & C & D)]; [left; exact A|right].
    destruct (H1 x A) as (_ & _ & E & F). rewrite B, C in F. rewrite C in E. exists (x - s * Ne).
    repeat split; try assumption; try lia.
    + destruct (x <? Ne) eqn:L; subst s; lia.
    + replace (x - s * Ne + s * Ne) with x by lia. assumption.
Qed.
Lemma consistent_fsz_Cons N Ne w :
  consistent_fsz N Ne w <-> Cons N (2 * Ne) 0 (eleIdx w) (eleCfg w) (eleNum w) (eleSpn w).
Proof.
  split; intros [H1 H2]; constructor.
  - intros x Hx. destruct (H1 x Hx) as (r & s & A & B & C & D & E). subst r s. rewrite E. lia.
  - intros r s Hr Hs. destruct (H2 r s Hr Hs) as [A|(x & A & B & C & D & E)]; [left; exact A|right].
    exists x. auto.
  - intros x Hx. destruct (H1 x Hx) as (A & B & C & D). exists (eleIdx w x), (eleSpn w x).
    repeat split; try lia.
  - intros r s Hr Hs. destruct (H2 r s Hr Hs) as [A|(x & A & B & C & D)]; [left; exact A|right].
    exists x. destruct (H1 x A) as (_ & _ & _ & E). rewrite B, C in E.
    repeat split; try assumption; lia.
Qed.
