(** Reading initial values. *)
From Coq Require Import ZArith List Bool Lia String Reals.
From Coquelicot Require Import Coquelicot.
From Verif Require Import Base.RSum Base.ZLoop Mem.Model Mem.Spec Mem.Proofs File.Model File.Spec.
Import ListNotations.
Local Open Scope Z_scope.

Section In.
Variable S : sizes.
Hypothesis V : valid S.
Variables (v : Z -> C) (w : Z -> R).
Definition three (i : Z) : list R := [Re (v i); Im (v i); w i].

Lemma read_block_ok m off c tl r p : 0 <= m -> rest r = (flat_map three (zrange c (c + m)) ++ tl)%list ->
  exists r' p', read_block off m (r, p) = (r', p') /\ rest r' = tl /\ forall j, p' j = if (off <=? j) && (j <? off + m) then v (c + (j - off)) else p j.
Proof.
  intros Hm Hr. unfold read_block. match goal with |- context [loop 0 m ?f _] => set (F := f) end.
  assert (L := loop_inv (fun k (st : reader * (Z -> C)) => rest (fst st) = (flat_map three (zrange (c + k) (c + m)) ++ tl)%list /\
    forall j, snd st j = if (off <=? j) && (j <? off + k) then v (c + (j - off)) else p j) 0 m F (r, p) Hm). cbn beta in L.
  exists (fst (loop 0 m F (r, p))), (snd (loop 0 m F (r, p))). split; [apply surjective_pairing|]. cbn [fst snd] in L.
  assert (H : rest (fst (loop 0 m F (r, p))) = (flat_map three (zrange (c + m) (c + m)) ++ tl)%list /\
    forall j, snd (loop 0 m F (r, p)) j = if (off <=? j) && (j <? off + m) then v (c + (j - off)) else p j).
  { apply L.
    - rewrite Z.add_0_r. split; [exact Hr|]. intros j. replace ((off <=? j) && (j <? off + 0)) with false by lia. reflexivity.
    - intros k [r0 p0] Hk [H1 H2]. cbn [fst snd] in *. rewrite (zrange_cons (c + k)) in H1 by lia. cbn [flat_map three app] in H1. unfold F. cbn [fst snd]. destruct r0 as [f a b x]. cbn [rest] in H1. subst f.
      cbn [scan3 scan rest tmp_real tmp_comp xtmp]. split; [f_equal; f_equal; f_equal; lia|]. intros j. rewrite upd_get. destruct (Z.eqb_spec j (off + k)) as [->|X].
      + replace ((off <=? off + k) && (off + k <? off + (k + 1))) with true by lia. replace (c + (off + k - off)) with (c + k) by lia. now destruct (v (c + k)).
      + rewrite H2. replace ((off <=? j) && (j <? off + (k + 1))) with ((off <=? j) && (j <? off + k)) by lia. reflexivity. }
  destruct H as [H1 H2]. rewrite zrange_nil in H1 by lia. now split.
Qed.
Lemma sizes_nonneg : 0 <= NProj S /\ 0 <= NRBM S /\ 0 <= NSlater S /\ 0 <= NOptTrans S.
Proof.
  destruct V. unfold NSlater, NOptTrans, NProj, NRBM, NRBM_PhysLayerIdx, NRBM_HiddenLayerIdx, NRBM_PhysHiddenIdx. repeat split; try lia. destruct (0 <? FlagOptTrans S); lia.
Qed.
Lemma read_init_ok g p : exists p', read_init_parameter S (flat_map three (zrange 0 (2 + NPara S))) g p = Some p' /\
  forall j, p' j = if (0 <=? j) && (j <? NPara S) then v (2 + j) else p j.
Proof.
  destruct g as [[g1 g2] g3]. unfold read_init_parameter. destruct sizes_nonneg as (N1 & N2 & N3 & N4).
  assert (EP : NPara S = NProj S + FlagRBM S * NRBM S + NSlater S + NOptTrans S) by (unfold NPara; rewrite (v_pbf S V); ring).
  assert (FR : 0 <= FlagRBM S * NRBM S) by (destruct (v_flag S V) as [-> | ->]; lia).
  assert (O1 : off_Slater S = NProj S + FlagRBM S * NRBM S) by (unfold off_Slater; rewrite (v_pbf S V); ring).
  assert (O2 : off_OptTrans S = NProj S + FlagRBM S * NRBM S + NSlater S) by (unfold off_OptTrans; rewrite (v_pbf S V); ring).
  rewrite (zrange_app 0 2) by lia. rewrite flat_map_app. change (zrange 0 2) with [0; 1]. set (body := flat_map three (zrange 2 (2 + NPara S))).
  cbn [flat_map three app List.length]. set (k := List.length body). cbn [read_init rest fst snd].
  replace (loop 1 6 (fun _ r => scan1 r) _) with (Reader body g1 g2 (w 1)) by (unfold loop; change (zrange 1 6) with [1; 2; 3; 4; 5]; reflexivity).
  (* projection factors *)
  destruct (read_block_ok (NProj S) off_Proj 2 (flat_map three (zrange (2 + NProj S) (2 + NPara S))) (Reader body g1 g2 (w 1)) p N1) as (r1 & p1 & E1 & R1 & P1).
  { cbn [rest]. unfold body. rewrite <- flat_map_app, <- zrange_app by lia. reflexivity. }
  rewrite E1.
  (* machine *)
  assert (B2 : exists r2 p2, (if FlagRBM S =? 0 then (r1, p1) else read_block (off_RBM S) (NRBM S) (r1, p1)) = (r2, p2) /\ rest r2 = flat_map three (zrange (2 + off_Slater S) (2 + NPara S)) /\
    forall j, p2 j = if (0 <=? j) && (j <? off_Slater S) then v (2 + j) else p j).
  { destruct (v_flag S V) as [F|F]; rewrite F in *; cbn [Z.eqb].
    - exists r1, p1. split; [reflexivity|]. split; [rewrite R1, O1; do 2 f_equal; lia|]. intros j. rewrite P1, O1. unfold off_Proj. replace ((0 <=? j) && (j <? 0 + NProj S)) with ((0 <=? j) && (j <? NProj S + 0 * NRBM S)) by lia.
      now replace (2 + (j - 0)) with (2 + j) by lia.
    - destruct (read_block_ok (NRBM S) (off_RBM S) (2 + NProj S) (flat_map three (zrange (2 + NProj S + NRBM S) (2 + NPara S))) r1 p1 N2) as (r2 & p2 & E2 & R2 & P2).
      { rewrite R1. rewrite <- flat_map_app, <- zrange_app by lia. reflexivity. }
      exists r2, p2. split; [exact E2|]. split; [rewrite R2, O1; do 2 f_equal; lia|]. intros j. rewrite P2, P1, O1. unfold off_RBM, off_Proj.
      destruct (Z.leb_spec (NProj S) j) as [A|A], (Z.ltb_spec j (NProj S + NRBM S)) as [B|B], (Z.leb_spec 0 j) as [A'|A']; cbn [andb];
        replace (j <? NProj S + 1 * NRBM S) with (j <? NProj S + NRBM S) by lia; try (exfalso; lia).
      + replace (j <? NProj S + NRBM S) with true by lia. f_equal. lia.
      + replace (j <? 0 + NProj S) with false by lia. replace (j <? NProj S + NRBM S) with false by lia. reflexivity.
      + replace (j <? 0 + NProj S) with true by lia. replace (j <? NProj S + NRBM S) with true by lia. f_equal. lia.
      + reflexivity. }
  destruct B2 as (r2 & p2 & E2 & R2 & P2). rewrite E2.
  (* orbitals *)
  destruct (read_block_ok (NSlater S) (off_Slater S) (2 + off_Slater S) (flat_map three (zrange (2 + off_OptTrans S) (2 + NPara S))) r2 p2 N3) as (r3 & p3 & E3 & R3 & P3).
  { rewrite R2. replace (2 + off_OptTrans S) with (2 + off_Slater S + NSlater S) by lia. rewrite <- flat_map_app, <- zrange_app by lia. reflexivity. }
  rewrite E3.
  destruct (read_block_ok (NOptTrans S) (off_OptTrans S) (2 + off_OptTrans S) [] r3 p3 N4) as (r4 & p4 & E4 & R4 & P4).
  { rewrite R3, app_nil_r. do 2 f_equal. lia. }
  rewrite E4. cbn [fst snd]. rewrite R4. exists p4. split; [reflexivity|]. intros j. rewrite P4, P3, P2.
  destruct ((off_OptTrans S <=? j) && (j <? off_OptTrans S + NOptTrans S)) eqn:C1.
  - replace ((0 <=? j) && (j <? NPara S)) with true by lia. f_equal. lia.
  - destruct ((off_Slater S <=? j) && (j <? off_Slater S + NSlater S)) eqn:C2.
    + replace ((0 <=? j) && (j <? NPara S)) with true by lia. f_equal. lia.
    + replace ((0 <=? j) && (j <? NPara S)) with ((0 <=? j) && (j <? off_Slater S)) by lia. reflexivity.
Qed.

(** ** files of one family *)
Definition sect (off num : Z) : list line := map (fun i => (i, Re (v (2 + off + i)), Im (v (2 + off + i)))) (zrange 0 num).
Lemma read_body_ok off num idx0 re0 im0 p : 0 <= off -> 0 <= num -> off + num <= NPara S ->
  exists p', read_body S off num idx0 (sect off num) re0 im0 p = Some p' /\ forall j, p' j = if (off <=? j) && (j <? off + num) then v (2 + j) else p j.
Proof.
  intros Ho Hn Hp. unfold read_body. match goal with |- context [loop 0 num ?f _] => set (F := f) end.
  assert (L := loop_inv (fun k st => exists i a b p', st = Some (map (fun i => (i, Re (v (2 + off + i)), Im (v (2 + off + i)))) (zrange k num), i, a, b, p') /\
    forall j, p' j = if (off <=? j) && (j <? off + k) then v (2 + j) else p j) 0 num F (Some (sect off num, idx0, re0, im0, p)) Hn). cbn beta in L.
  destruct L as (i & a & b & p' & E & H).
  - exists idx0, re0, im0, p. split; [reflexivity|]. intros j. replace ((off <=? j) && (j <? off + 0)) with false by lia. reflexivity.
  - intros k st Hk (i & a & b & p' & -> & H). unfold F. rewrite (zrange_cons k) by lia. cbn [map]. replace ((0 <=? off + k) && (off + k <? NPara S)) with true by lia.
    do 4 eexists. split; [reflexivity|]. intros j. rewrite upd_get. destruct (Z.eqb_spec j (off + k)) as [->|X].
    + replace ((off <=? off + k) && (off + k <? off + (k + 1))) with true by lia. replace (2 + (off + k)) with (2 + off + k) by lia. now destruct (v (2 + off + k)).
    + rewrite H. replace ((off <=? j) && (j <? off + (k + 1))) with ((off <=? j) && (j <? off + k)) by lia. reflexivity.
  - exists p'. split; [exact (f_equal (option_map snd) E)|exact H].
Qed.
(** every file named is one of these or of no interest *)
Definition good (names : string -> entry) (e : string * option ((Z -> bool) * Z * Z)) : Prop :=
  names (fst e) = Absent \/
  match snd e with
  | None => exists head body, names (fst e) = Given head body
  | Some (check, off, num) => exists head, names (fst e) = Given head (sect off num) /\ check head = true /\ 0 <= off /\ 0 <= num /\ off + num <= NPara S
  end.
Lemma read_keywords_ok names re0 im0 kws : forall p, List.Forall (good names) kws ->
  exists p', read_keywords S kws names re0 im0 0 p = Done p' /\ forall j, 0 <= j < NPara S ->
    (p' j = v (2 + j) \/ p' j = p j) /\
    ((exists k check off num head body, In (k, Some (check, off, num)) kws /\ names k = Given head body /\ off <= j < off + num) -> p' j = v (2 + j)).
Proof.
  induction kws as [|[k fam] kws IH]; intros p H; cbn [read_keywords].
  - exists p. split; [reflexivity|]. intros j Hj. split; [now right|]. intros (? & ? & ? & ? & ? & ? & [] & _).
  - inversion H as [|? ? H1 H2]; subst. unfold good in H1. cbn [fst snd] in H1. destruct H1 as [H1|H1].
    + rewrite H1. destruct (IH p H2) as (p' & E & Q). exists p'. split; [exact E|]. intros j Hj. destruct (Q j Hj) as [Q1 Q2]. split; [exact Q1|]. intros (k' & check & off & num & head & body & [X|X] & Y & Z).
      * injection X as -> _. congruence.
      * apply Q2. now exists k', check, off, num, head, body.
    + destruct fam as [[[check off] num]|].
      * destruct H1 as (head & H1 & Hc & B1 & B2 & B3). rewrite H1, Hc. cbn [negb]. destruct (read_body_ok off num head re0 im0 p B1 B2 B3) as (p1 & E1 & Q1). rewrite E1. cbn [Z.eqb].
        destruct (IH p1 H2) as (p' & E & Q). exists p'. split; [exact E|]. intros j Hj. destruct (Q j Hj) as [Qa Qb]. split.
        -- destruct Qa as [Qa|Qa]; [now left|]. rewrite Q1 in Qa. destruct ((off <=? j) && (j <? off + num)); [now left|now right].
        -- intros (k' & check' & off' & num' & head' & body & [X|X] & Y & Z).
           ++ injection X as -> -> -> ->. destruct Qa as [Qa|Qa]; [exact Qa|]. rewrite Q1 in Qa. now replace ((off' <=? j) && (j <? off' + num')) with true in Qa by lia.
           ++ apply Qb. now exists k', check', off', num', head', body.
      * destruct H1 as (head & body & H1). rewrite H1. cbv zeta. cbn [Z.eqb]. destruct (IH p H2) as (p' & E & Q). exists p'. split; [exact E|]. intros j Hj. destruct (Q j Hj) as [Q1 Q2]. split; [exact Q1|].
        intros (k' & check & off & num & head' & body' & [X|X] & Y & Z); [discriminate|]. apply Q2. now exists k', check, off, num, head', body'.
Qed.
End In.
