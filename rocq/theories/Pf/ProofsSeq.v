From Coq Require Import ZArith List Bool Reals Lia Lra.
From Coquelicot Require Import Complex.
From Verif Require Import Base.ZLoop Base.RSum Pf.Pfaffian Pf.Model Pf.Spec Pf.Algebra Pf.Proofs Pf.ProofsTwo.
Import ListNotations.
Local Open Scope Z_scope.

(** what the sampler does on acceptance: the electron list already holds the new sites (vmcmake.c:164 and 204; 241, 247 and 287) *)
Definition accept (Nsite Ne : Z) (Sl : Z -> C) (qpStart qpEnd : Z) (x : (Z -> Z) * ((Z -> C) * (Z -> C))) (mv : move) : (Z -> Z) * ((Z -> C) * (Z -> C)) :=
  let ele' := moved Ne (fst x) mv in
  match mv with
  | One m s r => (ele', update_mall Nsite Ne (2 * Ne) Sl m s ele' qpStart qpEnd (snd x))
  | Two ma s ra mb t rb raOld rbOld => (ele', update_mall_two Nsite Ne (2 * Ne) Sl ma s mb t raOld rbOld ele' qpStart qpEnd (snd x))
  end.
(** every configuration reached has non-zero Pfaffians *)
Fixpoint all_regular (Nsite Ne : Z) (Sl : Z -> C) (qpStart qpEnd : Z) (eleIdx : Z -> Z) (moves : list move) : Prop :=
  match moves with
  | [] => True
  | mv :: l => regular Nsite Ne Sl qpStart qpEnd (moved Ne eleIdx mv) /\ all_regular Nsite Ne Sl qpStart qpEnd (moved Ne eleIdx mv) l
  end.
Lemma seq_any Nsite Ne Sl qpStart qpEnd moves eleIdx InvM PfM :
  0 < Ne -> (forall q, 0 <= q < qpEnd - qpStart -> skew_table Nsite Sl (q + qpStart)) ->
  on_lattice Nsite (2 * Ne) eleIdx ->
  current Nsite Ne Sl qpStart qpEnd eleIdx InvM PfM ->
  Forall (legal Nsite Ne) moves ->
  all_regular Nsite Ne Sl qpStart qpEnd eleIdx moves ->
  let '(ele', st) := fold_left (accept Nsite Ne Sl qpStart qpEnd) moves (eleIdx, (InvM, PfM)) in
  ele' = fold_left (moved Ne) moves eleIdx /\ current Nsite Ne Sl qpStart qpEnd ele' (fst st) (snd st).
Proof.
  intros HNe Hsl. revert eleIdx InvM PfM. induction moves as [|mv moves IH]; intros eleIdx InvM PfM Hlat Hcur Hleg Hreg.
  - cbn. split; [reflexivity|assumption].
  - cbn [fold_left all_regular] in *. destruct Hreg as (Hr & Hrs). inversion Hleg as [|? ? Hl Hls]; subst.
    destruct mv as [m s r|ma s ra mb t rb raOld rbOld]; cbn [moved accept legal fst snd] in *.
    + destruct Hl as (He & Hr').
      pose proof (update_one Nsite Ne HNe Sl eleIdx InvM PfM m s r qpStart qpEnd Hsl He Hr' Hlat Hcur Hr) as Hc.
      cbv zeta in Hc. destruct (update_mall _ _ _ _ _ _ _ _ _ _) as (I, P). apply IH; auto. now apply on_lattice_upd.
    + destruct Hl as (Ha & Hb & Hab & Hra & Hrb).
      pose proof (update_two Nsite Ne HNe Sl eleIdx InvM PfM ma s ra mb t rb raOld rbOld qpStart qpEnd Hsl Ha Hb Hab Hra Hrb Hlat Hcur Hr) as Hc.
      cbv zeta in Hc. destruct (update_mall_two _ _ _ _ _ _ _ _ _ _ _ _ _ _) as (I, P). apply IH; auto. repeat apply on_lattice_upd; assumption.
Qed.
Lemma seq_one Nsite Ne Sl qpStart qpEnd moves eleIdx InvM PfM :
  0 < Ne -> (forall q, 0 <= q < qpEnd - qpStart -> skew_table Nsite Sl (q + qpStart)) ->
  on_lattice Nsite (2 * Ne) eleIdx ->
  current Nsite Ne Sl qpStart qpEnd eleIdx InvM PfM ->
  Forall (fun mv => exists m s r, mv = One m s r /\ electron Ne m s /\ 0 <= r < Nsite) moves ->
  all_regular Nsite Ne Sl qpStart qpEnd eleIdx moves ->
  let '(ele', st) := fold_left (accept Nsite Ne Sl qpStart qpEnd) moves (eleIdx, (InvM, PfM)) in
  ele' = fold_left (moved Ne) moves eleIdx /\ current Nsite Ne Sl qpStart qpEnd ele' (fst st) (snd st).
Proof.
  intros HNe Hsl Hlat Hcur Hf Hr. apply seq_any; auto. eapply Forall_impl; [|exact Hf]. intros mv (m & s & r & -> & H). exact H.
Qed.

Lemma inverse_unique N X Y M : is_inverse N X M -> is_inverse N Y M -> forall i j, 0 <= i < N -> 0 <= j < N -> X i j = Y i j.
Proof.
  intros (X1 & X2 & X3) (Y1 & Y2 & Y3) i j Hi Hj.
  set (L := zrange 0 N).
  assert (HL : forall k, In k L <-> 0 <= k < N) by (intros; apply zrange_in).
  transitivity (csum L (fun k => Cmult (X i k) (csum L (fun m => Cmult (M k m) (Y m j))))).
  - rewrite (csum_ext L _ (fun k => Cmult (delta j k) (X i k))).
    + rewrite csum_delta; [reflexivity|apply zrange_NoDup|now apply HL].
    + intros k Hk. apply HL in Hk. unfold L. rewrite Y2 by assumption. unfold delta, kron. rewrite Z.eqb_sym. ring.
  - rewrite (csum_ext L _ (fun k => csum L (fun m => Cmult (X i k) (Cmult (M k m) (Y m j))))) by (intros; now rewrite csum_scal).
    rewrite csum_swap. rewrite (csum_ext L _ (fun m => Cmult (delta i m) (Y m j))).
    + rewrite csum_delta; [reflexivity|apply zrange_NoDup|now apply HL].
    + intros m Hm. apply HL in Hm. rewrite (csum_ext L _ (fun k => Cmult (Cmult (X i k) (M k m)) (Y m j))) by (intros; ring).
      rewrite csum_scal_r. unfold L. rewrite X1 by assumption. reflexivity.
Qed.
Lemma recompute Nsite Ne Sl skpf eleIdx qpStart qpEnd q InvM PfM I P :
  0 < Ne -> oracle_correct skpf -> skew_table Nsite Sl (q + qpStart) -> on_lattice Nsite (2 * Ne) eleIdx ->
  0 <= q < qpEnd - qpStart ->
  current Nsite Ne Sl qpStart qpEnd eleIdx InvM PfM ->
  calculate_mall_child Nsite Ne (2 * Ne) Sl skpf eleIdx qpStart q InvM PfM = Some (I, P) ->
  P q = PfM q /\ forall i j, 0 <= i < 2 * Ne -> 0 <= j < 2 * Ne -> stored (2 * Ne) I q i j = stored (2 * Ne) InvM q i j.
Proof.
  intros HNe Ho Hs Hl Hq Hcur E. destruct (scratch Nsite Ne HNe Sl skpf eleIdx qpStart q InvM PfM I P Ho Hs Hl E) as (HP & HI & _).
  destruct (Hcur q Hq) as (KP & KI). split; [congruence|]. now apply (inverse_unique _ _ _ (pair_matrix Nsite Ne Sl (q + qpStart) eleIdx)).
Qed.

(** ** concrete tables *)
Definition ztab (z : Z) : Z := match z with 2 => 1 | 3 => 2 | 6 => 3 | 7 => 5 | 8 => -1 | 9 => -3 | 12 => -2 | 13 => -5 | _ => 0 end.
Definition Sl_ex (z : Z) : C := RtoC (IZR (ztab z)).
Definition ele_ex (k : Z) : Z := if k =? 0 then 0 else 1.
Definition Inv_ex (k : Z) : C := if k =? 1 then RtoC (- / 2) else if k =? 2 then RtoC (/ 2) else RtoC 0.
Definition Pf_ex (k : Z) : C := if k =? 0 then RtoC 2 else RtoC 0.

Lemma pf_two_by_two A i j : pf A [i; j] = A i j.
Proof. rewrite pf_cons. cbn. unfold pf. cbn. ring. Qed.
Lemma zr2 x : 0 <= x < 2 * 1 -> x = 0 \/ x = 1. Proof. lia. Qed.
Lemma skew_ex q : q = 0 -> skew_table 2 Sl_ex q.
Proof.
  intros -> x y Hx Hy. assert (x = 0 \/ x = 1 \/ x = 2 \/ x = 3) as D by lia. assert (y = 0 \/ y = 1 \/ y = 2 \/ y = 3) as D' by lia.
  destruct D as [->|[->|[->| ->]]], D' as [->|[->|[->| ->]]]; unfold Sl_ex; cbn [ztab Z.mul Z.add Pos.mul Pos.add]; cbn; rewrite <- RtoC_opp; f_equal; lra.
Qed.
Ltac small_sum := change (zrange 0 (2 * 1)) with [0; 1]; cbn [csum].
Lemma Ceq (x y : C) : fst x = fst y -> snd x = snd y -> x = y.
Proof. destruct x, y; cbn; congruence. Qed.
Ltac entries := repeat match goal with |- context [pair_matrix ?a ?b ?t ?q ?e ?i ?j] =>
   let z := eval vm_compute in (q * (2 * a) * (2 * a) + orbital a b e i * (2 * a) + orbital a b e j) in change (pair_matrix a b t q e i j) with (t z) end.

Lemma on_ex : on_lattice 2 (2 * 1) ele_ex.
Proof. intros k Hk. unfold ele_ex. destruct (k =? 0); lia. Qed.
Lemma current_ex : current 2 1 Sl_ex 0 1 ele_ex Inv_ex Pf_ex.
Proof.
  intros q Hq. assert (q = 0) as -> by lia. split.
  - change (zrange 0 (2 * 1)) with [0; 1]. rewrite pf_two_by_two. entries. reflexivity.
  - apply is_inverse_intro.
    + apply skew_spec. intros i j Hi Hj. destruct (zr2 i Hi), (zr2 j Hj); subst; unfold stored, Inv_ex; cbn; apply Ceq; cbn; lra.
    + apply PM_skew; [apply skew_ex; reflexivity|apply (lattice_table 2 1 ltac:(lia) Sl_ex), on_ex].
    + apply left_inverse_spec. intros i j Hi Hj. small_sum. destruct (zr2 i Hi), (zr2 j Hj); subst; entries; unfold stored, Inv_ex, Sl_ex, kron; cbn [ztab]; cbn -[Rinv]; apply Ceq; cbn -[Rinv]; lra.
Qed.
Lemma skew_all q : 0 <= q < 1 - 0 -> skew_table 2 Sl_ex (q + 0).
Proof. intros. apply skew_ex. lia. Qed.
Lemma case_one :
  0 < 1 /\ (forall q, 0 <= q < 1 - 0 -> skew_table 2 Sl_ex (q + 0)) /\ electron 1 0 0 /\ 0 <= 1 < 2 /\ on_lattice 2 (2 * 1) ele_ex /\
  current 2 1 Sl_ex 0 1 ele_ex Inv_ex Pf_ex /\ regular 2 1 Sl_ex 0 1 (upd ele_ex (0 + 0 * 1) 1) /\
  Pf_ex 0 = RtoC 2 /\ snd (update_mall 2 1 (2 * 1) Sl_ex 0 0 (upd ele_ex (0 + 0 * 1) 1) 0 1 (Inv_ex, Pf_ex)) 0 = RtoC 5.
Proof.
  assert (He : electron 1 0 0) by (split; [lia|now left]).
  assert (Hreg : regular 2 1 Sl_ex 0 1 (upd ele_ex (0 + 0 * 1) 1)).
  { intros q Hq. assert (q = 0) as -> by lia. change (zrange 0 (2 * 1)) with [0; 1]. rewrite pf_two_by_two. entries. unfold Sl_ex. cbn [ztab].
    intros E. apply RtoC_inj in E. lra. }
  repeat (split; [first [lia|exact skew_all|exact He|exact on_ex|exact current_ex|exact Hreg|reflexivity]|]).
  pose proof (update_one 2 1 eq_refl Sl_ex ele_ex Inv_ex Pf_ex 0 0 1 0 1 skew_all He ltac:(lia) on_ex current_ex Hreg) as Hc.
  destruct (Hc 0 ltac:(lia)) as (HP & _). rewrite HP. change (zrange 0 (2 * 1)) with [0; 1]. rewrite pf_two_by_two. entries. reflexivity.
Qed.
Lemma case_two :
  Forall (legal 2 1) [Two 0 0 1 0 1 0 0 1; One 0 0 0] /\ all_regular 2 1 Sl_ex 0 1 ele_ex [Two 0 0 1 0 1 0 0 1; One 0 0 0] /\
  snd (snd (fold_left (accept 2 1 Sl_ex 0 1) [Two 0 0 1 0 1 0 0 1; One 0 0 0] (ele_ex, (Inv_ex, Pf_ex)))) 0 = RtoC 1.
Proof.
  set (mv := [Two 0 0 1 0 1 0 0 1; One 0 0 0]).
  assert (Hl : Forall (legal 2 1) mv). { unfold mv. apply Forall_cons; [|apply Forall_cons; [|apply Forall_nil]]; unfold legal, electron; lia. }
  assert (Hr : all_regular 2 1 Sl_ex 0 1 ele_ex mv).
  { split; [|split; [|exact I]]; intros q Hq; assert (q = 0) as -> by lia; change (zrange 0 (2 * 1)) with [0; 1]; rewrite pf_two_by_two; entries; unfold Sl_ex; cbn [ztab]; intros E; apply RtoC_inj in E; lra. }
  split; [exact Hl|]. split; [exact Hr|].
  pose proof (seq_any 2 1 Sl_ex 0 1 mv ele_ex Inv_ex Pf_ex ltac:(lia) skew_all on_ex current_ex Hl Hr) as Hc.
  destruct (fold_left (accept 2 1 Sl_ex 0 1) mv (ele_ex, (Inv_ex, Pf_ex))) as (e, st). destruct Hc as (-> & Hc). cbn [snd].
  destruct (Hc 0 ltac:(lia)) as (HP & _). rewrite HP. change (zrange 0 (2 * 1)) with [0; 1]. rewrite pf_two_by_two. entries. reflexivity.
Qed.

Definition ztab2 (z : Z) : Z := match z with 3 => 1 | 12 => -1 | 19 => 1 | 28 => -1 | 23 => 1 | 29 => -1 | _ => 0 end.
Definition Sl_sing (z : Z) : C := RtoC (IZR (ztab2 z)).
Definition Inv_sing (k : Z) : C := if (k =? 1) || (k =? 5) then RtoC (- 1) else if (k =? 2) || (k =? 6) then RtoC 1 else RtoC 0.
Lemma singular_case :
  exists Nsite Ne Sl eleIdx InvM PfM m s r qpEnd, 0 < Ne /\ (forall q, 0 <= q < qpEnd -> skew_table Nsite Sl (q + 0)) /\
    electron Ne m s /\ 0 <= r < Nsite /\ on_lattice Nsite (2 * Ne) eleIdx /\
    current Nsite Ne Sl 0 qpEnd eleIdx InvM PfM /\
    csum (zrange 0 qpEnd) (fun q => pf (pair_matrix Nsite Ne Sl q (upd eleIdx (m + s * Ne) r)) (zrange 0 (2 * Ne))) = RtoC 1 /\
    let st := update_mall Nsite Ne (2 * Ne) Sl m s (upd eleIdx (m + s * Ne) r) 0 qpEnd (InvM, PfM) in
    ~ current Nsite Ne Sl 0 qpEnd (upd eleIdx (m + s * Ne) r) (fst st) (snd st).
Proof.
  exists 2, 1, Sl_sing, ele_ex, Inv_sing, (fun _ => RtoC 1), 0, 0, 1, 2.
  assert (Hs : forall q, 0 <= q < 2 -> skew_table 2 Sl_sing (q + 0)).
  { intros q Hq x y Hx Hy. assert (x = 0 \/ x = 1 \/ x = 2 \/ x = 3) as D by lia. assert (y = 0 \/ y = 1 \/ y = 2 \/ y = 3) as D' by lia. assert (q = 0 \/ q = 1) as D2 by lia.
    destruct D2 as [-> | ->], D as [->|[->|[->| ->]]], D' as [->|[->|[->| ->]]]; unfold Sl_sing; cbn [ztab2 Z.mul Z.add Pos.mul Pos.add]; cbn; rewrite <- RtoC_opp; f_equal; lra. }
  split; [lia|]. split; [exact Hs|]. split; [split; [lia|now left]|]. split; [lia|]. split; [exact on_ex|]. split; [|split].
  - intros q Hq. assert (D : q = 0 \/ q = 1) by lia. split.
    + change (zrange 0 (2 * 1)) with [0; 1]. rewrite pf_two_by_two. destruct D as [-> | ->]; entries; reflexivity.
    + apply is_inverse_intro.
      * apply skew_spec. intros i j Hi Hj. destruct D as [-> | ->], (zr2 i Hi), (zr2 j Hj); subst; unfold stored, Inv_sing; cbn; apply Ceq; cbn; lra.
      * apply PM_skew; [apply Hs; lia|apply (lattice_table 2 1 ltac:(lia) Sl_sing), on_ex].
      * apply left_inverse_spec. intros i j Hi Hj. small_sum. destruct D as [-> | ->], (zr2 i Hi), (zr2 j Hj); subst; entries; unfold stored, Inv_sing, Sl_sing, kron; cbn [ztab2]; cbn; apply Ceq; cbn; lra.
  - change (zrange 0 2) with [0; 1]. change (zrange 0 (2 * 1)) with [0; 1]. cbn [csum]. rewrite !pf_two_by_two. entries. unfold Sl_sing. cbn [ztab2]. apply Ceq; cbn; lra.
  - cbv zeta. intros Hc. destruct (Hc 0 ltac:(lia)) as (_ & (H1 & _)). specialize (H1 0 0 ltac:(lia) ltac:(lia)). revert H1. generalize (stored (2 * 1) (fst (update_mall 2 1 (2 * 1) Sl_sing 0 0 (upd ele_ex (0 + 0 * 1) 1) 0 2 (Inv_sing, fun _ => RtoC 1))) 0).
    intros X. small_sum. entries. unfold Sl_sing, kron. cbn [ztab2]. cbn [Z.eqb]. intros E.
    assert (Z0 : RtoC 0 = RtoC 1). { rewrite <- E. ring. } apply RtoC_inj in Z0. lra.
Qed.

(** a correct routine for 2 x 2 matrices *)
Definition sk2 (n : Z) (buf : Z -> C) : option (C * (Z -> C)) :=
  if n =? 2 then if Ceq_dec (buf 2) (RtoC 0) then None
    else Some (buf 2, fun k => if k =? 2 then Copp (Cinv (buf 2)) else if k =? 1 then Cinv (buf 2) else RtoC 0)
  else None.
Lemma sk2_correct : oracle_correct sk2.
Proof.
  intros n buf pfaff inv Hn. unfold sk2. destruct (Z.eqb_spec n 2) as [->|]; [|discriminate]. destruct (Ceq_dec (buf 2) (RtoC 0)) as [|Hne]; [discriminate|].
  intros E HA. injection E as <- <-. set (A := fun i j => buf (i + j * 2)) in *. split.
  - change (zrange 0 2) with [0; 1]. rewrite pf_two_by_two. reflexivity.
  - assert (A10 : buf 1 = Copp (buf 2)) by exact (HA 0 1 ltac:(lia) ltac:(lia)).
    assert (A00 : buf 0 = RtoC 0). { apply C_self_opp. exact (HA 0 0 ltac:(lia) ltac:(lia)). }
    assert (A11 : buf 3 = RtoC 0). { apply C_self_opp. exact (HA 1 1 ltac:(lia) ltac:(lia)). }
    apply (is_inverse_intro 2).
    + apply skew_spec. intros i j Hi Hj. destruct (zr2 i Hi), (zr2 j Hj); subst; cbn; ring.
    + apply skew_spec. exact HA.
    + apply left_inverse_spec. intros i j Hi Hj. change (zrange 0 2) with [0; 1]. cbn [csum]. unfold A, kron.
      destruct (zr2 i Hi), (zr2 j Hj); subst; cbn [Z.add Z.mul Z.eqb Pos.mul Pos.add Pos.eqb]; rewrite ?A10, ?A00, ?A11; cbn; try ring; field; assumption.
Qed.
Lemma case_scratch : exists I P, calculate_mall_child 2 1 (2 * 1) Sl_ex sk2 ele_ex 0 0 (fun _ => RtoC 0) (fun _ => RtoC 0) = Some (I, P) /\ P 0 = RtoC 2.
Proof.
  unfold calculate_mall_child, sk2. cbn [Z.mul Pos.mul Z.eqb Pos.eqb].
  match goal with |- context [Ceq_dec ?b ?z] => assert (Hb : b = Copp (Sl_ex 12)) by reflexivity; destruct (Ceq_dec b z) as [E|E] end.
  - exfalso. rewrite Hb in E. unfold Sl_ex in E. cbn [ztab] in E. rewrite <- RtoC_opp in E. apply RtoC_inj in E. lra.
  - eexists. eexists. split; [reflexivity|]. rewrite upd_same, Hb. unfold Sl_ex. cbn [ztab]. rewrite <- RtoC_opp. f_equal. lra.
Qed.
