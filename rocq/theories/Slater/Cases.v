(** A concrete case: two sites, one electron of each spin, two transforms (identity and swap), three pair parameters. *)
From Coq Require Import ZArith List Bool Lia Reals Lra.
From Coquelicot Require Import Complex.
From Verif Require Import Base.ZLoop Base.RSum Pf.Pfaffian Pf.Spec Pf.Proofs Pf.ProofsSeq Slater.Model Slater.Spec Slater.Proofs Slater.ProofsElm Slater.ProofsDiff Slater.ProofsDer Slater.ProofsProp Slater.Derive.
Import ListNotations.
Local Open Scope Z_scope.

Definition S_ex : sizes := {| Nsite := 2; Ne := 1; NSPGaussLeg := 1; NMPTrans := 1; NQPOptTrans := 2; NSlater := 3 |}.
Definition T_ex : qptables := {| QPOptTrans := fun o r => if o =? 0 then r else 1 - r; QPOptTransSgn := fun _ _ => 1; QPTrans := fun _ r => r; QPTransSgn := fun _ _ => 1;
  OrbitalIdx := fun a b => if a =? b then 0 else if a <? b then 1 else 2; OrbitalSgn := fun _ _ => 1 |}.
Definition sl_ex (k : Z) : C := RtoC (if k =? 0 then 2 else if k =? 1 then 3 else 5).
Definition one_ex (_ : Z) : C := RtoC 1.
Definition ele_ex (k : Z) : Z := if k =? 0 then 0 else 1.
Definition p_ex (q : Z) : R := if q =? 0 then 3%R else 5%R.
Definition Pf_ex (q : Z) : C := RtoC (p_ex q).
Definition Inv_ex (k : Z) : C := RtoC (if k mod 4 =? 1 then - / p_ex (k / 4) else if k mod 4 =? 2 then / p_ex (k / 4) else 0)%R.
Definition A_ex := update_weights S_ex true one_ex (init_qp_weight S_ex 0 (fun _ => 0%R) (fun _ => 0%R) one_ex true one_ex).
Definition table_ex := update_slater_elm S_ex T_ex A_ex sl_ex (fun _ => czero).

Lemma valid_ex : valid S_ex T_ex true.
Proof.
  unfold valid, S_ex, T_ex. cbn [Nsite Ne NSPGaussLeg NMPTrans NQPOptTrans NSlater QPOptTrans QPTrans OrbitalIdx]. do 6 (split; [lia|]). split; [discriminate|]. split; [|split].
  - intros o r _ Hr. destruct (o =? 0); lia.
  - intros m r _ Hr. lia.
  - intros a b _ _. destruct (a =? b); [lia|]. destruct (a <? b); lia.
Qed.
Lemma on_ex : on_lattice (Nsite S_ex) (2 * Ne S_ex) ele_ex.
Proof. intros k Hk. unfold ele_ex. cbn. destruct (k =? 0); lia. Qed.
Lemma two q : 0 <= q < 2 -> q = 0 \/ q = 1. Proof. lia. Qed.
Lemma elem_ex q i j : 0 <= q < 2 -> 0 <= i < 2 -> 0 <= j < 2 ->
  element 2 T_ex sl_ex q 0 0 (orbital 2 1 ele_ex i) (orbital 2 1 ele_ex j) = RtoC (if i =? j then 0 else if i =? 0 then p_ex q else - p_ex q)%R.
Proof.
  intros Hq Hi Hj. destruct (two q Hq) as [-> | ->], (two i Hi) as [-> | ->], (two j Hj) as [-> | ->];
  unfold element, orbital, ele_ex, pair, image, sign, up, down, sl_ex, T_ex, p_ex; cbn -[cos sin]; rewrite ?cos_0, ?sin_0; apply Ceq; cbn; lra.
Qed.
Lemma pm_ex q i j : 0 <= q < 2 -> 0 <= i < 2 -> 0 <= j < 2 -> pair_matrix 2 1 table_ex (q + 0) ele_ex i j = RtoC (if i =? j then 0 else if i =? 0 then p_ex q else - p_ex q)%R.
Proof.
  intros Hq Hi Hj. rewrite <- elem_ex by assumption. unfold table_ex.
  assert (H := PM S_ex T_ex 0 (fun _ => 0%R) (fun _ => 0%R) one_ex one_ex one_ex true valid_ex sl_ex (fun _ => czero) ele_ex on_ex q 0 0 i j).
  cbv zeta in H. unfold projection in H. change (NMPTrans S_ex) with 1 in H. change (NSPGaussLeg S_ex) with 1 in H.
  replace ((q * 1 + 0) * 1 + 0) with q in H by ring. apply H; [repeat split; cbn; lia|exact Hi|exact Hj].
Qed.
Lemma stored_ex q i j : 0 <= q < 2 -> 0 <= i < 2 -> 0 <= j < 2 -> stored 2 Inv_ex q i j = RtoC (if i =? j then 0 else if i =? 0 then - / p_ex q else / p_ex q)%R.
Proof. intros Hq Hi Hj. destruct (two q Hq) as [-> | ->], (two i Hi) as [-> | ->], (two j Hj) as [-> | ->]; reflexivity. Qed.
Lemma current_ex : current (Nsite S_ex) (Ne S_ex) table_ex 0 (NQPFull S_ex) ele_ex Inv_ex Pf_ex.
Proof.
  intros q Hq. change (NQPFull S_ex - 0) with 2 in Hq. change (Nsite S_ex) with 2. change (Ne S_ex) with 1. split.
  - change (zrange 0 (2 * 1)) with [0; 1]. rewrite pf_two_by_two, pm_ex by lia. reflexivity.
  - assert (Hp : p_ex q <> 0%R) by (unfold p_ex; destruct (q =? 0); lra).
    apply is_inverse_intro.
    + apply skew_spec. intros i j Hi Hj. change (2 * 1) with 2 in *. rewrite !stored_ex by lia. destruct (two i Hi) as [-> | ->], (two j Hj) as [-> | ->]; cbn; apply Ceq; cbn; ring.
    + apply skew_spec. intros i j Hi Hj. change (2 * 1) with 2 in *. rewrite !pm_ex by lia. destruct (two i Hi) as [-> | ->], (two j Hj) as [-> | ->]; cbn; apply Ceq; cbn; ring.
    + apply left_inverse_spec. intros i j Hi Hj. change (2 * 1) with 2 in *. change (zrange 0 2) with [0; 1]. cbn [csum]. rewrite !stored_ex, !pm_ex by lia.
      unfold kron. destruct (two i Hi) as [-> | ->], (two j Hj) as [-> | ->]; cbn [Z.eqb Pos.eqb]; apply Ceq; cbn; try (field; exact Hp); ring.
Qed.
Lemma pfaffian_ex o : 0 <= o < 2 -> pfaffian S_ex T_ex (fun _ => 0%R) sl_ex ele_ex o 0 0 = RtoC (p_ex o).
Proof.
  intros Ho. unfold pfaffian. change (zrange 0 (2 * Ne S_ex)) with [0; 1]. rewrite pf_two_by_two. change (half S_ex (fun _ => 0%R) 0) with 0%R.
  change (Nsite S_ex) with 2. change (Ne S_ex) with 1. rewrite elem_ex by lia. reflexivity.
Qed.
Lemma amp_ex opt : amplitude S_ex T_ex 0 (fun _ => 0%R) (fun _ => 0%R) one_ex opt sl_ex ele_ex = Cplus (Cmult (RtoC 3) (opt 0)) (Cmult (RtoC 5) (opt 1)).
Proof.
  unfold amplitude. change (zrange 0 (NQPOptTrans S_ex)) with [0; 1]. change (zrange 0 (NMPTrans S_ex)) with [0]. change (zrange 0 (NSPGaussLeg S_ex)) with [0]. cbn [csum].
  rewrite !pfaffian_ex by lia. unfold spin_weight, one_ex, p_ex. change (NSPGaussLeg S_ex =? 1) with true. cbn [Z.eqb]. ring.
Qed.
Lemma amp_ne : amplitude S_ex T_ex 0 (fun _ => 0%R) (fun _ => 0%R) one_ex (opt_weight true one_ex) sl_ex ele_ex <> RtoC 0.
Proof. rewrite amp_ex. unfold opt_weight, one_ex. intros E. apply (f_equal fst) in E. cbn in E. lra. Qed.

(** the derivative of the case with respect to the second pair parameter is 1/8 *)
Lemma derivative_ex : slater_elm_diff S_ex T_ex A_ex Inv_ex Pf_ex (calculate_ip A_ex 0 (NQPFull S_ex) Pf_ex) ele_ex (fun _ => RtoC 0) 2 = RtoC (/ 8).
Proof.
  assert (Eip : calculate_ip A_ex 0 (NQPFull S_ex) Pf_ex = RtoC 8).
  { unfold A_ex. rewrite (ip_is S_ex T_ex 0 (fun _ => 0%R) (fun _ => 0%R) one_ex one_ex one_ex true valid_ex sl_ex (fun _ => czero) Inv_ex Pf_ex ele_ex on_ex current_ex).
    rewrite amp_ex. unfold opt_weight, one_ex. apply Ceq; cbn; lra. }
  destruct (diff S_ex T_ex 0 (fun _ => 0%R) (fun _ => 0%R) one_ex one_ex one_ex true valid_ex Inv_ex Pf_ex (RtoC 8) ele_ex (fun _ => RtoC 0) on_ex 1 ltac:(cbn; lia)) as (D & _).
  rewrite Eip. change 2 with (2 * 1). unfold A_ex. rewrite D. clear D.
  change (zrange 0 (NQPOptTrans S_ex)) with [0; 1]. change (zrange 0 (NMPTrans S_ex)) with [0]. change (zrange 0 (NSPGaussLeg S_ex)) with [0]. cbn [csum].
  unfold contribution. change (zrange 0 (2 * Ne S_ex)) with [0; 1]. cbn [csum]. change (projection S_ex 0 0 0) with 0. change (projection S_ex 1 0 0) with 1.
  change (2 * Ne S_ex) with 2. change (Ne S_ex) with 1. change (half S_ex (fun _ => 0%R) 0) with 0%R.
  rewrite !stored_ex by lia. unfold spin_weight, opt_weight, one_ex. change (NSPGaussLeg S_ex =? 1) with true. cbn [Z.eqb].
  change (0 / 1) with 0. change (1 / 1) with 1.
  unfold pair, image, sign, up, down, T_ex, Pf_ex, p_ex, ele_ex, iz. cbn -[cos sin Rinv]. rewrite cos_0, sin_0.
  apply Ceq; cbn -[Rinv]; field.
Qed.
(** the transform weights: the slot of the second weight is not written *)
Lemma trans_ex :
  let O := calculate_opt_trans_diff S_ex A_ex Pf_ex (calculate_ip A_ex 0 (NQPFull S_ex) Pf_ex) (fun _ => RtoC 0) in
  let amp := fun opt => amplitude S_ex T_ex 0 (fun _ => 0%R) (fun _ => 0%R) one_ex opt sl_ex ele_ex in
  ~ log_derivative (fun t => amp (shift_re one_ex 1 t)) (O (2 * 1)) /\ log_derivative (fun t => amp (shift_re one_ex 1 t)) (O (2 * 0 + 1)).
Proof.
  intros O amp.
  assert (H1 : log_derivative (fun t => amp (shift_re one_ex 1 t)) (O 1)).
  { apply (opt_log S_ex T_ex 0 (fun _ => 0%R) (fun _ => 0%R) one_ex one_ex one_ex valid_ex sl_ex (fun _ => czero) Inv_ex Pf_ex ele_ex (fun _ => RtoC 0) on_ex current_ex 1); [cbn; lia|apply amp_ne]. }
  split; [|exact H1].
  assert (Z2 : O (2 * 1) = RtoC 0). { unfold O, calculate_opt_trans_diff. apply (loop_miss 0 (NQPOptTrans S_ex) _ (fun o : Z -> C => o (2 * 1))). intros i o Hi. apply upd_other. cbn in Hi. lia. }
  intros H2. rewrite Z2 in H2. unfold log_derivative in H2. apply cderive_spec' in H2.
  assert (H3 : cderive (fun t => amp (shift_re one_ex 1 t)) (RtoC 5)).
  { apply (cderive_ext (fun t => Cplus (RtoC 8) (Cmult (RtoC t) (RtoC 5)))); [|apply cderive_affine].
    intros t. unfold amp. rewrite amp_ex, !shift_re_is. unfold one_ex, iz. cbn [Z.eqb Pos.eqb]. apply Ceq; cbn; ring. }
  assert (E := cderive_unique _ _ _ H2 H3). apply (f_equal fst) in E. cbn in E. lra.
Qed.
