(** Three sites: 3 does not divide 2^32, and the chain does not satisfy detailed balance exactly. *)
From Coq Require Import ZArith List Bool Lia Reals Lra.
From Coquelicot Require Import Complex.
From Verif Require Import Base.ZLoop Base.Checked Base.RSum Proj.Model Slater.Model Green.Model Green.Spec Samp.Prog Samp.Model Samp.Spec Samp.Hoare Samp.Config Samp.Exch Mark.Model Mark.Spec Mark.Words Mark.Chain Mark.Reverse Mark.ReverseStd Mark.Weight Mark.Balance Mark.Cases.
Import ListNotations.
Local Open Scope Z_scope.

(** the up electron hops from u to v, the down electron stays on 2 *)
Section Hop.
Variable Orc : oracles.
Variables u v : Z.
Hypothesis Huv : (u = 0 /\ v = 1) \/ (u = 1 /\ v = 0).
Let I3 := Im 3 0.
Let wf3 : wf_input I3 := Im_wf 3 0 eq_refl.
Let x := stm 3 u 2.
Let y := stm 3 v 2.
Lemma lx : legal (Vm 3) x. Proof. apply legal_m; lia. Qed.
Lemma cx : consistent 3 1 (wm 3 u 2). Proof. exact (state_consistent I3 (Vm 3) (Vm_wf 3 eq_refl) (Im_fits 3 0) _ _ _ _ lx). Qed.
Lemma hop_mono r w s k : consistent 3 1 w -> 0 <= s <= 1 -> forall p p1 rj f, hop_target I3 (with_stream Orc r 3) w s k p = Ret (p1, rj, f) -> p < p1.
Proof.
  intros Hc Hs. induction k as [|k IH]; intros p p1 rj f; cbn [hop_target rnd with_stream].
  - rewrite umod_ok by reflexivity. cbn [bindP]. intros E. injection E as <- _ _. lia.
  - rewrite umod_ok by reflexivity. cbn [bindP]. rewrite busy_eq by first [exact wf3|exact Hs|apply Z.mod_pos_bound; reflexivity]. cbn [bindP]. destruct (busyb I3 w _ s); [intros E; apply IH in E; lia|]. intros E. injection E as <- _ _. lia.
Qed.
Lemma hop_once r w s k p : hop_target I3 (with_stream Orc r 3) w s (S k) p =
  bindP (umod (r p) 3) (fun rj => bindP (busy I3 (with_stream Orc r 3) w rj s) (fun b => if b : bool then hop_target I3 (with_stream Orc r 3) w s k (p + 1) else Ret (p + 1, rj, 0))).
Proof. reflexivity. Qed.
Lemma propose3 a b d : propose I3 (with_stream Orc (word_at [a; b; d]) 3) (wm 3 u 2) 0 =
  (c <- eval (hop_target I3 (with_stream Orc (word_at [a; b; d]) 3) (wm 3 u 2) (coin b) 10 2);;
   let '(p, rj, flag) := c in if flag =? 1 then Some (p, Rejected)
   else w1 <- eval (update_ele_config I3 (with_stream Orc (word_at [a; b; d]) 3) 0 (xm u 2 (coin b)) rj (coin b) (wm 3 u 2));; Some (p, OneStep 0 (xm u 2 (coin b)) rj (coin b) (coin b) w1)).
Proof.
  change (propose I3 (with_stream Orc (word_at [a; b; d]) 3) (wm 3 u 2) 0) with (propose_hop I3 (with_stream Orc (word_at [a; b; d]) 3) (wm 3 u 2) 0). unfold propose_hop, make_candidate_hopping.
  change (fuel (with_stream Orc (word_at [a; b; d]) 3)) with 3%nat. cbn [search]. rewrite (pick_hop_eq I3 Orc wf3) by exact cx. cbn [bindP]. cbv zeta.
  change (LocSpn I3 _ =? 1) with false. cbv iota. cbn [bindP]. change (Samp.Model.Ne I3) with 1. rewrite Z.mod_1_r.
  change (word_at [a; b; d] (0 + 1)) with b. replace (0 + coin b * 1) with (coin b) by ring. change (eleIdx (wm 3 u 2)) with (xm u 2). change (Z.to_nat (Proj.Model.Nsite (T I3) * Proj.Model.Nsite (T I3) + 1)) with 10%nat. change (0 + 2) with 2.
  cbn [fst snd bindP]. destruct (hop_target I3 _ _ _ 10 2) as [((p, rj), f)| | | |]; reflexivity.
Qed.
Lemma summand a b d : match step I3 (Vm 3) Orc 3 x (word_at [a; b; d]) with
  | Some (p, Some (w1, r)) => if (p <=? 3) && same_idx 1 w1 (stW y) then Rmin 1 r else 0%R | _ => 0%R end = (if (coin b =? 0) && (d mod 3 =? v) then 1 else 0)%R.
Proof.
  assert (C01 := coin_01 b). assert (Hm := Z.mod_pos_bound d 3 eq_refl).
  assert (BZ : busyb I3 (wm 3 u 2) (d mod 3) (coin b) = negb (if (d mod 3 + coin b * 3 =? u) || (d mod 3 + coin b * 3 =? 3 + 2) then false else true)).
  { unfold busyb. change (Proj.Model.Nsite (T I3)) with 3. cbn [wm eleCfg]. destruct (_ || _); reflexivity. }
  destruct (busyb I3 (wm 3 u 2) (d mod 3) (coin b)) eqn:EB.
  - assert (R : (coin b =? 0) && (d mod 3 =? v) = false).
    { destruct (Z.eqb_spec (coin b) 0) as [E0|]; [|reflexivity]. destruct (Z.eqb_spec (d mod 3) v) as [E1|]; [|reflexivity]. exfalso. rewrite E0, E1 in BZ. replace (v + 0 * 3 =? u) with false in BZ by lia. replace (v + 0 * 3 =? 3 + 2) with false in BZ by lia. discriminate. }
    rewrite R. assert (P : forall p c, propose I3 (with_stream Orc (word_at [a; b; d]) 3) (stW x) 0 = Some (p, c) -> 3 < p).
    { intros p c. change (stW x) with (wm 3 u 2). rewrite propose3, hop_once. rewrite umod_ok by reflexivity. cbn [bindP]. change (word_at [a; b; d] 2) with d. change (Proj.Model.Nsite (T I3)) with 3.
      rewrite busy_eq by first [exact wf3|assumption]. cbn [bindP]. rewrite EB. change (2 + 1) with 3. intros E.
      destruct (hop_target I3 (with_stream Orc (word_at [a; b; d]) 3) (wm 3 u 2) (coin b) 9 3) as [((p1, rj), f)| | | |] eqn:Eh; try discriminate. apply (hop_mono _ _ _ _ cx C01) in Eh. cbn [eval bind] in E.
      destruct (f =? 1); [injection E as <- _; exact Eh|]. destruct (eval _); [|discriminate]. cbn [bind] in E. injection E as <- _. exact Eh. }
    unfold step. destruct (propose I3 (with_stream Orc (word_at [a; b; d]) 3) (stW x) 0) as [(p, c)|] eqn:Ep; [|reflexivity]. specialize (P p c eq_refl).
    destruct (proposed c); [|reflexivity]. destruct (weight _ _ _ _ _ _); [|reflexivity]. replace (p <=? 3) with false by lia. reflexivity.
  - set (w1 := Walker (upd (xm u 2) (0 + coin b * 1) (d mod 3)) (upd (upd (eleCfg (wm 3 u 2)) (xm u 2 (coin b) + coin b * 3) (-1)) (d mod 3 + coin b * 3) 0)
       (upd (upd (eleNum (wm 3 u 2)) (xm u 2 (coin b) + coin b * 3) 0) (d mod 3 + coin b * 3) 1) (eleProjCnt (wm 3 u 2)) (eleSpn (wm 3 u 2))).
    assert (P : propose I3 (with_stream Orc (word_at [a; b; d]) 3) (stW x) 0 = Some (3, OneStep 0 (xm u 2 (coin b)) (d mod 3) (coin b) (coin b) w1)).
    { change (stW x) with (wm 3 u 2). rewrite propose3, hop_once. rewrite umod_ok by reflexivity. cbn [bindP]. change (word_at [a; b; d] 2) with d. change (Proj.Model.Nsite (T I3)) with 3.
      rewrite busy_eq by first [exact wf3|assumption]. cbn [bindP]. rewrite EB. change (2 + 1) with 3. cbn [eval bind Z.eqb].
      rewrite (update_eval I3 Orc wf3 3 _ 0 (xm u 2 (coin b)) (d mod 3) (coin b)); [reflexivity|cbn; lia|exact C01| |exact Hm]. change (Proj.Model.Nsite (T I3)) with 3. unfold xm. destruct (coin b =? 0); lia. }
    rewrite (step_of I3 (Vm 3) wf3 (Vm_wf 3 eq_refl) (Im_fits 3 0) Orc 3 x _ _ _ w1 lx P eq_refl). change (3 <=? 3) with true. cbn [andb].
    assert (S : same_idx 1 w1 (stW y) = (coin b =? 0) && (d mod 3 =? v)).
    { unfold same_idx. change (zrange 0 (2 * 1)) with [0; 1]. cbn [forallb]. cbn [w1 eleIdx y stm stW wm]. rewrite !upd_get. assert (coin b = 0 \/ coin b = 1) as [-> | ->] by lia; unfold xm; cbn -[Z.modulo]; [|lia]. now rewrite !andb_true_r. }
    rewrite S. destruct ((coin b =? 0) && (d mod 3 =? v)); [|reflexivity].
    rewrite (same_psi I3 (Vm 3) (Im_fits 3 0) w1 (stW y) S). fold (density (Vm 3) y). unfold x, y. rewrite !density_m by lia. replace (v =? 2) with false by lia. replace (u =? 2) with false by lia. unfold Rdiv. rewrite Rinv_1, Rmult_1_l. apply Rmin_left. lra.
Qed.
Definition is (v d : Z) : R := if d mod 3 =? v then 1%R else 0%R.
Lemma value : transition I3 (Vm 3) Orc 3 x y = (IZR wordsize * rsum (zrange 0 wordsize) (fun b => if coin b =? 0 then 1 else 0) * rsum (zrange 0 wordsize) (is v) / IZR wordsize ^ 3)%R.
Proof.
  unfold transition, chance. f_equal. rewrite !rsum_words_S. rewrite (rsum_ext _ _ (fun _ => rsum (zrange 0 wordsize) (fun b => if coin b =? 0 then 1 else 0) * rsum (zrange 0 wordsize) (is v))%R).
  - rewrite rsum_const, zrange_length. rewrite INR_IZR_INZ, Z2Nat.id by discriminate. change (wordsize - 0) with wordsize. rewrite (Rmult_comm _ (IZR wordsize)). symmetry. apply Rmult_assoc.
  - intros a _. rewrite rsum_words_S. rewrite <- rsum_scal_r. apply rsum_ext. intros b _. rewrite rsum_words_S. rewrite <- rsum_scal. apply rsum_ext. intros d _. cbn [words rsum]. change (Z.of_nat 3) with 3. change (Samp.Model.Ne I3) with 1.
    rewrite summand. unfold is. destruct (coin b =? 0), (d mod 3 =? v); cbn [andb]; ring.
Qed.
End Hop.
Lemma count_is v k : (0 <= v < 3)%Z -> rsum (zrange 0 (3 * Z.of_nat k)) (is v) = INR k.
Proof.
  intros Hv. induction k as [|k IH]; [reflexivity|]. rewrite (zrange_app 0 (3 * Z.of_nat k) (3 * Z.of_nat (S k))) by lia. rewrite rsum_app, IH, S_INR. f_equal.
  replace (3 * Z.of_nat (S k)) with (3 * Z.of_nat k + 3) by lia. set (z := Z.of_nat k). rewrite zrange_cons, zrange_cons, zrange_cons, zrange_nil by lia. cbn [rsum]. unfold is.
  replace ((3 * z) mod 3) with 0 by (symmetry; rewrite Z.mul_comm; apply Z.mod_mul; lia).
  replace ((3 * z + 1) mod 3) with 1 by (rewrite Z.add_comm, Z.mul_comm, Z.mod_add by lia; reflexivity).
  replace ((3 * z + 1 + 1) mod 3) with 2 by (replace (3 * z + 1 + 1) with (2 + z * 3) by ring; rewrite Z.mod_add by lia; reflexivity).
  assert (v = 0 \/ v = 1 \/ v = 2) as [->|[->| ->]] by lia; cbn; lra.
Qed.
Lemma counts : (rsum (zrange 0 wordsize) (is 0) = rsum (zrange 0 wordsize) (is 1) + 1)%R.
Proof.
  assert (E : wordsize = 3 * Z.of_nat (Z.to_nat (wordsize / 3)) + 1).
  { assert (P : 0 <= wordsize / 3) by (apply Z.div_pos; [discriminate|reflexivity]). rewrite (Z2Nat.id _ P). reflexivity. }
  set (k := Z.to_nat (wordsize / 3)) in *. clearbody k. rewrite E. clear E. rewrite !zrange_snoc by lia. rewrite !rsum_app, !count_is by lia. cbn [rsum]. unfold is. replace ((3 * Z.of_nat k) mod 3) with 0 by (symmetry; rewrite Z.mul_comm; apply Z.mod_mul; lia). cbn. lra.
Qed.
Lemma coins : (0 < rsum (zrange 0 wordsize) (fun b => if coin b =? 0 then 1 else 0))%R.
Proof.
  rewrite zrange_cons by reflexivity. cbn [rsum]. change (coin 0 =? 0) with true. cbv iota. apply Rlt_le_trans with 1%R; [lra|].
  assert (0 <= rsum (zrange (0 + 1) wordsize) (fun b => if coin b =? 0 then 1 else 0))%R; [|lra]. apply rsum_nonneg. intros b _. destruct (coin b =? 0); lra.
Qed.
Lemma balance_refuted Orc : exists I V x y, wf_input I /\ wf_wave V /\ fits I V /\ legal V x /\ legal V y /\ density V x = density V y /\
  (density V x * transition I V Orc 3 x y < density V y * transition I V Orc 3 y x)%R.
Proof.
  exists (Im 3 0), (Vm 3), (stm 3 0 2), (stm 3 1 2). split; [now apply Im_wf|]. split; [now apply Vm_wf|]. split; [apply Im_fits|]. split; [apply legal_m; lia|]. split; [apply legal_m; lia|].
  rewrite !density_m by lia. split; [reflexivity|]. cbn [Z.eqb Pos.eqb]. rewrite !Rmult_1_l. rewrite (value Orc 0 1), (value Orc 1 0) by lia.
  assert (Q : (0 < IZR wordsize)%R) by (apply IZR_lt; reflexivity). apply Rmult_lt_compat_r; [apply Rinv_0_lt_compat; now apply pow_lt|].
  apply Rmult_lt_compat_l; [apply Rmult_lt_0_compat; [exact Q|apply coins]|]. rewrite counts. lra.
Qed.
