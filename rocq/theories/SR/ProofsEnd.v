(** The conjugate-gradient step from the samples to the parameter change; counterexamples *)
From Coq Require Import ZArith List Bool Reals Lia Lra.
From Coquelicot Require Import Complex.
From Verif Require Import Base.ZLoop Base.RSum Par.Model Par.Proofs SR.Model SR.Spec SR.Proofs SR.ProofsSel SR.ProofsMat SR.ProofsCG SR.ProofsConv SR.ProofsFin.
Import ListNotations.
Local Open Scope Z_scope.

Lemma cg_sdiag_cov S l OO HO p : total_weight l <> 0%R -> is_average_cg S l OO HO -> 0 <= p < 2 * S - 2 -> cg_sdiag S OO p = covO l p p.
Proof.
  intros HW HA Hp. unfold cg_sdiag, covO. destruct (HA (p + 2) ltac:(lia)) as (-> & -> & _). rewrite !cmean_re by assumption.
  assert (E : forall x, srOptO x (p + 2) = dO p x) by (intros; unfold srOptO; destruct (Z.eqb_spec (p + 2) 0), (Z.eqb_spec (p + 2) 1); try lia; reflexivity).
  rewrite (rmean_ext l (fun x => fst (srOptO x (p + 2))) (fun x => fst (dO p x))) by (intros; now rewrite E).
  rewrite (rmean_ext l (fun x => fst (Cmult (srOptO x (p + 2)) (Cconj (srOptO x (p + 2))))) (fun x => fst (Cmult (dO p x) (Cconj (dO p x))))) by (intros; now rewrite !E).
  reflexivity.
Qed.
Lemma total_weight_pos groups N smp : (forall g i, 0 <= g < groups -> 0 <= i < N -> ok (smp g i) = true /\ wgt (smp g i) = 1%R) ->
  let l := all_samples groups N smp in
  (forall s, In s (counted l) -> 0 <= wgt s)%R /\ (total_weight l <> 0%R -> (0 < total_weight l)%R).
Proof.
  intros Hok. cbn zeta.
  assert (P : forall s, In s (counted (all_samples groups N smp)) -> (0 <= wgt s)%R).
  { intros s Hs. unfold counted in Hs. apply filter_In in Hs as (Hs & _). apply all_samples_in in Hs as (g & i & Hg & Hi & ->). destruct (Hok g i Hg Hi) as (_ & ->). lra. }
  split; [exact P|]. intros H0. unfold total_weight in *.
  assert (0 <= rsum (counted (all_samples groups N smp)) wgt)%R by (apply rsum_nonneg; exact P). lra.
Qed.

Lemma cg_end_to_end NPara groups N smp st OptFlag del dt cut tol (maxit : Z) me :
  0 <= NPara -> 0 <= N -> (forall g i, 0 <= g < groups -> 0 <= i < N -> ok (smp g i) = true /\ wgt (smp g i) = 1%R) ->
  (0 < del)%R -> (0 < cut)%R -> (0 < tol)%R ->
  let S := NPara + 1 in
  let l := all_samples groups N smp in
  let ps := procs groups (fun _ => 1) in
  let A := fun p => main_cal S true false N 1 (snd p) (smp (fst p)) (st p) in
  let W := fst (fst (average_we ps A me)) in
  let OO := average_vec ps W (fun p => OO (A p)) me in
  let HO := average_vec ps W (fun p => HO (A p)) me in
  let s := select (2 * NPara) OptFlag (cg_sdiag S OO) cut in
  let V := fun p => cg_init S N (nSmat s) dt (smatToParaIdx s) OO HO (Store (A p)) in
  In me ps -> total_weight l <> 0%R -> 0 < nSmat s -> (exists p, 0 <= p < 2 * NPara /\ (0 < covO l p p)%R) ->
  (maxit <= 0 \/ nSmat s <= maxit) ->
  solves (nSmat s) (covMat l (smatToParaIdx s) del) (fun i => - 2 * dt * force l (smatToParaIdx s i))%R
    (cx (cg_main (nSmat s) (cg_max_iter maxit (nSmat s)) (cg_thresh tol (nSmat s)) (operate_by_S (nSmat s) N W del ps V me) (vg (V me))))
    (cg_thresh tol (nSmat s)).
Proof.
  intros HNP HN Hok Hdel Hcut Htol S l ps A W OO HO s V Hme HW Hs0 (pm & Hpm & Hpos) Hmax.
  destruct (averages_cg S groups N smp st me ltac:(unfold S; lia) HN Hok Hme HW) as (EW & HA & Hst).
  fold l ps in EW, HA, Hst. fold A in EW, HA, Hst.
  assert (W = total_weight l) as HWl by (unfold W; rewrite EW; reflexivity).
  rewrite <- HWl in HA. fold OO HO in HA.
  assert (Hn : 0 < 2 * NPara) by lia.
  destruct (select_spec (2 * NPara) OptFlag (cg_sdiag S OO) cut Hn) as (m & Hm & Hfree & Hinc & _ & _ & _ & _ & Hrange & _).
  fold s in Hfree, Hinc, Hrange.
  assert (Hd : forall p, 0 <= p < 2 * NPara -> cg_sdiag S OO p = covO l p p).
  { intros p Hp. apply (cg_sdiag_cov S l OO HO); [assumption|assumption|unfold S; lia]. }
  assert (Hmpos : (0 < m)%R). { destruct Hm as (_ & Hm). specialize (Hm pm Hpm). rewrite Hd in Hm by assumption. lra. }
  assert (Hidx : forall k, 0 <= k < nSmat s -> 0 <= smatToParaIdx s k < 2 * S - 2) by (intros k Hk; destruct (Hfree k Hk); unfold S; lia).
  destruct (total_weight_pos groups N smp Hok) as (Hw0 & Hwp). fold l in Hw0, Hwp.
  assert (Hth : (0 < cg_thresh tol (nSmat s))%R).
  { unfold cg_thresh. assert (0 < IZR (nSmat s))%R by (apply IZR_lt; lia). repeat apply Rmult_lt_0_compat; assumption. }
  assert (PD : pos_def (nSmat s) (covMat l (smatToParaIdx s) del)).
  { apply covMat_pd; [lia|exact Hw0|now apply Hwp|exact Hdel|]. intros i Hi. destruct (Hfree i Hi) as (Hi2 & _ & Hge). rewrite Hd in Hge by assumption.
    assert (0 < m * cut)%R by (apply Rmult_lt_0_compat; assumption). lra. }
  assert (G : forall i, 0 <= i < nSmat s -> vg (V me) i = (- 2 * dt * force l (smatToParaIdx s i))%R).
  { intros i Hi. apply (cg_force S groups N (nSmat s) (smatToParaIdx s) smp OO HO (fun p => Store (A p)) dt); try assumption; try lia; unfold S; try lia. }
  assert (Hsolve : solves (nSmat s) (covMat l (smatToParaIdx s) del) (vg (V me))
    (cx (cg_main (nSmat s) (cg_max_iter maxit (nSmat s)) (cg_thresh tol (nSmat s)) (operate_by_S (nSmat s) N W del ps V me) (vg (V me)))) (cg_thresh tol (nSmat s))).
  { apply cg_matrix.
    - unfold cg_max_iter. destruct (Z.ltb_spec 0 maxit); lia.
    - exact Hth.
    - intros x i Hi. rewrite HWl. unfold ps, V. 
      rewrite (operate_matrix S groups N (nSmat s) (smatToParaIdx s) smp OO HO (fun p => Store (A p)) del dt me); try assumption; try lia; reflexivity.
    - apply covMat_sym.
    - exact PD. }
  unfold solves in *. rewrite (rsum_ext _ _ (fun i => Rsqr (vg (V me) i - rsum (zrange 0 (nSmat s)) (fun j => covMat l (smatToParaIdx s) del i j *
     cx (cg_main (nSmat s) (cg_max_iter maxit (nSmat s)) (cg_thresh tol (nSmat s)) (operate_by_S (nSmat s) N W del ps V me) (vg (V me))) j))%R)); [exact Hsolve|].
  intros i Hi. apply zrange_in in Hi. now rewrite G.
Qed.

(** ** two processes in a group: the means come from slot 0 of both processes, but only process 0 wrote its slot 0 *)
Lemma cg_process m st : m = 0 \/ m = 1 -> (forall k, st k = RtoC 0) ->
  let A := main_cal 2 true false 2 2 m (fun _ => wsample true) st in
  Wc A = 1%R /\ (forall j, 2 <= j < 4 -> OO A j = RtoC (if m =? 0 then 1 else 0)) /\ (forall j, 2 <= j < 4 -> OO A (4 + j) = RtoC (if m =? 0 then 1 else 0)) /\
  (forall i j, 0 <= i < 2 -> 2 <= j < 4 -> Store A (j + i * 4) = RtoC (if i =? m then 1 else 0)).
Proof.
  intros Hm H0. cbn zeta. unfold main_cal. assert (E : split_loop 2 m 2 = (m, m + 1)) by (destruct Hm; subst; reflexivity). rewrite E. cbn [orb].
  pose proof (loop_store 2 (fun _ => wsample true) m (m + 1) st ltac:(lia) ltac:(lia)) as ([A _ _] & _ & _ & D).
  assert (D' : forall i j, 0 <= i < 2 -> 2 <= j < 4 -> Store (loop m (m + 1) (fun i a => one_sample 2 true i (wsample true) a) (clear st)) (j + i * 4) = RtoC (if i =? m then 1 else 0)).
  { intros i j Hi Hj. change 4 with (2 * 2) at 1. rewrite D by lia. change (ok (wsample true)) with true. rewrite andb_true_r.
    destruct (Z.leb_spec m i), (Z.ltb_spec i (m + 1)), (Z.eqb_spec i m); try lia; cbn [andb].
    - change (wgt (wsample true)) with 1%R. unfold srOptO. destruct (Z.eqb_spec j 0), (Z.eqb_spec j 1); try lia. cbn [der wsample]. apply sqrt1_C.
    - apply H0.
    - apply H0. }
  cbn [Wc OO Store]. split.
  - rewrite A. unfold part. rewrite zrange_snoc, zrange_nil by lia. cbn. lra.
  - assert (G : forall j, 2 <= j < 4 -> let r := calculateOO_Store 2 true (m + 1 - m) (Store (loop m (m + 1) (fun i a => one_sample 2 true i (wsample true) a) (clear st))) (OO (loop m (m + 1) (fun i a => one_sample 2 true i (wsample true) a) (clear st))) in
       r j = RtoC (if m =? 0 then 1 else 0) /\ r (4 + j) = RtoC (if m =? 0 then 1 else 0)).
    { intros j Hj. cbn zeta. replace (m + 1 - m) with 1 by ring.
      destruct (cg_oo_get 2 1 (Store (loop m (m + 1) (fun i a => one_sample 2 true i (wsample true) a) (clear st))) (OO (loop m (m + 1) (fun i a => one_sample 2 true i (wsample true) a) (clear st))) ltac:(lia) ltac:(lia) j ltac:(lia)) as (F1 & F2).
      change (2 * 2) with 4 in F1, F2. rewrite F1, F2. change (zrange 0 1) with [0]. cbn [csum]. rewrite D' by lia.
      rewrite (Z.eqb_sym 0 m). destruct (Z.eqb_spec m 0); cbn [fst snd RtoC]; split; unfold Cplus, RtoC; cbn [fst snd]; f_equal; ring. }
    split; [|split]; [intros j Hj; now apply G..|exact D'].
Qed.
Lemma operate_wrong :
  let smp := fun _ _ => wsample true in
  let ps := procs 1 (fun _ => 2) in
  let A := fun p => main_cal 2 true false 2 2 (snd p) (smp (fst p)) (fun _ => RtoC 0) in
  let W := fst (fst (average_we ps A (0, 0))) in
  let OO := average_vec ps W (fun p => OO (A p)) (0, 0) in
  let HO := average_vec ps W (fun p => HO (A p)) (0, 0) in
  let V := fun p => cg_init 2 2 1 1 (fun k => k) OO HO (Store (A p)) in
  operate_by_S 1 2 W 0 ps V (0, 0) (fun _ => 1%R) 0 = (3 / 4)%R /\ covO (all_samples 1 2 smp) 0 0 = 0%R.
Proof.
  cbn zeta. change (procs 1 (fun _ => 2)) with [(0, 0); (0, 1)].
  set (A := fun p => main_cal 2 true false 2 2 (snd p) (fun _ => wsample true) (fun _ => RtoC 0)).
  destruct (cg_process 0 (fun _ => RtoC 0) ltac:(now left) ltac:(reflexivity)) as (W0 & O0 & _ & S0).
  destruct (cg_process 1 (fun _ => RtoC 0) ltac:(now right) ltac:(reflexivity)) as (W1 & O1 & _ & S1).
  cbn [snd fst] in *. 
  change (main_cal 2 true false 2 2 0 (fun _ => wsample true) (fun _ => RtoC 0)) with (A (0, 0)) in *.
  change (main_cal 2 true false 2 2 1 (fun _ => wsample true) (fun _ => RtoC 0)) with (A (0, 1)) in *.
  change (0 =? 0) with true in *. change (1 =? 0) with false in *. cbv iota in *.
  clearbody A. split.
  - assert (EW : fst (fst (average_we [(0, 0); (0, 1)] A (0, 0))) = 2%R).
    { unfold average_we. cbn [length]. change (1 <? Z.of_nat 2) with true. cbv iota. cbn [fst rsum]. rewrite W0, W1. lra. }
    rewrite EW.
    set (o := average_vec [(0, 0); (0, 1)] 2 (fun p => OO (A p)) (0, 0)).
    set (h := average_vec [(0, 0); (0, 1)] 2 (fun p => HO (A p)) (0, 0)).
    assert (E2 : fst (o 2) = (1 / 2)%R).
    { unfold o, average_vec. cbn [length]. change (1 <? Z.of_nat 2) with true. cbv iota. cbn [csum]. rewrite O0, O1 by lia. unfold Cmult, Cplus, RtoC. cbn [fst snd]. lra. }
    unfold operate_by_S. rewrite xdot_rsum by lia. unfold dgemv_N, dgemv_T.
    assert (V2 : forall p, vstcO (cg_init 2 2 1 1 (fun k => k) o h (Store (A p))) 0 = (1 / 2)%R).
    { intros p. unfold cg_init, loop. change (zrange 0 1) with [0]. change (zrange 0 2) with [0; 1]. cbn [fold_left vstcO]. rewrite upd_same. exact E2. }
    assert (VR : forall p i, i = 0 \/ i = 1 -> vOs_real (cg_init 2 2 1 1 (fun k => k) o h (Store (A p))) i = fst (Store (A p) (2 + i * 4)) /\
                             vOs_imag (cg_init 2 2 1 1 (fun k => k) o h (Store (A p))) i = snd (Store (A p) (2 + i * 4))).
    { intros p i Hi. unfold cg_init, loop. change (zrange 0 1) with [0]. change (zrange 0 2) with [0; 1]. cbn [fold_left vOs_real vOs_imag fst snd].
      change (0 + 0 * 1) with 0. change (0 + 1 * 1) with 1. destruct Hi; subst i; unfold upd; cbn [Z.eqb Pos.eqb]; split; reflexivity. }
    change (zrange 0 1) with [0]. change (zrange 0 2) with [0; 1]. cbn [rsum]. rewrite !V2.
    change (0 + 0 * 1) with 0. change (0 + 1 * 1) with 1.
    pose proof (VR (0, 0) 0 ltac:(now left)) as (-> & ->). pose proof (VR (0, 0) 1 ltac:(now right)) as (-> & ->).
    pose proof (VR (0, 1) 0 ltac:(now left)) as (-> & ->). pose proof (VR (0, 1) 1 ltac:(now right)) as (-> & ->).
    rewrite !S0, !S1 by lia. change (1 =? 1) with true. change (0 =? 1) with false. change (0 =? 0) with true. change (1 =? 0) with false. cbv iota. cbn [fst snd RtoC]. lra.
  - unfold covO, rmean, total_weight, all_samples. change (zrange 0 1) with [0]. change (zrange 0 2) with [0; 1]. unfold dO, wsample. cbn. field.
Qed.

(** ** both components of parameter 0 selected, loads before stores: the change of the real part is lost *)
Definition race_sel : selection := Sel 2 (fun k => k) 0 0.
Lemma race_lost :
  complete_schedule 2 [Rd 0; Rd 1; Wr 0; Wr 1] /\
  parallel_update race_sel (fun _ => 1%R) [Rd 0; Rd 1; Wr 0; Wr 1] (fun _ => RtoC 0) 0 = Ci /\
  update_para 0 race_sel (fun _ => 1%R) (fun _ => RtoC 0) 0 = Cplus (RtoC 1) Ci.
Proof.
  split; [|split].
  - repeat split.
    + repeat constructor; cbn; intuition discriminate.
    + cbn in H. destruct H as [H|[H|[H|[H|[]]]]]; inversion H; lia.
    + cbn in H. destruct H as [H|[H|[H|[H|[]]]]]; inversion H; lia.
    + intros H. assert (si = 0 \/ si = 1) as [->| ->] by lia; cbn; auto.
    + cbn in H. destruct H as [H|[H|[H|[H|[]]]]]; inversion H; lia.
    + cbn in H. destruct H as [H|[H|[H|[H|[]]]]]; inversion H; lia.
    + intros H. assert (si = 0 \/ si = 1) as [->| ->] by lia; cbn; auto.
    + intros pre post si H. destruct pre as [|a pre]; [discriminate|]. destruct pre as [|b pre]; [discriminate|].
      injection H as <- <- H. destruct pre as [|c pre]; injection H as <- H; [cbn; auto|].
      destruct pre as [|d pre]; injection H as <- H; [cbn; auto|]. destruct pre; discriminate.
  - unfold parallel_update. cbn. unfold upd, cell_of, increment. cbn. unfold Cplus, Cmult, RtoC, Ci. cbn. f_equal; ring.
  - unfold update_para. cbn [Z.eqb nSmat race_sel]. unfold loop. change (zrange 0 2) with [0; 1]. cbn. unfold upd. cbn. unfold Cplus, Cmult, RtoC, Ci. cbn. f_equal; ring.
Qed.

(** ** combinations used in Properties.v *)
Lemma assembled S groups gsize N smp st me nn idx del dt S0 g0 :
  0 < S -> 0 <= N -> (forall g, 0 <= g < groups -> 1 <= gsize g) ->
  let l := all_samples groups N smp in
  let ps := procs groups gsize in
  let A := fun p => main_cal S false false N (gsize (fst p)) (snd p) (smp (fst p)) (st p) in
  In me ps -> total_weight l <> 0%R ->
  (forall k, 0 <= k < nn -> 0 <= idx k < 2 * S - 2) ->
  let M := stcOptInit S del dt nn idx (average_vec ps (total_weight l) (fun p => OO (A p)) me)
             (average_vec ps (total_weight l) (fun p => HO (A p)) me) S0 g0 in
  (forall i j, 0 <= i < nn -> 0 <= j < nn -> fst M (i + nn * j) = (covO l (idx i) (idx j) * (if i =? j then 1 + del else 1))%R) /\
  (forall i, 0 <= i < nn -> snd M i = (- 2 * dt * force l (idx i))%R).
Proof.
  intros HS HN Hg l ps A Hme HW Hidx M. destruct (averages_direct S groups gsize N smp st me HS HN Hg Hme HW) as (_ & HA).
  split.
  - intros i j Hi Hj. apply (smat_entry S nn idx l _ _ del dt); assumption.
  - intros i Hi. apply (force_entry S nn idx l _ _ del dt); assumption.
Qed.
Lemma cov_props l idx del n : 0 <= n -> (forall s, In s (counted l) -> 0 <= wgt s)%R -> (0 < total_weight l)%R -> (0 <= del)%R ->
  symmetric n (covMat l idx del) /\ pos_semidef n (covMat l idx del) /\
  ((0 < del)%R -> (forall i, 0 <= i < n -> (0 < covO l (idx i) (idx i))%R) -> pos_def n (covMat l idx del)).
Proof.
  intros Hn Hw HW Hd. split; [apply covMat_sym|]. split; [now apply covMat_psd|]. intros. now apply covMat_pd.
Qed.
Lemma operator_cov S groups N nn idx smp st me del dt :
  0 < S -> 0 <= N -> 0 <= nn ->
  (forall g i, 0 <= g < groups -> 0 <= i < N -> ok (smp g i) = true /\ wgt (smp g i) = 1%R) ->
  let l := all_samples groups N smp in
  let ps := procs groups (fun _ => 1) in
  let A := fun p => main_cal S true false N 1 (snd p) (smp (fst p)) (st p) in
  In me ps -> total_weight l <> 0%R -> (forall k, 0 <= k < nn -> 0 <= idx k < 2 * S - 2) ->
  let OO := average_vec ps (total_weight l) (fun p => OO (A p)) me in
  let HO := average_vec ps (total_weight l) (fun p => HO (A p)) me in
  let V := fun p => cg_init S N nn dt idx OO HO (Store (A p)) in
  (forall x si, 0 <= si < nn -> operate_by_S nn N (total_weight l) del ps V me x si =
    rsum (zrange 0 nn) (fun sj => covO l (idx si) (idx sj) * (if si =? sj then 1 + del else 1) * x sj)%R) /\
  (forall si, 0 <= si < nn -> vg (V me) si = (- 2 * dt * force l (idx si))%R).
Proof.
  intros HS HN Hn Hok l ps A Hme HW Hidx OO HO V.
  destruct (averages_cg S groups N smp st me HS HN Hok Hme HW) as (_ & HA & Hst). split.
  - intros x si Hsi. apply (operate_matrix S groups N nn idx smp OO HO (fun p => Store (A p)) del dt me); assumption.
  - intros si Hsi. apply (cg_force S groups N nn idx smp OO HO (fun p => Store (A p)) dt); assumption.
Qed.
Lemma block_cyclic n mb np : 0 <= n -> 0 < mb -> 0 < np ->
  (forall r ir, 0 <= r < np -> 0 <= ir -> (ir < numroc n mb r np <-> local_to_global ir mb np r < n)) /\
  (forall r ir r' ir', 0 <= r < np -> 0 <= r' < np -> 0 <= ir -> 0 <= ir' ->
     local_to_global ir mb np r = local_to_global ir' mb np r' -> r = r' /\ ir = ir') /\
  (forall s, 0 <= s < n -> exists r ir, 0 <= r < np /\ 0 <= ir < numroc n mb r np /\ local_to_global ir mb np r = s).
Proof.
  intros Hn Hb Hp. split; [|split].
  - intros. now apply numroc_iff.
  - intros r ir r' ir' Hr Hr' Hi Hi' E. now apply (l2g_inj mb np).
  - intros s Hs. now apply (l2g_surj n mb np s).
Qed.
Lemma distributed_entries S del dt n mb nprow npcol myprow mypcol idx OO HO s0 g1 S0 g0 ir ic :
  0 <= n -> 0 < mb -> 0 < nprow -> 0 < npcol -> 0 <= myprow < nprow -> 0 <= mypcol < npcol ->
  (forall a b, 0 <= a < n -> 0 <= b < n -> idx a = idx b -> a = b) ->
  0 <= ir < numroc n mb myprow nprow -> 0 <= ic < numroc n mb mypcol npcol ->
  pd_block S del n mb nprow npcol myprow mypcol idx OO s0 (ir + ic * numroc n mb myprow nprow) =
  fst (stcOptInit S del dt n idx OO HO S0 g0) (local_to_global ir mb nprow myprow + n * local_to_global ic mb npcol mypcol) /\
  pd_vec dt n mb nprow myprow idx OO HO g1 ir = snd (stcOptInit S del dt n idx OO HO S0 g0) (local_to_global ir mb nprow myprow).
Proof. intros. split; [now apply block_entry|now apply block_vec]. Qed.
