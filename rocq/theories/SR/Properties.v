(** Properties C32-C36, C38, C48-C50 (stochastic reconfiguration). *)
From Coq Require Import ZArith List Bool Reals Lia Lra.
From Coquelicot Require Import Complex.
From Verif Require Import Base.ZLoop Base.RSum Par.Model SR.Model SR.Spec SR.Proofs SR.ProofsSel SR.ProofsMat SR.ProofsCG SR.ProofsConv SR.ProofsFin SR.ProofsEnd.
Import ListNotations.
Local Open Scope Z_scope.

(** C32: whatever the division of the processes into groups and of the samples among the processes of a group, every
    process ends with the total weight, the weighted mean energy, its square, and the weighted means <O_j conj O_i>,
    <e O_j> over the samples that were not skipped.  (The right-hand sides mention no process.) *)
Theorem C32_averages_over_all_samples : forall S groups gsize N smp st me,
  0 < S -> 0 <= N -> (forall g, 0 <= g < groups -> 1 <= gsize g) ->
  let l := all_samples groups N smp in
  let ps := procs groups gsize in
  let A := fun p => main_cal S false false N (gsize (fst p)) (snd p) (smp (fst p)) (st p) in
  In me ps -> total_weight l <> 0%R ->
  average_we ps A me = (total_weight l, cmean l ene, cmean l (fun x => Cmult (ene x) (Cconj (ene x)))) /\
  is_average S l (average_vec ps (total_weight l) (fun p => OO (A p)) me) (average_vec ps (total_weight l) (fun p => HO (A p)) me).
Proof. exact averages_direct. Qed.
Print Assumptions C32_averages_over_all_samples.

(** ... and process 0 ends with the weighted means of all measured correlation functions *)
Theorem C32_observables_over_all_samples : forall N1 N2 N3 ca groups gsize N smp,
  0 <= N1 -> 0 <= N2 -> 0 <= N3 -> 0 <= N -> 0 < groups -> (forall g, 0 <= g < groups -> 1 <= gsize g) ->
  let l := all_samples groups N smp in
  let ps := procs groups gsize in
  let A := fun p => green_cal N1 N2 N3 ca N (gsize (fst p)) (snd p) (smp (fst p)) in
  total_weight l <> 0%R ->
  rsum ps (fun p => fst (A p)) = total_weight l /\
  forall k, 0 <= k < N1 + N2 + N3 ->
  average_reduce ps (total_weight l) (fun p => snd (A p)) (0, 0) (0, 0) k = cmean l (fun x => green_cell N1 N2 ca x k).
Proof. exact green_average. Qed.
Print Assumptions C32_observables_over_all_samples.

(** two groups of one and two processes, five samples each, the second sample of every group skipped: the average
    energy over the eight counted samples is that of 0,2,3,4 and 10,12,13,14 *)
Definition ex_smp (g i : Z) : sample :=
  Smp (negb (i =? 1)) 1 (RtoC (IZR (10 * g + i))) (fun _ => RtoC (IZR (2 * (i mod 2) - 1))) (fun _ => RtoC (IZR i)) (fun _ => RtoC (IZR g)).
Example C32_case :
  procs 2 (fun g => g + 1) = [(0, 0); (1, 0); (1, 1)] /\
  total_weight (all_samples 2 5 ex_smp) = 8%R /\ cmean (all_samples 2 5 ex_smp) ene = RtoC (58 / 8).
Proof.
  split; [reflexivity|]. unfold cmean, total_weight, all_samples. change (zrange 0 2) with [0; 1]. change (zrange 0 5) with [0; 1; 2; 3; 4].
  cbn [flat_map map app counted filter ok ex_smp Z.eqb Pos.eqb negb rsum csum wgt ene Z.mul Z.add Pos.mul Pos.add Z.sub].
  split; [lra|]. unfold Cdiv, Cmult, Cinv, Cplus, RtoC. cbn. f_equal; field.
Qed.

(** C33: the matrix computed from stored derivatives equals the one accumulated sample by sample -- on a process whose
    samples start at 0 and of which none is skipped.  The full statement (every process of every group, any skipped
    samples) is false: the two theorems after this one. *)
Theorem C33_store_equals_direct_partial : forall S N size rank smp st st', 0 < S -> 0 <= N -> 1 <= size -> 0 <= rank < size ->
  fst (split_loop N rank size) = 0 ->
  (forall i, 0 <= i < snd (split_loop N rank size) -> ok (smp i) = true /\ (0 <= wgt (smp i))%R) ->
  let d := main_cal S false false N size rank smp st' in
  let r := main_cal S false true N size rank smp st in
  Wc r = Wc d /\ Etot r = Etot d /\ Etot2 r = Etot2 d /\
  (forall k, 0 <= k < 2 * S * (2 * S) -> OO r k = OO d k) /\ (forall k, 0 <= k < 2 * S -> HO r k = HO d k).
Proof. exact store_equals_direct. Qed.
Print Assumptions C33_store_equals_direct_partial.
Example C33_case : fst (split_loop 7 0 3) = 0 /\ snd (split_loop 7 0 3) = 2 /\
  forall i, 0 <= i < 2 -> ok (Smp true 2 (RtoC 1) (fun _ => Ci) (fun _ => RtoC 0) (fun _ => RtoC 0)) = true.
Proof. split; [reflexivity|]. split; [reflexivity|]. intros; reflexivity. Qed.
(** the second of two processes writes its sample to slot 1 but reads slot 0 *)
Theorem C33_second_process_refuted :
  let smp := fun _ => wsample true in
  let d := main_cal 1 false false 2 2 1 smp (fun _ => RtoC 0) in
  let r := main_cal 1 false true 2 2 1 smp (fun _ => RtoC 0) in
  OO d 0 = RtoC 1 /\ OO r 0 = RtoC 0.
Proof. exact store_offset_wrong. Qed.
Print Assumptions C33_second_process_refuted.
(** a skipped sample contributes what the previous optimisation step left in its slot *)
Theorem C33_skipped_sample_refuted :
  let first := main_cal 1 false true 1 1 0 (fun _ => wsample true) (fun _ => RtoC 0) in
  let d := main_cal 1 false false 1 1 0 (fun _ => wsample false) (Store first) in
  let r := main_cal 1 false true 1 1 0 (fun _ => wsample false) (Store first) in
  OO d 0 = RtoC 0 /\ OO r 0 = RtoC 1.
Proof. exact store_stale_wrong. Qed.
Print Assumptions C33_skipped_sample_refuted.

(** C34: with thr the largest diagonal times the cut-off ratio, the selection lists exactly the free components in
    increasing order, and the three counts are the numbers of free, cut and fixed components *)
Theorem C34_selection_partition : forall n OptFlag r cut, 0 < n ->
  let s := select n OptFlag r cut in
  exists m, is_rmax n r m /\ let thr := (m * cut)%R in
  (forall k, 0 <= k < nSmat s -> 0 <= smatToParaIdx s k < n /\ is_free OptFlag r thr (smatToParaIdx s k)) /\
  (forall k k', 0 <= k < k' -> k' < nSmat s -> smatToParaIdx s k < smatToParaIdx s k') /\
  (forall p, 0 <= p < n -> is_free OptFlag r thr p -> exists k, 0 <= k < nSmat s /\ smatToParaIdx s k = p) /\
  (forall k, nSmat s <= k < n -> smatToParaIdx s k = -1) /\
  (exists L, NoDup L /\ (forall p, In p L <-> 0 <= p < n /\ is_cut OptFlag r thr p) /\ cutNum s = Z.of_nat (length L)) /\
  (exists L, NoDup L /\ (forall p, In p L <-> 0 <= p < n /\ is_fixed OptFlag p) /\ optNum s = Z.of_nat (length L)) /\
  0 <= nSmat s <= n /\ nSmat s + cutNum s + optNum s = n.
Proof. exact select_spec. Qed.
Print Assumptions C34_selection_partition.
(** the update adds r_k to the k-th selected component and changes no other one; on an error nothing changes *)
Theorem C34_update_selected_only : forall info s r para,
  0 <= nSmat s -> (forall k k', 0 <= k < k' -> k' < nSmat s -> smatToParaIdx s k < smatToParaIdx s k') ->
  (info <> 0 -> forall i, update_para info s r para i = para i) /\
  (info = 0 ->
   (forall k, 0 <= k < nSmat s -> component (update_para info s r para) (smatToParaIdx s k) = (component para (smatToParaIdx s k) + r k)%R) /\
   (forall p, (forall k, 0 <= k < nSmat s -> smatToParaIdx s k <> p) -> component (update_para info s r para) p = component para p)).
Proof. exact update_spec. Qed.
Print Assumptions C34_update_selected_only.
(** four components: 0 fixed (with the largest diagonal), 1 and 3 free, 2 cut *)
Example C34_case :
  let s := select 4 (fun p => if p =? 0 then 0 else 1) (fun p => if p =? 0 then 10 else if p =? 2 then 0 else 5)%R (1 / 10) in
  nSmat s = 2 /\ smatToParaIdx s 0 = 1 /\ smatToParaIdx s 1 = 3 /\ optNum s = 1 /\ cutNum s = 1.
Proof.
  cbn zeta. unfold select.
  assert (E : diag_max 4 (fun p => if p =? 0 then 10 else if p =? 2 then 0 else 5)%R = 10%R).
  { unfold diag_max, loop. change (zrange 0 4) with [0; 1; 2; 3]. cbn [fold_left Z.eqb Pos.eqb].
    destruct (Rlt_dec 10 10); [lra|]. destruct (Rlt_dec 10 5); [lra|]. destruct (Rlt_dec 10 0); [lra|]. destruct (Rlt_dec 10 5); lra. }
  rewrite E. unfold loop. change (zrange 0 4) with [0; 1; 2; 3]. cbn [fold_left Z.eqb Pos.eqb negb].
  destruct (Rlt_dec 5 (10 * (1 / 10))); [lra|]. destruct (Rlt_dec 0 (10 * (1 / 10))); [|lra].
  cbn [nSmat smatToParaIdx optNum cutNum]. change (zrange (0 + 1 + 1) 4) with [2; 3]. cbn. unfold upd. cbn. repeat split.
Qed.

(** C35: the assembled matrix and right-hand side are the stabilised covariance of the derivatives and minus twice the
    step width times the energy covariance ... *)
Theorem C35_assembled_is_covariance : forall S groups gsize N smp st me nn idx del dt S0 g0,
  0 < S -> 0 <= N -> (forall g, 0 <= g < groups -> 1 <= gsize g) ->
  let l := all_samples groups N smp in
  let ps := procs groups gsize in
  let A := fun p => main_cal S false false N (gsize (fst p)) (snd p) (smp (fst p)) (st p) in
  In me ps -> total_weight l <> 0%R ->
  (forall k, 0 <= k < nn -> 0 <= idx k < 2 * S - 2) ->
  let M := stcOptInit S del dt nn idx (average_vec ps (total_weight l) (fun p => OO (A p)) me)
             (average_vec ps (total_weight l) (fun p => HO (A p)) me) S0 g0 in
  (forall i j, 0 <= i < nn -> 0 <= j < nn -> fst M (i + nn * j) = (covO l (idx i) (idx j) * (if i =? j then 1 + del else 1))%R) /\
  (forall i, 0 <= i < nn -> snd M i = (- 2 * dt * force l (idx i))%R).
Proof. exact assembled. Qed.
Print Assumptions C35_assembled_is_covariance.
(** ... which is symmetric and positive semidefinite, and positive definite when it is stabilised and every selected
    component varies *)
Theorem C35_covariance_matrix_psd : forall l idx del n, 0 <= n -> (forall s, In s (counted l) -> 0 <= wgt s)%R -> (0 < total_weight l)%R -> (0 <= del)%R ->
  symmetric n (covMat l idx del) /\ pos_semidef n (covMat l idx del) /\
  ((0 < del)%R -> (forall i, 0 <= i < n -> (0 < covO l (idx i) (idx i))%R) -> pos_def n (covMat l idx del)).
Proof. exact cov_props. Qed.
Print Assumptions C35_covariance_matrix_psd.
(** the diagonal the selection looks at is the covariance *)
Theorem C35_diagonal : forall S l OO HO p, total_weight l <> 0%R -> is_average S l OO HO -> 0 <= p < 2 * S - 2 -> sdiag S OO p = covO l p p.
Proof. exact sdiag_cov. Qed.
Print Assumptions C35_diagonal.
(** derivatives -1, 1 and energies 0, 1: covariance 1, force 1/2 *)
Definition ex_pm (g i : Z) : sample := Smp true 1 (RtoC (IZR i)) (fun _ => RtoC (IZR (2 * i - 1))) (fun _ => RtoC 0) (fun _ => RtoC 0).
Example C35_case : covO (all_samples 1 2 ex_pm) 0 0 = 1%R /\ force (all_samples 1 2 ex_pm) 0 = (1 / 2)%R /\ total_weight (all_samples 1 2 ex_pm) = 2%R.
Proof.
  unfold force, covO, rmean, total_weight, all_samples. change (zrange 0 1) with [0]. change (zrange 0 2) with [0; 1]. unfold dO, ex_pm. cbn.
  split; [|split]; lra.
Qed.

(** C36: the matrix-free operator multiplies by the same stabilised covariance, and its right-hand side is the same --
    when every group has one process, no sample is skipped and weights are 1.  The full statement (any groups, as in
    C35) is false: the next theorem. *)
Theorem C36_operator_is_covariance_partial : forall S groups N nn idx smp st me del dt,
  0 < S -> 0 <= N -> 0 <= nn ->
  (forall g i, 0 <= g < groups -> 0 <= i < N -> ok (smp g i) = true /\ wgt (smp g i) = 1%R) ->
  let l := all_samples groups N smp in
  let ps := procs groups (fun _ => 1) in
  let A := fun p => main_cal S true false N 1 (snd p) (smp (fst p)) (st p) in
  In me ps -> total_weight l <> 0%R -> (forall k, 0 <= k < nn -> 0 <= idx k < 2 * S - 2) ->
  let OO := average_vec ps (total_weight l) (fun p => OO (A p)) me in
  let HO := average_vec ps (total_weight l) (fun p => HO (A p)) me in
  let V := fun p => cg_init S N nn dt idx OO HO (Store (A p)) in
  (forall x si, 0 <= si < nn -> operate_by_S nn N (total_weight l) del ps V me x si =
    rsum (zrange 0 nn) (fun sj => covO l (idx si) (idx sj) * (if si =? sj then 1 + del else 1) * x sj)%R) /\
  (forall si, 0 <= si < nn -> vg (V me) si = (- 2 * dt * force l (idx si))%R).
Proof. exact operator_cov. Qed.
Print Assumptions C36_operator_is_covariance_partial.
(** two processes in one group, two samples with equal derivatives 1: the covariance is 0, the operator gives 3/4 *)
Theorem C36_group_of_two_refuted :
  let smp := fun _ _ => wsample true in
  let ps := procs 1 (fun _ => 2) in
  let A := fun p => main_cal 2 true false 2 2 (snd p) (smp (fst p)) (fun _ => RtoC 0) in
  let W := fst (fst (average_we ps A (0, 0))) in
  let OO := average_vec ps W (fun p => OO (A p)) (0, 0) in
  let HO := average_vec ps W (fun p => HO (A p)) (0, 0) in
  let V := fun p => cg_init 2 2 1 1 (fun k => k) OO HO (Store (A p)) in
  operate_by_S 1 2 W 0 ps V (0, 0) (fun _ => 1%R) 0 = (3 / 4)%R /\ covO (all_samples 1 2 smp) 0 0 = 0%R.
Proof. exact operate_wrong. Qed.
Print Assumptions C36_group_of_two_refuted.
Example C36_case : (forall g i, 0 <= g < 3 -> 0 <= i < 2 -> ok (ex_pm g i) = true /\ wgt (ex_pm g i) = 1%R) /\ procs 3 (fun _ => 1) = [(0, 0); (1, 0); (2, 0)].
Proof. split; [intros; split; reflexivity|reflexivity]. Qed.

(** C38: after a completed run of itr steps, slot s of the record holds the state after step itr-smp+s, for each of
    the last smp steps, and nothing else was written; [run j] is the state before step j *)
Theorem C38_last_steps_recorded : forall NPara itr smp step o data res, 0 <= NPara -> 0 <= smp <= itr ->
  para_opt NPara itr smp step o data = Some res ->
  exists run, run 0 = o /\ run itr = fst res /\ (forall j, 0 <= j < itr -> step j (run j) = Some (run (j + 1))) /\
  (forall s, 0 <= s < smp -> slot_holds NPara s (run (itr - smp + s + 1)) (snd res)) /\
  (forall x, ~ (0 <= x < (2 + NPara) * smp) -> snd res x = data x).
Proof. exact para_opt_run. Qed.
Print Assumptions C38_last_steps_recorded.
(** the printed mean and deviation of quantity i are those of its smp slots *)
Theorem C38_mean_and_deviation : forall K i n data, 0 <= K ->
  fst (calc_ave_var K i n data) = Cdiv (csum (zrange 0 K) (fun s => data (i + n * s))) (RtoC (IZR K)) /\
  snd (calc_ave_var K i n data) = sqrt (rsum (zrange 0 K) (fun s => Rsqr (Cmod (Cminus (data (i + n * s)%Z) (fst (calc_ave_var K i n data))))) / (IZR K - 1)).
Proof. exact calc_ave_var_spec. Qed.
Print Assumptions C38_mean_and_deviation.
(** three steps, the last two recorded, one parameter that counts the steps *)
Example C38_case :
  match para_opt 1 3 2 (fun k o => Some (OptData (RtoC (IZR k)) (oE2 o) (fun i => Cplus (oPara o i) (RtoC 1)))) (OptData (RtoC 0) (RtoC 7) (fun _ => RtoC 0)) (fun _ => RtoC 0) with
  | Some (_, data) => data 0 = RtoC 1 /\ data 1 = RtoC 7 /\ data 2 = RtoC 2 /\ data 3 = RtoC 2 /\ data 5 = RtoC 3
  | None => False end.
Proof.
  unfold para_opt. change (zrange 0 3) with [0; 1; 2]. cbn [opt_steps]. change (3 - 2 <=? 0) with false. change (3 - 2 <=? 1) with true. change (3 - 2 <=? 2) with true.
  cbv iota. unfold store_opt, loop. change (zrange 0 1) with [0]. cbn. unfold upd. cbn. unfold Cplus, RtoC. cbn. repeat split; f_equal; ring.
Qed.

(** C48: at the end of the iteration (also after the recomputations) the residual vector is exactly g - A x, so an early
    stop means a squared residual below the threshold, for any linear operator *)
Theorem C48_residual_exact : forall n A g thresh max_iter, 0 <= n -> 0 <= max_iter -> (0 < thresh)%R ->
  (forall x y a i, (0 <= i < n)%Z -> A (fun i => x i + a * y i) i = A x i + a * A y i)%R ->
  let s := cg_main n max_iter thresh A g in
  (forall i, (0 <= i < n)%Z -> cr s i = g i - A (cx s) i)%R /\
  (cstop s = true -> (rsum (zrange 0 n) (fun i => Rsqr (g i - A (cx s) i)) < thresh)%R).
Proof. exact cg_residual. Qed.
Print Assumptions C48_residual_exact.
(** for a symmetric positive definite matrix, as many iterations as unknowns suffice *)
Theorem C48_converges : forall n A M g thresh max_iter, 0 <= n <= max_iter -> (0 < thresh)%R ->
  (forall x i, 0 <= i < n -> A x i = rsum (zrange 0 n) (fun j => M i j * x j)%R) -> symmetric n M -> pos_def n M ->
  solves n M g (cx (cg_main n max_iter thresh A g)) thresh.
Proof. exact cg_matrix. Qed.
Print Assumptions C48_converges.
(** from the samples to the parameter change: with stabilisation, the change computed by every process solves the
    stabilised covariance equations of the selected components to the requested tolerance *)
Theorem C48_parameter_change_solves : forall NPara groups N smp st OptFlag del dt cut tol (maxit : Z) me,
  0 <= NPara -> 0 <= N -> (forall g i, 0 <= g < groups -> 0 <= i < N -> ok (smp g i) = true /\ wgt (smp g i) = 1%R) ->
  (0 < del)%R -> (0 < cut)%R -> (0 < tol)%R ->
  let S := NPara + 1 in
  let l := all_samples groups N smp in
  let ps := procs groups (fun _ => 1) in
  let A := fun p => main_cal S true false N 1 (snd p) (smp (fst p)) (st p) in
  let W := fst (fst (average_we ps A me)) in
  let OO := average_vec ps W (fun p => OO (A p)) me in
  let HO := average_vec ps W (fun p => HO (A p)) me in
  let s := select (2 * NPara) OptFlag (cg_sdiag S OO) cut in
  let V := fun p => cg_init S N (nSmat s) dt (smatToParaIdx s) OO HO (Store (A p)) in
  In me ps -> total_weight l <> 0%R -> 0 < nSmat s -> (exists p, 0 <= p < 2 * NPara /\ (0 < covO l p p)%R) ->
  (maxit <= 0 \/ nSmat s <= maxit) ->
  solves (nSmat s) (covMat l (smatToParaIdx s) del) (fun i => - 2 * dt * force l (smatToParaIdx s i))%R
    (cx (cg_main (nSmat s) (cg_max_iter maxit (nSmat s)) (cg_thresh tol (nSmat s)) (operate_by_S (nSmat s) N W del ps V me) (vg (V me))))
    (cg_thresh tol (nSmat s)).
Proof. exact cg_end_to_end. Qed.
Print Assumptions C48_parameter_change_solves.
(** one unknown: 2 x = 6 is solved in one iteration *)
Example C48_case : pos_def 1 (fun _ _ => 2%R) /\ cx (cg_main 1 1 1 (fun x i => 2 * x i)%R (fun _ => 6%R)) 0 = 3%R.
Proof.
  split.
  - intros x (i & Hi & Hx). assert (i = 0) by lia. subst i. change (zrange 0 1) with [0]. cbn [rsum].
    assert (0 < x 0%Z * x 0%Z)%R by (apply Rlt_0_sqr; assumption). lra.
  - unfold cg_main, loop. change (zrange 0 1) with [0]. cbn [fold_left]. unfold cg_step, cg_start. cbn [cstop cdelta]. unfold xdot, loop. change (zrange 0 1) with [0]. cbn [fold_left].
    destruct (Rlt_dec _ _); [lra|]. cbn. field.
Qed.

(** C49: in the block-cyclic distribution each process' local indices are exactly those of its global indices below n,
    distinct local indices of all processes are distinct global ones, and every global index is held *)
Theorem C49_block_cyclic_bijection : forall n mb np, 0 <= n -> 0 < mb -> 0 < np ->
  (forall r ir, 0 <= r < np -> 0 <= ir -> (ir < numroc n mb r np <-> local_to_global ir mb np r < n)) /\
  (forall r ir r' ir', 0 <= r < np -> 0 <= r' < np -> 0 <= ir -> 0 <= ir' ->
     local_to_global ir mb np r = local_to_global ir' mb np r' -> r = r' /\ ir = ir') /\
  (forall s, 0 <= s < n -> exists r ir, 0 <= r < np /\ 0 <= ir < numroc n mb r np /\ local_to_global ir mb np r = s).
Proof. exact block_cyclic. Qed.
Print Assumptions C49_block_cyclic_bijection.
(** every local entry of the distributed matrix and vector is the corresponding entry of the assembled one *)
Theorem C49_distributed_entries : forall S del dt n mb nprow npcol myprow mypcol idx OO HO s0 g1 S0 g0 ir ic,
  0 <= n -> 0 < mb -> 0 < nprow -> 0 < npcol -> 0 <= myprow < nprow -> 0 <= mypcol < npcol ->
  (forall a b, 0 <= a < n -> 0 <= b < n -> idx a = idx b -> a = b) ->
  0 <= ir < numroc n mb myprow nprow -> 0 <= ic < numroc n mb mypcol npcol ->
  pd_block S del n mb nprow npcol myprow mypcol idx OO s0 (ir + ic * numroc n mb myprow nprow) =
  fst (stcOptInit S del dt n idx OO HO S0 g0) (local_to_global ir mb nprow myprow + n * local_to_global ic mb npcol mypcol) /\
  pd_vec dt n mb nprow myprow idx OO HO g1 ir = snd (stcOptInit S del dt n idx OO HO S0 g0) (local_to_global ir mb nprow myprow).
Proof. exact distributed_entries. Qed.
Print Assumptions C49_distributed_entries.
(** gathering the distributed solution restores the vector *)
Theorem C49_gather_restores : forall n mb nprow (y : Z -> R) g si, 0 < mb -> 0 < nprow -> 0 <= si < n ->
  (forall r ir, 0 <= r < nprow -> 0 <= ir < numroc n mb r nprow -> g r ir = y (local_to_global ir mb nprow r)) ->
  pd_gather n mb nprow g si = y si.
Proof. exact gather_restores. Qed.
Print Assumptions C49_gather_restores.
(** ten rows in blocks of two over three processes *)
Example C49_case : map (fun r => map (fun ir => local_to_global ir 2 3 r) (zrange 0 (numroc 10 2 r 3))) (zrange 0 3) = [[0; 1; 6; 7]; [2; 3; 8; 9]; [4; 5]].
Proof. reflexivity. Qed.

(** C50: the parallel update of the conjugate-gradient variant gives the sequential result for every interleaving of
    its loads and stores -- when no two selected components belong to the same parameter.  Without this condition the
    statement is false: the next theorem. *)
Theorem C50_parallel_update_partial : forall s r para sched, 0 <= nSmat s ->
  (forall a b, 0 <= a < nSmat s -> 0 <= b < nSmat s -> cell_of s a = cell_of s b -> a = b) ->
  complete_schedule (nSmat s) sched -> forall c, parallel_update s r sched para c = update_para 0 s r para c.
Proof. exact parallel_ok. Qed.
Print Assumptions C50_parallel_update_partial.
Theorem C50_both_components_refuted :
  complete_schedule 2 [Rd 0; Rd 1; Wr 0; Wr 1] /\
  parallel_update race_sel (fun _ => 1%R) [Rd 0; Rd 1; Wr 0; Wr 1] (fun _ => RtoC 0) 0 = Ci /\
  update_para 0 race_sel (fun _ => 1%R) (fun _ => RtoC 0) 0 = Cplus (RtoC 1) Ci.
Proof. exact race_lost. Qed.
Print Assumptions C50_both_components_refuted.
Example C50_case : let s := Sel 2 (fun k => if k =? 0 then 1 else 2) 0 0 in
  (forall a b, 0 <= a < 2 -> 0 <= b < 2 -> cell_of s a = cell_of s b -> a = b) /\ complete_schedule 2 [Rd 0; Rd 1; Wr 0; Wr 1].
Proof.
  split; [|exact (proj1 race_lost)]. intros a b Ha Hb. assert (a = 0 \/ a = 1) as [->| ->] by lia; assert (b = 0 \/ b = 1) as [->| ->] by lia; cbv; congruence.
Qed.
