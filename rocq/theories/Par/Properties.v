(** Properties C01, C02, C03, C31. *)
From Coq Require Import ZArith List Bool.
From Verif Require Import Base.ZLoop Par.Model Par.Proofs.
Import ListNotations.
Local Open Scope Z_scope.

(** C01: the ranges of ranks 0..size-1, concatenated in rank order, are 0,1,...,n-1. *)
Theorem C01_split_loop_tiles : forall n size, 0 <= n -> 1 <= size ->
  flat_map (fun r => zrange (fst (split_loop n r size)) (snd (split_loop n r size))) (zrange 0 size)
  = zrange 0 n.
Proof. exact split_concat. Qed.
Print Assumptions C01_split_loop_tiles.

(** C01: every iteration is executed by exactly one process. *)
Theorem C01_split_loop_unique_owner : forall n size, 0 <= n -> 1 <= size ->
  forall k, 0 <= k < n ->
  exists! rank, 0 <= rank < size /\ fst (split_loop n rank size) <= k < snd (split_loop n rank size).
Proof. exact split_unique. Qed.
Print Assumptions C01_split_loop_unique_owner.

(** C01: no process is given an iteration outside [0,n), and ranges are well formed. *)
Theorem C01_split_loop_within : forall n size r, 0 <= n -> 1 <= size -> 0 <= r < size ->
  0 <= fst (split_loop n r size) <= snd (split_loop n r size) /\ snd (split_loop n r size) <= n.
Proof. exact split_within. Qed.
Print Assumptions C01_split_loop_within.

(** C01: the shares of two processes differ by at most one iteration. *)
Theorem C01_split_loop_balanced : forall n size r1 r2,
  0 <= n -> 1 <= size -> 0 <= r1 < size -> 0 <= r2 < size ->
  Z.abs ((snd (split_loop n r1 size) - fst (split_loop n r1 size))
         - (snd (split_loop n r2 size) - fst (split_loop n r2 size))) <= 1.
Proof. exact split_balanced. Qed.
Print Assumptions C01_split_loop_balanced.

Example C01_case : map (fun r => split_loop 10 r 4) (zrange 0 4) = [(0,2);(2,4);(4,7);(7,10)]
                   /\ map (fun r => split_loop 2 r 4) (zrange 0 4) = [(0,1);(1,2);(2,2);(2,2)].
Proof. vm_compute. split; reflexivity. Qed.

(** C02: with 1 <= N <= size every process gets a job number in [0,N). *)
Theorem C02_multidef_total : forall N rank size, 1 <= N -> N <= size -> 0 <= rank < size ->
  exists g, multidef_group N rank size = MD_group g /\ 0 <= g < N.
Proof. exact multidef_total. Qed.
Print Assumptions C02_multidef_total.

(** C02: job numbers are monotone in the rank (jobs are blocks of consecutive ranks). *)
Theorem C02_multidef_monotone : forall N r1 r2 size g1 g2,
  1 <= N -> N <= size -> 0 <= r1 <= r2 -> r2 < size ->
  multidef_group N r1 size = MD_group g1 -> multidef_group N r2 size = MD_group g2 -> g1 <= g2.
Proof. exact multidef_mono. Qed.
Print Assumptions C02_multidef_monotone.

Definition job_size (N size g : Z) : Z :=
  Z.of_nat (length (filter (fun r => match multidef_group N r size with
                                     | MD_group g' => g' =? g | _ => false end) (zrange 0 size))).

(** C02: every job gets floor(size/N) or floor(size/N)+1 processes, hence at least one. *)
Theorem C02_multidef_balanced : forall N size g, 1 <= N -> N <= size -> 0 <= g < N ->
  1 <= size / N /\ size / N <= job_size N size g <= size / N + 1.
Proof. exact multidef_job_size. Qed.
Print Assumptions C02_multidef_balanced.

Example C02_case : map (fun r => multidef_group 3 r 8) (zrange 0 8)
  = map MD_group [0;0;0;1;1;1;2;2].
Proof. vm_compute. reflexivity. Qed.

(** C02, violated boundary: "-m 0" passes the size check and divides by zero on every process. *)
Theorem C02_multidef_zero_refuted : exists N rank size,
  N <= size /\ 0 <= rank < size /\ multidef_group N rank size = MD_undefined.
Proof. exact multidef_zero. Qed.
Print Assumptions C02_multidef_zero_refuted.

(** C03: same seed iff same block of NSplitSize consecutive ranks. *)
Theorem C03_seed_iff_same_group : forall seed r1 r2 k, 1 <= k -> 0 <= r1 -> 0 <= r2 ->
  (process_seed seed r1 k = process_seed seed r2 k <->
   exists g, g * k <= r1 < (g + 1) * k /\ g * k <= r2 < (g + 1) * k).
Proof. exact seed_iff. Qed.
Print Assumptions C03_seed_iff_same_group.

(** C03: every full group has exactly NSplitSize members. *)
Theorem C03_full_group_size : forall size k g, 1 <= k -> 0 <= g -> (g + 1) * k <= size ->
  Z.of_nat (length (filter (fun r => sampling_group r k =? g) (zrange 0 size))) = k.
Proof. exact group_members. Qed.
Print Assumptions C03_full_group_size.

Example C03_case : map (fun r => process_seed 100 r 3) (zrange 0 7) = [100;100;100;101;101;101;102].
Proof. vm_compute. reflexivity. Qed.

(** C31: the calls tile [0,nData) in order, each with 1..2^20 elements, and the loop terminates. *)
Theorem C31_chunks_tile : forall nData, nData <= INT_MAX - D_MpiSendMax + 1 ->
  exists fuel calls, safe_mpi_calls fuel nData = CK_done calls /\
    flat_map (fun c => zrange (fst c) (fst c + snd c)) calls = zrange 0 nData /\
    Forall (fun c => 0 < snd c <= 1048576) calls.
Proof. exact safe_mpi_calls_spec. Qed.
Print Assumptions C31_chunks_tile.

(** C31: hence the chunked Allreduce delivers the element-wise sum over the ranks in all cells below
    nData and changes nothing else. *)
Theorem C31_allreduce_complete : forall (V : Type) (add : V -> V -> V) (zero : V) sends nData recv,
  nData <= INT_MAX - D_MpiSendMax + 1 ->
  exists fuel calls, safe_mpi_calls fuel nData = CK_done calls /\
  forall j, fold_left (mpi_allreduce_call add zero sends) calls recv j
    = if (0 <=? j) && (j <? nData) then fold_right (fun s acc => add (s j) acc) zero sends else recv j.
Proof. exact chunked_allreduce. Qed.
Print Assumptions C31_allreduce_complete.

(** C31: and the chunked Bcast makes the buffer equal to the root's below nData. *)
Theorem C31_bcast_complete : forall (V : Type) (root : Z -> V) nData buff,
  nData <= INT_MAX - D_MpiSendMax + 1 ->
  exists fuel calls, safe_mpi_calls fuel nData = CK_done calls /\
  forall j, fold_left (mpi_bcast_call root) calls buff j
    = if (0 <=? j) && (j <? nData) then root j else buff j.
Proof. exact chunked_bcast. Qed.
Print Assumptions C31_bcast_complete.

Example C31_case : safe_mpi_calls 5 2500000 = CK_done [(0,1048576);(1048576,1048576);(2097152,402848)].
Proof. vm_compute. reflexivity. Qed.

(** C31, violated boundary: for message lengths within 2^20-1 of INT_MAX the index addition overflows
    (undefined behaviour), whatever the iteration budget. *)
Theorem C31_chunks_overflow_refuted : forall nData, INT_MAX - D_MpiSendMax + 1 < nData <= INT_MAX ->
  forall fuel, (2048 <= fuel)%nat -> safe_mpi_calls fuel nData = CK_overflow.
Proof. exact chunk_overflow_all. Qed.
Print Assumptions C31_chunks_overflow_refuted.
