(** Work distribution: loop splitting, MPI groups, chunked MPI transfers. *)
From Coq Require Import ZArith List Bool.
Import ListNotations.
Local Open Scope Z_scope.

(** src/mVMC/splitloop.c:31-69 SplitLoop.  C [/] and [%] on [int] are [Z.quot] and [Z.rem].
    Returns ( *start, *end ).  mpiSize = 0 would be a division by zero in C (MPI never produces it). *)
Definition split_loop (loopLength mpiRank mpiSize : Z) : Z * Z :=
  if mpiSize <? loopLength then
    let imod := Z.rem loopLength mpiSize in
    if imod =? 0 then
      let idiv := Z.quot loopLength mpiSize in
      let ist := idiv * mpiRank in
      (ist, ist + idiv)
    else
      let idiv := Z.quot (loopLength - imod) mpiSize in
      if mpiRank <? mpiSize - imod then
        let ist := idiv * mpiRank in
        (ist, ist + idiv)
      else
        let ist := idiv * mpiRank + mpiRank - (mpiSize - imod) in
        (ist, ist + idiv + 1)
  else
    if mpiRank <? loopLength then (mpiRank, mpiRank + 1)
    else (loopLength, loopLength).

(** src/mVMC/vmcmain.c:742-759 initMultiDefMode: outcome of the size check and the colour passed to
    MPI_Comm_split.  [size % nMultiDef] is executed before anything else when size >= nMultiDef, so
    nMultiDef = 0 is a division by zero (undefined behaviour); with nMultiDef < 0 the division is
    defined but meaningless (the option parser accepts negative numbers). *)
Inductive multidef_result :=
| MD_error                (* "N should be smaller than MPI size", exit *)
| MD_undefined            (* division by zero *)
| MD_group (group1 : Z).

Definition multidef_group (nMultiDef rank size : Z) : multidef_result :=
  if size <? nMultiDef then MD_error
  else if nMultiDef =? 0 then MD_undefined
  else
    let div := Z.quot size nMultiDef in
    let mod_ := Z.rem size nMultiDef in
    let threshold := (div + 1) * mod_ in
    if rank <? threshold then
      if div + 1 =? 0 then MD_undefined else MD_group (Z.quot rank (div + 1))
    else
      if div =? 0 then MD_undefined else MD_group (mod_ + Z.quot (rank - threshold) div).

(** src/mVMC/vmcmain.c:239,257: sampling group of a process of comm0 and the seed of its generator.
    NSplitSize < 1 is rejected when the definition files are read (readdef.c). *)
Definition sampling_group (rank0 NSplitSize : Z) : Z := Z.quot rank0 NSplitSize.
Definition process_seed (RndSeed rank0 NSplitSize : Z) : Z :=
  RndSeed + sampling_group rank0 NSplitSize.

(** src/mVMC/vmcmain.c:240-246: rank inside comm1 / comm2 = number of smaller ranks of comm0 with the
    same colour (MPI_Comm_split with key = rank0). *)
Definition rank1_of (rank0 NSplitSize : Z) : Z := rank0 - sampling_group rank0 NSplitSize * NSplitSize.

(** ** Chunked MPI wrappers *)
(** src/mVMC/safempi.c:29 and safempi_fcmp.c:29 *)
Definition D_MpiSendMax : Z := 1048576.
Definition INT_MAX : Z := 2147483647.

(** The loop shared by SafeMpiReduce, SafeMpiAllReduce, SafeMpiBcast, SafeMpiBcastInt
    (safempi.c:36-94) and the three _fcmp versions (safempi_fcmp.c:35-78): the list of
    (offset, count) pairs passed to the MPI call.  [idx+nSend] is an int addition: overflow is
    undefined behaviour.  The fuel bounds the number of iterations of the while loop. *)
Inductive chunk_result :=
| CK_done (calls : list (Z * Z))
| CK_overflow
| CK_fuel.

Fixpoint chunk_loop (fuel : nat) (nSend idx nData : Z) (acc : list (Z * Z)) : chunk_result :=
  match fuel with
  | O => CK_fuel
  | S fuel' =>
    if idx <? nData then
      if INT_MAX <? idx + nSend then CK_overflow
      else
        let nSend' := if nData <? idx + nSend then nData - idx else nSend in
        chunk_loop fuel' nSend' (idx + nSend') nData (acc ++ [(idx, nSend')])
    else CK_done acc
  end.

Definition safe_mpi_calls (fuel : nat) (nData : Z) : chunk_result :=
  chunk_loop fuel D_MpiSendMax 0 nData [].

(** One MPI_Allreduce(send+idx, recv+idx, cnt, SUM) seen from outside: the cells [idx, idx+cnt) of
    recv get the sum over ranks of the corresponding cells of send (safempi.c:58). *)
Definition mpi_allreduce_call {V} (add : V -> V -> V) (zero : V) (sends : list (Z -> V))
           (recv : Z -> V) (call : Z * Z) : Z -> V :=
  fun j => if (fst call <=? j) && (j <? fst call + snd call)
           then fold_right (fun s acc => add (s j) acc) zero sends
           else recv j.

(** One MPI_Bcast(buff+idx, cnt, root 0) (safempi.c:73): the buffer of a non-root rank. *)
Definition mpi_bcast_call {V} (root : Z -> V) (buff : Z -> V) (call : Z * Z) : Z -> V :=
  fun j => if (fst call <=? j) && (j <? fst call + snd call) then root j else buff j.
