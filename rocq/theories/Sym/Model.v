(** The reader of the file of lattice transformations (readdef.c) and the default for the additional transforms. *)
From Coq Require Import ZArith List Bool Reals.
From Coquelicot Require Import Complex.
From Verif Require Import Base.ZLoop Base.Checked.
Import ListNotations.
Local Open Scope Z_scope.

(** a line "i j k s" of the table; the last column may be missing *)
Record row := Row { rtr : Z; rsite : Z; rimage : Z; rsgn : option Z }.
(** the arrays QPTrans, QPTransSgn, QPTransInv [NQPTrans][Nsite] and ParaQPTrans [NQPTrans] (setmemory.c:171-190, 252) *)
Record memory := Memory { mTrans : Z -> Z -> Z; mSgn : Z -> Z -> Z; mInv : Z -> Z -> Z; mPara : Z -> C }.
Definition upd2 (a : Z -> Z -> Z) (i j v : Z) : Z -> Z -> Z := fun x y => if (x =? i) && (y =? j) then v else a x y.
Definition within (n k : Z) : bool := (0 <=? k) && (k <? n).

(** readdef.c:2241-2248, one complete line per weight; a number outside the array is an access outside: None *)
Definition read_weights (NArray : Z) (ws : list (Z * C)) (para : Z -> C) : option (Z -> C) :=
  fold_left (fun st (w : Z * C) => para <- st;; if within NArray (fst w) then Some (upd para (fst w) (snd w)) else None) ws (Some para).
(** readdef.c:2250-2256; itmpsgn keeps its value when the column is missing *)
Definition read_row (NArray Nsite : Z) (st : option (memory * Z * Z)) (r : row) : option (memory * Z * Z) :=
  s <- st;; let '(m, itmpsgn, idx) := s in
  let itmpsgn := match rsgn r with Some s => s | None => itmpsgn end in
  if within NArray (rtr r) && within Nsite (rsite r) && within Nsite (rimage r) then
    Some (Memory (upd2 (mTrans m) (rtr r) (rsite r) (rimage r)) (upd2 (mSgn m) (rtr r) (rsite r) itmpsgn) (upd2 (mInv m) (rtr r) (rimage r) (rsite r)) (mPara m), itmpsgn, idx + 1)
  else None.
(** readdef.c:2232-2265 GetInfoTransSym.  The first NArray lines are the weights, all others belong to the table; a file with fewer
    lines than weights is not followed (None).  Result: the return value and the arrays. *)
Definition get_trans_sym (APFlag : bool) (Nsite NArray : Z) (ws : list (Z * C)) (rows : list row) (m : memory) : option (Z * memory) :=
  if 0 <? NArray then
    if Z.of_nat (length ws) =? NArray then
      para <- read_weights NArray ws (mPara m);;
      s <- fold_left (read_row NArray Nsite) rows (Some (Memory (mTrans m) (mSgn m) (mInv m) para, 0, 0));;
      let '(m, _, idx) := s in
      let sgn := if APFlag then mSgn m else fun i j => if within NArray i && within Nsite j then 1 else mSgn m i j in
      Some (if idx =? Nsite * NArray then 0 else 1, Memory (mTrans m) sgn (mInv m) (mPara m))
    else None
  else Some (0, m).

(** readdef.c:1138-1144, without optimised transforms there is one, the identity *)
Definition init_opt_trans (Nsite : Z) (t s : Z -> Z -> Z) : (Z -> Z -> Z) * (Z -> Z -> Z) :=
  loop 0 Nsite (fun i st => (upd2 (fst st) 0 i i, upd2 (snd st) 0 i 1)) (t, s).
