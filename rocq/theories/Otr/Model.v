(** The reader of the file of additional transformations whose weights are optimised (readdef.c, parameter.c). *)
From Coq Require Import ZArith List Bool Reals.
From Coquelicot Require Import Complex.
From Verif Require Import Base.ZLoop Base.Checked Sym.Model.
Import ListNotations.
Local Open Scope Z_scope.

(** QPOptTrans, QPOptTransSgn [NQPOptTrans][Nsite], ParaQPOptTrans [NQPOptTrans] (setmemory.c:215-226, 251), OptFlag [2*NPara]
    (setmemory.c:227, readdef.c:817) and the counter count_idx *)
Record omemory := OMemory { oTrans : Z -> Z -> Z; oSgn : Z -> Z -> Z; oPara : Z -> R; oFlag : Z -> Z; oCount : Z }.
(** readdef.c:2394-2403, one complete line "i w" per weight; an access outside the arrays is None *)
Definition read_weight (NArray NFlag : Z) (st : option (omemory * Z)) (w : Z * R) : option (omemory * Z) :=
  s <- st;; let '(m, fidx) := s in
  if within NArray (fst w) && within NFlag fidx then Some (OMemory (oTrans m) (oSgn m) (upd (oPara m) (fst w) (snd w)) (upd (oFlag m) fidx 1) (oCount m + 1), fidx + 1) else None.
(** readdef.c:2405-2410, lines "i j k s", the last column may be missing and itmpsgn then keeps its value; the image is stored but
    not used as an index here *)
Definition read_image (NArray Nsite : Z) (st : option (omemory * Z)) (r : row) : option (omemory * Z) :=
  s <- st;; let '(m, itmpsgn) := s in
  let itmpsgn := match rsgn r with Some s => s | None => itmpsgn end in
  if within NArray (rtr r) && within Nsite (rsite r) then
    Some (OMemory (upd2 (oTrans m) (rtr r) (rsite r) (rimage r)) (upd2 (oSgn m) (rtr r) (rsite r) itmpsgn) (oPara m) (oFlag m) (oCount m), itmpsgn)
  else None.
(** readdef.c:2385-2419 GetInfoOptTrans; idx is counted but never compared, info stays 0.  The first NArray lines are the weights;
    a file with fewer lines than weights is not followed (None).  Result: the return value and the arrays. *)
Definition get_opt_trans (FlagOptTrans : Z) (APFlag : bool) (Nsite NArray NFlag fidx : Z) (ws : list (Z * R)) (rows : list row) (m : omemory) : option (Z * omemory) :=
  if 0 <? FlagOptTrans then
    if Z.of_nat (length ws) =? NArray then
      s <- fold_left (read_weight NArray NFlag) ws (Some (m, fidx));; let '(m, _) := s in
      s <- fold_left (read_image NArray Nsite) rows (Some (m, 0));; let '(m, _) := s in
      let sgn := if APFlag then oSgn m else fun i j => if within NArray i && within Nsite j then 1 else oSgn m i j in
      Some (0, OMemory (oTrans m) sgn (oPara m) (oFlag m) (oCount m))
    else None
  else Some (0, m).
(** parameter.c:87-89, the parameters start from the weights; NOptTrans = NQPOptTrans (readdef.c:763) *)
Definition init_opt (NOptTrans : Z) (para : Z -> R) (OptTrans : Z -> C) : Z -> C := loop 0 NOptTrans (fun i a => upd a i (RtoC (para i))) OptTrans.
