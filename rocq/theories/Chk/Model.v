(** The checks of the run settings in readdef.c, after all headers are read. *)
From Coq Require Import ZArith List Bool.
Import ListNotations.
Local Open Scope Z_scope.

(** bufInt[IdxNCond], bufInt[IdxNLocSpin], bufInt[IdxNe], bufInt[Idx2Sz], iFlgOrbitalGeneral, bufInt[IdxSPGaussLeg],
    bufInt[IdxLanczosMode], bufInt[IdxExUpdatePath]; unbounded integers *)
Record settings := Settings { sNCond : Z; sNLocSpin : Z; sNe : Z; sTwoSz : Z; sGeneral : bool; sGauss : Z; sLanczos : Z; sPath : Z }.
(** readdef.c:588-594; % and / truncate.  Value: info and Ne *)
Definition calc_ncond (s : settings) : Z * Z :=
  if negb (sNCond s =? -1) then
    if negb (Z.rem (sNCond s) 2 =? 0) then (1, sNe s) else (0, Z.quot (sNLocSpin s + sNCond s) 2)
  else (0, sNe s).
(** readdef.c:598-608 *)
Definition check_spin (s : settings) (info : Z) : Z :=
  if negb (sTwoSz s =? 0) then
    if negb (sGeneral s) then 1 else if negb (Z.rem (sTwoSz s) 2 =? 0) && negb (sTwoSz s =? -1) then 1 else info
  else info.
(** readdef.c:610-619.  Value: info and SPGaussLeg *)
Definition check_general (s : settings) (info : Z) : Z * Z :=
  if sGeneral s then
    if 1 <? sGauss s then (info, 1) else if negb (sLanczos s =? 0) then (1, sGauss s) else (info, sGauss s)
  else (info, sGauss s).
(** readdef.c:622-636 *)
Definition check_locspn (s : settings) (Ne info : Z) : Z :=
  if 0 <? sNLocSpin s then
    if (sNLocSpin s =? 2 * Ne) && negb (sPath s =? 2) then 1
    else if sPath s =? 0 then 1
    else if 2 * Ne <? sNLocSpin s then 1
    else info
  else info.
(** readdef.c:588-661: None is MPI_Abort, otherwise the run goes on with these settings *)
Definition check_settings (s : settings) : option settings :=
  let '(info, Ne) := calc_ncond s in
  let info := check_spin s info in
  let '(info, gauss) := check_general s info in
  let info := check_locspn s Ne info in
  if negb (info =? 0) then None else Some (Settings (sNCond s) (sNLocSpin s) Ne (sTwoSz s) (sGeneral s) gauss (sLanczos s) (sPath s)).

(** readdef.c:375-382, the block size of the machine *)
Definition adjust_block (b : Z) : Z :=
  if 0 <? Z.rem b 8 then let itmp := Z.quot b 8 in let itmp := if itmp =? 0 then 1 else itmp in itmp * 8 else b.
