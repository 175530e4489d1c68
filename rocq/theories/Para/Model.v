(** Renormalisation of the variational parameters (src/mVMC/parameter.c).  Doubles are reals,
    double complex is R*R. *)
From Coq Require Import ZArith List Bool Reals.
From Coquelicot Require Import Complex.
From Verif Require Import Base.ZLoop Proj.Model Base.RSum.
Import ListNotations.
Local Open Scope Z_scope.

(** FlagShiftGJ, FlagShiftDH2, FlagShiftDH4 *)
Record flags := Flags { fGJ : Z; fDH2 : Z; fDH4 : Z }.

(** "for(i=start;i<end;i++) if(OptFlag[2*i]!=1) ...": is some flag of [a,b) different from 1? *)
Definition some_fixed (OptFlag : Z -> Z) (a b : Z) : bool :=
  existsb (fun i => negb (OptFlag (2 * i) =? 1)) (zrange a b).

Section WithTables.
Variable T : tables.
Let NG := NGutzwillerIdx T. Let NJ := NJastrowIdx T.
Let N2 := NDoublonHolon2siteIdx T. Let N4 := NDoublonHolon4siteIdx T.

(** parameter.c:248-303 SetFlagShift, with the running variables start and end *)
Definition set_flag_shift (OptFlag : Z -> Z) : flags :=
  if NG =? 0 then Flags 0 0 0
  else
    let start := 0 in let fin := start + NG in
    if some_fixed OptFlag start fin then Flags 0 0 0
    else
      let '(fin, gj) := if 0 <? NJ then
          let start := fin in let fin := start + NJ in (fin, if some_fixed OptFlag start fin then 0 else 1)
        else (fin, 0) in
      let '(fin, d2) := if 0 <? N2 then
          let start := fin in let fin := start + 6 * N2 in (fin, if some_fixed OptFlag start fin then 0 else 1)
        else (fin, 0) in
      let '(fin, d4) := if 0 <? N4 then
          let start := fin in let fin := start + 10 * N4 in (fin, if some_fixed OptFlag start fin then 0 else 1)
        else (fin, 0) in
      Flags gj d2 d4.

(** "Proj[n] -= shift" *)
Definition sub_at (p : Z -> C) (n : Z) (shift : R) : Z -> C := upd p n (Cminus (p n) (RtoC shift)).

(** parameter.c:200-221 shiftDH2: the returned Gutzwiller shift and the new factors *)
Definition shift_dh2 (p : Z -> C) : R * (Z -> C) :=
  if N2 =? 0 then (0%R, p)
  else
    let offset := NG + NJ in
    loop 0 (2 * N2) (fun xn (st : R * (Z -> C)) =>
      let (g, p) := st in
      let n0 := offset + xn in let n1 := n0 + 2 * N2 in let n2 := n0 + 4 * N2 in
      let shift := ((fst (p n0) + fst (p n1) + fst (p n2)) / 3)%R in
      let p := sub_at p n0 shift in
      let p := sub_at p n1 shift in
      let p := sub_at p n2 shift in
      ((g + shift)%R, p)) (0%R, p).

(** parameter.c:223-246 shiftDH4 *)
Definition shift_dh4 (p : Z -> C) : R * (Z -> C) :=
  if N4 =? 0 then (0%R, p)
  else
    let offset := NG + NJ + 6 * N2 in
    loop 0 (2 * N4) (fun xn (st : R * (Z -> C)) =>
      let (g, p) := st in
      let n0 := offset + xn in let n1 := n0 + 2 * N4 in let n2 := n0 + 4 * N4 in
      let n3 := n0 + 6 * N4 in let n4 := n0 + 8 * N4 in
      let shift := ((fst (p n0) + fst (p n1) + fst (p n2) + fst (p n3) + fst (p n4)) / 5)%R in
      let p := sub_at p n0 shift in
      let p := sub_at p n1 shift in
      let p := sub_at p n2 shift in
      let p := sub_at p n3 shift in
      let p := sub_at p n4 shift in
      ((g + shift)%R, p)) (0%R, p).

(** parameter.c:180-197 shiftGJ *)
Definition shift_gj (p : Z -> C) : Z -> C :=
  let n := NG + NJ in
  if (NG =? 0) || (NJ =? 0) then p
  else
    let shift := loop 0 n (fun i s => (s + fst (p i))%R) 0%R in
    let shift := (shift / IZR n)%R in
    loop 0 n (fun i p => sub_at p i shift) p.

(** parameter.c:145-152, the correlation factors in SyncModifiedParameter *)
Definition sync_proj (F : flags) (p : Z -> C) : Z -> C :=
  let '(g, p) := if fDH2 F =? 1 then let (s, p) := shift_dh2 p in ((0 + s)%R, p) else (0%R, p) in
  let '(g, p) := if fDH4 F =? 1 then let (s, p) := shift_dh4 p in ((g + s)%R, p) else (g, p) in
  let p := loop 0 NG (fun i p => upd p i (Cplus (p i) (RtoC g))) p in
  if fGJ F =? 1 then shift_gj p else p.
End WithTables.

(** parameter.c:155-158 and 165-168: the largest modulus *)
Definition max_abs (n : Z) (a : Z -> C) : R :=
  loop 1 n (fun i xmax => if Rlt_dec xmax (Cmod (a i)) then Cmod (a i) else xmax) (Cmod (a 0)).
(** parameter.c:159-161 (D_AmpMax = 4.0) and 170-174 (1.0): "for(i...) a[i] *= ratio" *)
Definition rescale (n : Z) (amp : R) (a : Z -> C) : Z -> C :=
  let ratio := (amp / max_abs n a)%R in
  loop 0 n (fun i a => upd a i (Cmult (a i) (RtoC ratio))) a.

(** the parameter vector of one process by sections (disjoint, see C29) *)
Record params := Params { Proj : Z -> C; Slater : Z -> C; OptTrans : Z -> C }.
(** parameter.c:145-177 *)
Definition modify (T : tables) (F : flags) (NSlater NOptTrans FlagOptTrans : Z) (P : params) : params :=
  Params (sync_proj T F (Proj P)) (rescale NSlater 4%R (Slater P))
         (if 0 <? FlagOptTrans then rescale NOptTrans 1%R (OptTrans P) else OptTrans P).
(** parameter.c:134-177 SyncModifiedParameter on all processes: P r are the parameters of process r before;
    with more than one process MPI_Bcast copies those of process 0 *)
Definition sync (T : tables) (F : flags) (NSlater NOptTrans FlagOptTrans size : Z) (P : Z -> params) (r : Z) : params :=
  modify T F NSlater NOptTrans FlagOptTrans (if 1 <? size then P 0 else P r).

(** projection.c:32-39 LogProjVal *)
Definition log_proj_val (T : tables) (p : Z -> C) (projCnt : Z -> Z) : R :=
  loop 0 (NProj T) (fun idx z => (z + fst (p idx) * IZR (projCnt idx))%R) 0%R.
