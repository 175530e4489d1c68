(** Measured Green functions of one sample (calgrn.c, calgrn_fsz.c).  None = access outside an array.
    Phase 1 of the parallel region are the loops over requests (the first has nowait, the second ends with a barrier), phase 2
    the accumulation loops.  An execution gives the iterations in the order they happen, with the thread that runs each. *)
From Coq Require Import ZArith List Bool Reals.
From Coquelicot Require Import Complex.
From Verif Require Import Base.ZLoop Base.Checked Base.RSum Green.Model Ham.Model Gfz.Model Hfz.Model.
Import ListNotations.
Local Open Scope Z_scope.

(** CisAjsIdx, CisAjsCktAltDCIdx, CisAjsCktAltIdx with numbers of rows *)
Record requests := Req { NCisAjs : Z; CisAjsIdx : Z -> Z -> Z; NDC : Z; DCIdx : Z -> Z -> Z; NAlt : Z; AltIdx : Z -> Z -> Z }.
(** LocalCisAjs, LocalCisAjsCktAltDC; PhysCisAjs, PhysCisAjsCktAltDC, PhysCisAjsCktAlt *)
Record meas := Meas { mLoc1 : Z -> C; mLocDC : Z -> C; mPh1 : Z -> C; mPhDC : Z -> C; mPhAlt : Z -> C }.
(** previous work spaces; phase 1: thread, loop (false: one-body), row; phase 2: loop 0, 1, 2, row *)
Record gsched := GSched { gspace : Z -> work; phase1 : list (Z * bool * Z); phase2 : list (Z * Z) }.

Definition all {S E} (l : list E) (f : E -> S -> option S) (s : S) : option S := fold_left (fun o e => st <- o;; f e st) l (Some s).
Definition addC (n : Z) (a : Z -> C) (i : Z) (v : C) : option (Z -> C) := x <- rd n a i;; wr n a i (Cplus x v).

Section Measure.
Variable Q : requests.
Variable w : R.
(** calgrn.c:93-113, calgrn_fsz.c:113-128 (loop 1 only in calgrn.c) *)
Definition accumulate (e : Z * Z) (m : meas) : option meas :=
  let idx := snd e in
  if fst e =? 0 then v <- rd (NCisAjs Q) (mLoc1 m) idx;; a <- addC (NCisAjs Q) (mPh1 m) idx (Cmult (RtoC w) v);; Some (Meas (mLoc1 m) (mLocDC m) a (mPhDC m) (mPhAlt m))
  else if fst e =? 1 then v <- rd (NDC Q) (mLocDC m) idx;; a <- addC (NDC Q) (mPhDC m) idx (Cmult (RtoC w) v);; Some (Meas (mLoc1 m) (mLocDC m) (mPh1 m) a (mPhAlt m))
  else v0 <- rd (NCisAjs Q) (mLoc1 m) (AltIdx Q idx 0);; v1 <- rd (NCisAjs Q) (mLoc1 m) (AltIdx Q idx 1);;
    a <- addC (NAlt Q) (mPhAlt m) idx (Cmult (Cmult (RtoC w) v0) (Cconj v1));; Some (Meas (mLoc1 m) (mLocDC m) (mPh1 m) (mPhDC m) a).

(** ** calgrn.c *)
Section Std.
Variable G : env.
Variables (ip : C) (eleCfg eleNum : Z -> Z) (cnt : Z -> Z) (rcnt : Z -> C).
(** work spaces of the threads and the arrays *)
Definition gstate : Type := (Z -> work) * meas.
(** calgrn.c:66-73 *)
Definition one_body (th idx : Z) (st : gstate) : option gstate :=
  let ri := CisAjsIdx Q idx 0 in let rj := CisAjsIdx Q idx 2 in let s := CisAjsIdx Q idx 3 in
  r <- green1 G ri rj s ip eleCfg cnt rcnt (fst st th);; let m := snd st in
  a <- wr (NCisAjs Q) (mLoc1 m) idx (fst r);; Some (upd (fst st) th (snd r), Meas a (mLocDC m) (mPh1 m) (mPhDC m) (mPhAlt m)).
(** calgrn.c:77-89 *)
Definition two_body (th idx : Z) (st : gstate) : option gstate :=
  let ri := DCIdx Q idx 0 in let rj := DCIdx Q idx 2 in let s := DCIdx Q idx 1 in
  let rk := DCIdx Q idx 4 in let rl := DCIdx Q idx 6 in let t := DCIdx Q idx 5 in
  r <- green2 G ri rj rk rl s t ip eleCfg cnt rcnt (fst st th);; let m := snd st in
  a <- wr (NDC Q) (mLocDC m) idx (fst r);; Some (upd (fst st) th (snd r), Meas (mLoc1 m) a (mPh1 m) (mPhDC m) (mPhAlt m)).
(** calgrn.c:32-120 CalculateGreenFunc; every thread copies the tables to its space (58-61) *)
Definition calculate_green (P : gsched) (eleIdx : Z -> Z) (m : meas) : option meas :=
  st <- all (phase1 P) (fun e => if snd (fst e) then two_body (fst (fst e)) (snd e) else one_body (fst (fst e)) (snd e)) (fun t => copy_tables G eleNum eleIdx (gspace P t), m);;
  all (phase2 P) accumulate (snd st).
End Std.

(** ** calgrn_fsz.c: t of the first loop, u and v of the second are shared by the threads (default(shared), not in the private lists).
    An iteration is two steps: the assignments, then the call and what follows. *)
Record shvars := ShVars { sh_t : Z; sh_u : Z; sh_v : Z }.
(** private: loop, row, ri, rj, s, rk, rl, and t of the second loop *)
Record pvars := PVars { p_two : bool; p_idx : Z; p_ri : Z; p_rj : Z; p_s : Z; p_rk : Z; p_rl : Z; p_t : Z }.
Inductive fevent := Assign (th : Z) (two : bool) (idx : Z) | Call (th : Z).
Record fgsched := FGSched { fgspace : Z -> fwork; fphase1 : list fevent; fphase2 : list (Z * Z); fsh0 : shvars; fpv0 : Z -> pvars }.
Section Fsz.
Variable G : env.
Variables (ip : C) (eleCfg eleNum : Z -> Z) (cnt : Z -> Z).
Record fgstate := FG { fg_sp : Z -> fwork; fg_pv : Z -> pvars; fg_sh : shvars; fg_m : meas }.
(** calgrn_fsz.c:66-69, 93-101 *)
Definition assign (th : Z) (two : bool) (idx : Z) (st : fgstate) : option fgstate :=
  let sh := fg_sh st in
  if two then let d := DCIdx Q idx in
    Some (FG (fg_sp st) (upd (fg_pv st) th (PVars true idx (d 0) (d 2) (d 1) (d 4) (d 6) (d 3))) (ShVars (sh_t sh) (d 5) (d 7)) (fg_m st))
  else let c := CisAjsIdx Q idx in
    Some (FG (fg_sp st) (upd (fg_pv st) th (PVars false idx (c 0) (c 2) (c 1) 0 0 0)) (ShVars (c 3) (sh_u sh) (sh_v sh)) (fg_m st)).
(** calgrn_fsz.c:70-78, 103-110 *)
Definition call (th : Z) (st : fgstate) : option fgstate :=
  let p := fg_pv st th in let sh := fg_sh st in let m := fg_m st in let k := fg_sp st th in
  if p_two p then
    r <- (if (p_s p =? p_t p) && (sh_u sh =? sh_v sh) then green2_fsz G (p_ri p) (p_rj p) (p_rk p) (p_rl p) (p_s p) (sh_u sh) ip eleCfg cnt k
          else green2_fsz2 G (p_ri p) (p_rj p) (p_rk p) (p_rl p) (p_s p) (p_t p) (sh_u sh) (sh_v sh) ip eleCfg cnt k);;
    a <- addC (NDC Q) (mPhDC m) (p_idx p) (Cmult (RtoC w) (fst r));;
    Some (FG (upd (fg_sp st) th (snd r)) (fg_pv st) sh (Meas (mLoc1 m) (mLocDC m) (mPh1 m) a (mPhAlt m)))
  else
    r <- (if p_s p =? sh_t sh then green1_fsz G (p_ri p) (p_rj p) (p_s p) ip eleCfg cnt k else green1_fsz2 G (p_ri p) (p_rj p) (p_s p) (sh_t sh) ip eleCfg cnt k);;
    a <- wr (NCisAjs Q) (mLoc1 m) (p_idx p) (fst r);;
    Some (FG (upd (fg_sp st) th (snd r)) (fg_pv st) sh (Meas a (mLocDC m) (mPh1 m) (mPhDC m) (mPhAlt m))).
(** calgrn_fsz.c:33-138 CalculateGreenFunc_fsz *)
Definition calculate_green_fsz (P : fgsched) (eleIdx eleSpn : Z -> Z) (m : meas) : option meas :=
  st <- all (fphase1 P) (fun e => match e with Assign th two idx => assign th two idx | Call th => call th end)
    (FG (fun t => fcopy_tables G eleNum eleIdx eleSpn (fgspace P t)) (fpv0 P) (fsh0 P) m);;
  all (fphase2 P) accumulate (fg_m st).
End Fsz.
End Measure.
