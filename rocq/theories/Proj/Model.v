(** Correlation-factor counters (src/mVMC/projection.c). *)
From Coq Require Import ZArith List Bool.
From Verif Require Import Base.ZLoop Base.Checked.
Import ListNotations.
Local Open Scope Z_scope.

(** Sizes and index tables (src/mVMC/include/global.h; carved in setmemory.c SetMemoryDef).
    GutzwillerIdx[Nsite], JastrowIdx[Nsite][Nsite], DoublonHolon2siteIdx[NDH2][2*Nsite],
    DoublonHolon4siteIdx[NDH4][4*Nsite]. *)
Record tables := Tables {
  Nsite : Z;
  NGutzwillerIdx : Z;
  NJastrowIdx : Z;
  NDoublonHolon2siteIdx : Z;
  NDoublonHolon4siteIdx : Z;
  GutzwillerIdx : Z -> Z;
  JastrowIdx : Z -> Z -> Z;
  DoublonHolon2siteIdx : Z -> Z -> Z;
  DoublonHolon4siteIdx : Z -> Z -> Z
}.

(** readdef.c (ReadDefFileNInt): NProj = NGutzwillerIdx + NJastrowIdx + 2*3*NDH2 + 2*5*NDH4 *)
Definition NProj (T : tables) : Z :=
  NGutzwillerIdx T + NJastrowIdx T + 2 * 3 * NDoublonHolon2siteIdx T + 2 * 5 * NDoublonHolon4siteIdx T.

Section WithTables.
Variable T : tables.
Let N := Nsite T.

(** eleNum[rsi], array of 2*Nsite cells; n0 = eleNum, n1 = eleNum+Nsite (projection.c:59-60).
    n1[r] is a read of eleNum[r+Nsite]; only the bounds of the whole array are checked. *)
Definition n0 (eleNum : Z -> Z) (r : Z) : option Z := rd (2 * N) eleNum r.
Definition n1 (eleNum : Z -> Z) (r : Z) : option Z := rd (2 * N) eleNum (r + N).

(** table reads *)
Definition gutz (r : Z) : option Z := rd N (GutzwillerIdx T) r.
Definition jast (ri rj : Z) : option Z := if inb N ri then rd N (JastrowIdx T ri) rj else None.
Definition dh2 (xn k : Z) : option Z :=
  if inb (NDoublonHolon2siteIdx T) xn then rd (2 * N) (DoublonHolon2siteIdx T xn) k else None.
Definition dh4 (xn k : Z) : option Z :=
  if inb (NDoublonHolon4siteIdx T) xn then rd (4 * N) (DoublonHolon4siteIdx T xn) k else None.

(** projection.c:71: for(idx=0;idx<nProj;idx++) projCnt[idx] = 0; *)
Definition zero_fill (a b : Z) (c : Z -> Z) : option (Z -> Z) :=
  loopM a b (fun idx c => wr (NProj T) c idx 0) c.

(** projection.c:73-78 *)
Definition make_gutz (eleNum : Z -> Z) (c : Z -> Z) : option (Z -> Z) :=
  if 0 <? NGutzwillerIdx T then
    loopM 0 N (fun ri c =>
      g <- gutz ri;; a <- n0 eleNum ri;; b <- n1 eleNum ri;;
      inc (NProj T) c g (a * b)) c
  else Some c.

(** projection.c:80-92 *)
Definition make_jast (eleNum : Z -> Z) (c : Z -> Z) : option (Z -> Z) :=
  if 0 <? NJastrowIdx T then
    let offset := NGutzwillerIdx T in
    loopM 0 N (fun ri c =>
      a <- n0 eleNum ri;; b <- n1 eleNum ri;;
      let xi := a + b - 1 in
      if xi =? 0 then Some c
      else loopM (ri + 1) N (fun rj c =>
             a' <- n0 eleNum rj;; b' <- n1 eleNum rj;;
             let xj := a' + b' - 1 in
             jt <- jast ri rj;;
             inc (NProj T) c (offset + jt) (xi * xj)) c) c
  else Some c.

(** number of doublons / holons on one site: n0[r]*n1[r], (1-n0[r])*(1-n1[r]) *)
Definition dbl (eleNum : Z -> Z) (r : Z) : option Z :=
  a <- n0 eleNum r;; b <- n1 eleNum r;; Some (a * b).
Definition hol (eleNum : Z -> Z) (r : Z) : option Z :=
  a <- n0 eleNum r;; b <- n1 eleNum r;; Some ((1 - a) * (1 - b)).

(** body of the 2-site loops, projection.c:99-116 (MakeProjCnt), 214-232 (UpdateProjCnt) and the
    same text in UpdateProjCnt_fsz (331-349); [xi/2] is Z.quot. *)
Definition dh2_body (eleNum : Z -> Z) (xn : Z) (c : Z -> Z) : option (Z -> Z) :=
  let offset := NGutzwillerIdx T + NJastrowIdx T in
  loopM 0 N (fun ri c =>
    a <- n0 eleNum ri;; b <- n1 eleNum ri;;
    let xi := a + b in
    if xi =? 1 then Some c
    else
      let xi := Z.quot xi 2 in
      r0 <- dh2 xn (2 * ri);; r1 <- dh2 xn (2 * ri + 1);;
      xm <- (if xi =? 0 then d0 <- dbl eleNum r0;; d1 <- dbl eleNum r1;; Some (d0 + d1)
             else h0 <- hol eleNum r0;; h1 <- hol eleNum r1;; Some (h0 + h1));;
      inc (NProj T) c (offset + xn + (xi + 2 * xm) * NDoublonHolon2siteIdx T) 1) c.

(** body of the 4-site loops, projection.c:125-147, 239-261 and UpdateProjCnt_fsz *)
Definition dh4_body (eleNum : Z -> Z) (xn : Z) (c : Z -> Z) : option (Z -> Z) :=
  let offset := NGutzwillerIdx T + NJastrowIdx T + 6 * NDoublonHolon2siteIdx T in
  loopM 0 N (fun ri c =>
    a <- n0 eleNum ri;; b <- n1 eleNum ri;;
    let xi := a + b in
    if xi =? 1 then Some c
    else
      let xi := Z.quot xi 2 in
      r0 <- dh4 xn (4 * ri);; r1 <- dh4 xn (4 * ri + 1);;
      r2 <- dh4 xn (4 * ri + 2);; r3 <- dh4 xn (4 * ri + 3);;
      xm <- (if xi =? 0 then
               d0 <- dbl eleNum r0;; d1 <- dbl eleNum r1;; d2 <- dbl eleNum r2;; d3 <- dbl eleNum r3;;
               Some (d0 + d1 + d2 + d3)
             else
               h0 <- hol eleNum r0;; h1 <- hol eleNum r1;; h2 <- hol eleNum r2;; h3 <- hol eleNum r3;;
               Some (h0 + h1 + h2 + h3));;
      inc (NProj T) c (offset + xn + (xi + 2 * xm) * NDoublonHolon4siteIdx T) 1) c.

(** projection.c:94-118 and 120-149.  The "omp parallel for" over xn is modelled sequentially;
    independence of the iterations is property C46. *)
Definition make_dh2 (eleNum : Z -> Z) (c : Z -> Z) : option (Z -> Z) :=
  if 0 <? NDoublonHolon2siteIdx T then loopM 0 (NDoublonHolon2siteIdx T) (dh2_body eleNum) c else Some c.
Definition make_dh4 (eleNum : Z -> Z) (c : Z -> Z) : option (Z -> Z) :=
  if 0 <? NDoublonHolon4siteIdx T then loopM 0 (NDoublonHolon4siteIdx T) (dh4_body eleNum) c else Some c.

(** projection.c:58-152 MakeProjCnt(projCnt, eleNum); [c] is the previous content of projCnt *)
Definition make_proj_cnt (c : Z -> Z) (eleNum : Z -> Z) : option (Z -> Z) :=
  c <- zero_fill 0 (NProj T) c;;
  c <- make_gutz eleNum c;;
  c <- make_jast eleNum c;;
  c <- make_dh2 eleNum c;;
  make_dh4 eleNum c.

(** projection.c:169-171: copy of the old counters unless the two pointers are equal *)
Definition copy_cnt (alias : bool) (cnew cold : Z -> Z) : option (Z -> Z) :=
  if alias then Some cold
  else loopM 0 (NProj T) (fun idx c => v <- rd (NProj T) cold idx;; wr (NProj T) c idx v) cnew.

(** projection.c:174-179 *)
Definition upd_gutz (ri rj : Z) (eleNum : Z -> Z) (c : Z -> Z) : option (Z -> Z) :=
  if 0 <? NGutzwillerIdx T then
    gi <- gutz ri;; a <- n0 eleNum ri;; b <- n1 eleNum ri;;
    c <- inc (NProj T) c gi (- (a + b));;
    gj <- gutz rj;; a' <- n0 eleNum rj;; b' <- n1 eleNum rj;;
    inc (NProj T) c gj (a' * b')
  else Some c.

(** projection.c:187-194 and 195-202: the loop over rk for one of the two sites (r = ri: sign -1,
    r = rj: sign +1) *)
Definition upd_jast_loop (ri rj r sgn : Z) (eleNum : Z -> Z) (c : Z -> Z) : option (Z -> Z) :=
  loopM 0 N (fun rk c =>
    if rk =? rj then Some c
    else if rk =? ri then Some c
    else
      jt <- (if r <? rk then jast r rk else jast rk r);;
      a <- n0 eleNum rk;; b <- n1 eleNum rk;;
      inc (NProj T) c (NGutzwillerIdx T + jt) (sgn * (a + b - 1))) c.

(** projection.c:181-203 *)
Definition upd_jast (ri rj : Z) (eleNum : Z -> Z) (c : Z -> Z) : option (Z -> Z) :=
  if 0 <? NJastrowIdx T then
    jt <- (if ri <? rj then jast ri rj else jast rj ri);;
    ai <- n0 eleNum ri;; bi <- n1 eleNum ri;; aj <- n0 eleNum rj;; bj <- n1 eleNum rj;;
    c <- inc (NProj T) c (NGutzwillerIdx T + jt) (ai + bi - aj - bj + 1);;
    c <- upd_jast_loop ri rj ri (-1) eleNum c;;
    upd_jast_loop ri rj rj 1 eleNum c
  else Some c.

(** projection.c:155-266 UpdateProjCnt(ri,rj,s,projCntNew,projCntOld,eleNum); the argument s is not
    used by the C code.  [alias] tells whether projCntNew and projCntOld are the same pointer. *)
Definition update_proj_cnt (ri rj s : Z) (alias : bool) (cnew cold : Z -> Z) (eleNum : Z -> Z)
  : option (Z -> Z) :=
  c <- copy_cnt alias cnew cold;;
  if ri =? rj then Some c
  else
    c <- upd_gutz ri rj eleNum c;;
    c <- upd_jast ri rj eleNum c;;
    if (NDoublonHolon2siteIdx T =? 0) && (NDoublonHolon4siteIdx T =? 0) then Some c
    else
      c <- zero_fill (NGutzwillerIdx T + NJastrowIdx T) (NProj T) c;;
      c <- loopM 0 (NDoublonHolon2siteIdx T) (dh2_body eleNum) c;;
      loopM 0 (NDoublonHolon4siteIdx T) (dh4_body eleNum) c.

(** projection.c:271-382 UpdateProjCnt_fsz(ri,rj,s,t,...): the same statements (the two functions
    differ in comments only); s and t are not used by the C code. *)
Definition update_proj_cnt_fsz (ri rj s t : Z) (alias : bool) (cnew cold : Z -> Z) (eleNum : Z -> Z)
  : option (Z -> Z) :=
  c <- copy_cnt alias cnew cold;;
  if ri =? rj then Some c
  else
    c <- upd_gutz ri rj eleNum c;;
    c <- upd_jast ri rj eleNum c;;
    if (NDoublonHolon2siteIdx T =? 0) && (NDoublonHolon4siteIdx T =? 0) then Some c
    else
      c <- zero_fill (NGutzwillerIdx T + NJastrowIdx T) (NProj T) c;;
      c <- loopM 0 (NDoublonHolon2siteIdx T) (dh2_body eleNum) c;;
      loopM 0 (NDoublonHolon4siteIdx T) (dh4_body eleNum) c.

End WithTables.
