(** Stochastic reconfiguration when all parameters are declared real (AllComplexFlag = 0): the accumulation in real
    arrays (vmccal.c), the reduction (average.c), the copy back into the complex arrays (stcopt.c) and the real copy of
    the conjugate-gradient variant (stcopt_cg_impl.c with MVMC_SRCG_REAL).  Selection, assembly and update are those of
    SR.Model.  As there, doubles are reals and OpenMP loops, which write disjoint cells, are taken in order. *)
From Coq Require Import ZArith List Bool Reals.
From Coquelicot Require Import Complex.
From Verif Require Import Base.ZLoop Base.RSum Par.Model SR.Model.
Import ListNotations.
Local Open Scope Z_scope.

(** vmccal.c:217-223 (vmccal_fsz.c:170-176): srOptO_real[i] = creal(srOptO[2*i]) *)
Definition srOptO_real (x : sample) (i : Z) : R := fst (srOptO x (2 * i)).

(** the accumulators of one process; SROptO_real itself is overwritten by every sample *)
Record racc := RAcc { rWc : R; rEtot : C; rEtot2 : C; rOO : Z -> R; rHO : Z -> R; rStore : Z -> R }.
(** clearPhysQuantity (vmccal.c:586-595) *)
Definition rclear (st : Z -> R) : racc := RAcc 0 (RtoC 0) (RtoC 0) (fun _ => 0%R) (fun _ => 0%R) st.
Definition radd (a : Z -> R) (i : Z) (v : R) : Z -> R := upd a i (a i + v)%R.

Section Real.
Variable S : Z.                           (* SROptSize *)

(** DGER(m=n=lda, w, x, 1, x, 1, A): A[i+j*n] += w*x[i]*x[j] *)
Definition dger (n : Z) (w : R) (x A : Z -> R) (idx : Z) : R :=
  if (0 <=? idx) && (idx <? n * n) then (A idx + w * x (idx mod n)%Z * x (idx / n)%Z)%R else A idx.
(** DAXPY(n, a, x, 1, y, 1): y[i] += a*x[i] *)
Definition daxpy (n : Z) (a : R) (x y : Z -> R) (i : Z) : R :=
  if (0 <=? i) && (i <? n) then (y i + a * x i)%R else y i.
(** vmccal.c:796-811 calculateOO_real *)
Definition calculateOO_real (w e : R) (O : Z -> R) (oo ho : Z -> R) : (Z -> R) * (Z -> R) :=
  let we := (w * e)%R in (dger S w O oo, daxpy S we O ho).

(** vmccal.c:235-245, stored derivatives; creal(we) = creal(w*e) *)
Definition store_sample_real (sample : Z) (w : R) (e : C) (O : Z -> R) (st ho : Z -> R) : (Z -> R) * (Z -> R) :=
  let we := Cmult (RtoC w) e in
  let sqrtw := sqrt w in
  loop 0 S (fun i (x : (Z -> R) * (Z -> R)) =>
    let (st, ho) := x in (upd st (i + sample * S) (sqrtw * O i)%R, radd ho i (fst we * O i)%R)) (st, ho).

(** one pass of the sample loop *)
Definition one_sample_real (store : bool) (i : Z) (x : sample) (a : racc) : racc :=
  if ok x then
    let w := wgt x in let e := ene x in
    let W := (rWc a + w)%R in
    let E := Cplus (rEtot a) (Cmult (RtoC w) e) in
    let E2 := Cplus (rEtot2 a) (Cmult (Cmult (RtoC w) (Cconj e)) e) in
    if store then
      let (st, ho) := store_sample_real i w e (srOptO_real x) (rStore a) (rHO a) in RAcc W E E2 (rOO a) ho st
    else
      let (oo, ho) := calculateOO_real w (fst e) (srOptO_real x) (rOO a) (rHO a) in RAcc W E E2 oo ho (rStore a)
  else a.

(** DGEMM('N','T',n,n,k,1,A,n,A,n,0,C,n) *)
Definition dgemm_NT (n k : Z) (A C : Z -> R) (idx : Z) : R :=
  if (0 <=? idx) && (idx <? n * n) then rsum (zrange 0 k) (fun l => A (idx mod n + l * n)%Z * A (idx / n + l * n)%Z)%R
  else C idx.
(** vmccal.c:656-688 calculateOO_Store_real *)
Definition calculateOO_Store_real (cg : bool) (sampleSize : Z) (st oo : Z -> R) : Z -> R :=
  if cg then
    let oo := loop 0 S (fun i oo => upd (upd oo i 0%R) (i + S) 0%R) oo in
    loop 0 sampleSize (fun j oo => loop 0 S (fun i oo =>
      let o := st (i + j * S) in radd (radd oo i o) (i + S) (o * o)%R) oo) oo
  else dgemm_NT S sampleSize st oo.

(** the whole of VMCMainCal on one process *)
Definition main_cal_real (NSRCG NStoreO : bool) (NVMCSample size rank : Z) (smp : Z -> sample) (st : Z -> R) : racc :=
  let (sampleStart, sampleEnd) := split_loop NVMCSample rank size in
  let store := NSRCG || NStoreO in
  let a := loop sampleStart sampleEnd (fun i a => one_sample_real store i (smp i) a) (rclear st) in
  if store then
    RAcc (rWc a) (rEtot a) (rEtot2 a) (calculateOO_Store_real NSRCG (sampleEnd - sampleStart) (rStore a) (rOO a)) (rHO a) (rStore a)
  else a.

(** average.c:114-147 WeightAverageSROpt_real on one array; W is the already reduced Wc *)
Definition average_real (ps : list (Z * Z)) (W : R) (v : Z * Z -> Z -> R) (me : Z * Z) (i : Z) : R :=
  let invW := (1 / W)%R in
  if (1 <? Z.of_nat (length ps)) then (rsum ps (fun p => v p i) * invW)%R else (v me i * invW)%R.

(** stcopt.c:66-83: the real arrays are spread over the complex ones.  SROptHO_real follows SROptOO_real in memory after
    S*S cells and SROptHO follows SROptOO after 2S*2S cells (setmemory.c:395-410) *)
Definition memory_real (oo ho : Z -> R) (j : Z) : R := if j <? S * S then oo j else ho (j - S * S).
Definition spread (oo ho : Z -> R) (old : Z -> C) (i : Z) : C :=
  if (0 <=? i) && (i <? 2 * S * (2 * S + 2)) then
    let int_x := i mod (2 * S) in
    let int_y := (i - int_x) / (2 * S) in
    if (int_x mod 2 =? 0) && (int_y mod 2 =? 0) then RtoC (memory_real oo ho (int_x / 2 + (int_y / 2) * S)) else RtoC 0
  else old i.
Definition spreadOO (oo ho : Z -> R) (old : Z -> C) : Z -> C := spread oo ho old.
Definition spreadHO (oo ho : Z -> R) (old : Z -> C) (j : Z) : C := spread oo ho old (2 * S * (2 * S) + j).
End Real.

(** *** conjugate gradients, real copy (OFFSET = 1) *)
(** stcopt_cg_impl.c:118-122: the diagonal of S *)
Definition cg_sdiag_real (S : Z) (OO : Z -> R) (pi : Z) : R := (OO (S + (pi + 1))%Z - OO (pi + 1)%Z * OO (pi + 1)%Z)%R.
(** stcopt_cg_impl.c:138-162: the selection; the flag of parameter pi is OptFlag[2*pi] *)
Definition select_real (NPara : Z) (OptFlag : Z -> Z) (r : Z -> R) (DSROptRedCut : R) : selection :=
  select NPara (fun pi => OptFlag (2 * pi)) r DSROptRedCut.
Record rveccg := RVecCG { rvg : Z -> R; rvsdiag : Z -> R; rvstcO : Z -> R; rvOs : Z -> R }.
(** stcopt_cg_impl.c:434-505 StochasticOptCG_Init_real *)
Definition cg_init_real (SROptSize NVMCSample nSmat : Z) (DSROptStepDt : R) (idx : Z -> Z) (OO HO Store : Z -> R) : rveccg :=
  let dt := (2 * DSROptStepDt)%R in
  let OOdiag := fun i => OO (SROptSize + i) in
  let zero := fun _ : Z => 0%R in
  let re := loop 0 NVMCSample (fun i st =>
    let offset := i * 1 * SROptSize in
    loop 0 nSmat (fun si (st : Z -> R) => upd st (si + i * nSmat) (Store (offset + idx si + 1)%Z)) st) zero in
  let '(o, g, d) := loop 0 nSmat (fun si (st : (Z -> R) * (Z -> R) * (Z -> R)) =>
    let '(o, g, d) := st in
    let pi := idx si in
    (upd o si (OO (pi + 1)%Z),
     upd g si (- dt * (HO (pi + 1)%Z - HO 0%Z * OO (pi + 1)%Z))%R,
     upd d si (OOdiag (pi + 1)%Z - OO (pi + 1)%Z * OO (pi + 1)%Z)%R)) (zero, zero, zero) in
  RVecCG g d o re.
(** stcopt_cg_impl.c:364-432 operate_by_S_real *)
Definition operate_by_S_real (nSmat NVMCSample : Z) (W DSROptStaDel : R) (ps : list (Z * Z)) (V : Z * Z -> rveccg) (me : Z * Z)
    (x : Z -> R) (si : Z) : R :=
  let invW := (1 / W)%R in
  let z_local := fun p si =>
    let y := dgemv_T nSmat NVMCSample (rvOs (V p)) x in dgemv_N nSmat NVMCSample (rvOs (V p)) y si in
  let z := rsum ps (fun p => z_local p si) in
  let coef := xdot nSmat (rvstcO (V me)) x in
  let z := (invW * z - coef * rvstcO (V me) si)%R in
  (z + rvsdiag (V me) si * DSROptStaDel * x si)%R.
(** stcopt_cg_impl.c:221-230: every iteration writes its own parameter *)
Definition update_para_real (info : Z) (s : selection) (r : Z -> R) (para : Z -> C) : Z -> C :=
  if info =? 0 then
    loop 0 (nSmat s) (fun si para => let pi := smatToParaIdx s si in upd para pi (Cplus (para pi) (RtoC (r si)))) para
  else para.
