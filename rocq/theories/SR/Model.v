(** Stochastic reconfiguration: accumulation of the sample averages (vmccal.c), reduction over processes (average.c),
    selection of the parameters and update (stcopt.c), assembly of the linear system (stcopt_dposv.c,
    stcopt_pdposv.c), and the conjugate-gradient variant (stcopt_cg_impl.c).
    Doubles are reals, double complex is R*R.  What is computed per sample (projected Pfaffians, local energy,
    derivatives) is an input; OpenMP loops write disjoint cells and are taken in order. *)
From Coq Require Import ZArith List Bool Reals.
From Coquelicot Require Import Complex.
From Verif Require Import Base.ZLoop Base.RSum Par.Model.
Import ListNotations.
Local Open Scope Z_scope.

(** one Monte Carlo sample as VMCMainCal sees it (vmccal.c:112-204): [ok] is false when one of the three "continue"s is
    taken (singular matrix, weight or energy not finite); [wgt] is w (1.0 in the code), [ene] is e,
    [der] the derivatives with respect to the parameter components, cells 2 .. 2*SROptSize-1 of srOptO;
    [grn1] and [grn2] are LocalCisAjs and LocalCisAjsCktAltDC of calgrn.c (used when observables are measured). *)
Record sample := Smp { ok : bool; wgt : R; ene : C; der : Z -> C; grn1 : Z -> C; grn2 : Z -> C }.
(** vmccal.c:205-206: srOptO[0] = 1, srOptO[1] = 0 *)
Definition srOptO (x : sample) (i : Z) : C := if i =? 0 then RtoC 1 else if i =? 1 then RtoC 0 else der x i.

(** the accumulators of one process *)
Record acc := Acc { Wc : R; Etot : C; Etot2 : C; OO : Z -> C; HO : Z -> C; Store : Z -> C }.
(** clearPhysQuantity (vmccal.c:562-590): everything but the store is set to zero *)
Definition clear (st : Z -> C) : acc := Acc 0 (RtoC 0) (RtoC 0) (fun _ => RtoC 0) (fun _ => RtoC 0) st.
Definition cadd (a : Z -> C) (i : Z) (v : C) : Z -> C := upd a i (Cplus (a i) v).

Section Complex.
Variable S : Z.                           (* SROptSize *)

(** vmccal.c:757-782 calculateOO *)
Definition calculateOO (w : R) (e : C) (O : Z -> C) (oo ho : Z -> C) : (Z -> C) * (Z -> C) :=
  let '(oo, ho) := loop 0 (2 * S) (fun j (st : (Z -> C) * (Z -> C)) =>
      let (oo, ho) := st in
      let tmp := Cmult (RtoC w) (O j) in
      let oo := cadd oo (0 * (2 * S) + j) tmp in
      let oo := cadd oo (1 * (2 * S) + j) (RtoC 0) in
      (oo, cadd ho j (Cmult e tmp))) (oo, ho) in
  let oo := loop 2 (2 * S) (fun i oo =>
      loop 0 (2 * S) (fun j oo => cadd oo (i * (2 * S) + j) (Cmult (RtoC w) (Cmult (O j) (Cconj (O i))))) oo) oo in
  (oo, ho).

(** vmccal.c:237-258, stored derivatives *)
Definition store_sample (sample : Z) (w : R) (e : C) (O : Z -> C) (st ho : Z -> C) : (Z -> C) * (Z -> C) :=
  let we := Cmult (RtoC w) e in
  let sqrtw := sqrt w in
  loop 0 (2 * S) (fun i (x : (Z -> C) * (Z -> C)) =>
    let (st, ho) := x in
    (upd st (i + sample * (2 * S)) (Cmult (RtoC sqrtw) (O i)), cadd ho i (Cmult we (O i)))) (st, ho).

(** one pass of the sample loop, vmccal.c:112-260; [store] is NSRCG!=0 || NStoreO!=0 *)
Definition one_sample (store : bool) (i : Z) (x : sample) (a : acc) : acc :=
  if ok x then
    let w := wgt x in let e := ene x in
    let W := (Wc a + w)%R in
    let E := Cplus (Etot a) (Cmult (RtoC w) e) in
    let E2 := Cplus (Etot2 a) (Cmult (Cmult (RtoC w) (Cconj e)) e) in
    if store then
      let (st, ho) := store_sample i w e (srOptO x) (Store a) (HO a) in Acc W E E2 (OO a) ho st
    else
      let (oo, ho) := calculateOO w e (srOptO x) (OO a) (HO a) in Acc W E E2 oo ho (Store a)
  else a.

(** ZGEMM('N','C',n,n,k,1,A,n,A,n,0,C,n): C[i+j*n] = sum_l A[i+l*n]*conj(A[j+l*n]) *)
Definition zgemm_NC (n k : Z) (A C : Z -> C) (idx : Z) : Complex.C :=
  if (0 <=? idx) && (idx <? n * n) then
    csum (zrange 0 k) (fun l => Cmult (A (idx mod n + l * n)) (Cconj (A (idx / n + l * n))))
  else C idx.
(** vmccal.c:680-713 calculateOO_Store with srOptSize = 2*SROptSize *)
Definition calculateOO_Store (cg : bool) (sampleSize : Z) (st oo : Z -> C) : Z -> C :=
  let n := 2 * S in
  if cg then
    let oo := loop 0 n (fun i oo => upd (upd oo i (RtoC 0)) (i + n) (RtoC 0)) oo in
    loop 0 sampleSize (fun j oo => loop 0 n (fun i oo =>
      let o := st (i + j * n) in
      cadd (cadd oo i o) (i + n) (RtoC (fst o * fst o + snd o * snd o))) oo) oo
  else zgemm_NC n sampleSize st oo.

(** vmccal.c:97-110 and 290-307: the whole of VMCMainCal on one process of a group of [size] processes;
    [st] is the store as left by the previous step (it is never cleared) *)
Definition main_cal (NSRCG NStoreO : bool) (NVMCSample size rank : Z) (smp : Z -> sample) (st : Z -> C) : acc :=
  let (sampleStart, sampleEnd) := split_loop NVMCSample rank size in
  let store := NSRCG || NStoreO in
  let a := loop sampleStart sampleEnd (fun i a => one_sample store i (smp i) a) (clear st) in
  if store then
    Acc (Wc a) (Etot a) (Etot2 a) (calculateOO_Store NSRCG (sampleEnd - sampleStart) (Store a) (OO a)) (HO a) (Store a)
  else a.
End Complex.

(** *** reduction over the processes of comm_parent: process p is process [snd p] of group [fst p] *)
Definition procs (groups : Z) (gsize : Z -> Z) : list (Z * Z) :=
  flat_map (fun g => map (fun r => (g, r)) (zrange 0 (gsize g))) (zrange 0 groups).

(** average.c:41-74 WeightAverageWE: total weight, energy, energy squared *)
Definition average_we (ps : list (Z * Z)) (A : Z * Z -> acc) (me : Z * Z) : R * C * C :=
  if (1 <? Z.of_nat (length ps)) then
    let W := rsum ps (fun p => Wc (A p)) in
    let invW := RtoC (1 / W) in
    (W, Cmult (csum ps (fun p => Etot (A p))) invW, Cmult (csum ps (fun p => Etot2 (A p))) invW)
  else
    let invW := RtoC (1 / Wc (A me)) in
    (Wc (A me), Cmult (Etot (A me)) invW, Cmult (Etot2 (A me)) invW).
(** average.c:78-111 WeightAverageSROpt on one array; W is the already reduced Wc *)
Definition average_vec (ps : list (Z * Z)) (W : R) (v : Z * Z -> Z -> C) (me : Z * Z) (i : Z) : C :=
  let invW := RtoC (1 / W) in
  if (1 <? Z.of_nat (length ps)) then Cmult (csum ps (fun p => v p i)) invW else Cmult (v me i) invW.

(** *** measurement of the Green functions.  calgrn.c:62-114 CalculateGreenFunc: PhysCisAjs, PhysCisAjsCktAlt and
    PhysCisAjsCktAltDC are consecutive in memory (setmemory.c) *)
Definition green_sample (N1 N2 N3 : Z) (ca : Z -> Z * Z) (x : sample) (phys : Z -> C) : Z -> C :=
  let w := RtoC (wgt x) in
  let phys := loop 0 N1 (fun i ph => cadd ph (0 + i) (Cmult w (grn1 x i))) phys in
  let phys := loop 0 N3 (fun i ph => cadd ph (N1 + N2 + i) (Cmult w (grn2 x i))) phys in
  loop 0 N2 (fun i ph => cadd ph (N1 + i) (Cmult (Cmult w (grn1 x (fst (ca i)))) (Cconj (grn1 x (snd (ca i)))))) phys.
(** vmccal.c:97-113, 260-275 with NVMCCalMode = 1 *)
Definition green_cal (N1 N2 N3 : Z) (ca : Z -> Z * Z) (NVMCSample size rank : Z) (smp : Z -> sample) : R * (Z -> C) :=
  let (sampleStart, sampleEnd) := split_loop NVMCSample rank size in
  loop sampleStart sampleEnd (fun i (st : R * (Z -> C)) =>
    if ok (smp i) then ((fst st + wgt (smp i))%R, green_sample N1 N2 N3 ca (smp i) (snd st)) else st)
   (0%R, fun _ => RtoC 0).
(** average.c:264-292 weightAverageReduce_fcmp: only process 0 gets the result *)
Definition average_reduce (ps : list (Z * Z)) (W : R) (v : Z * Z -> Z -> C) (rank0 me : Z * Z) (i : Z) : C :=
  let invW := RtoC (1 / W) in
  if (1 <? Z.of_nat (length ps)) then
    if (fst me =? fst rank0) && (snd me =? snd rank0) then Cmult (csum ps (fun p => v p i)) invW else v me i
  else Cmult (v me i) invW.

(** *** selection of the parameter components: stcopt.c:85-135, stcopt_cg_impl.c:116-160 *)
Definition diag_max (n : Z) (r : Z -> R) : R :=
  loop 0 n (fun p m => if Rlt_dec m (r p) then r p else m) (r 0).
Record selection := Sel { nSmat : Z; smatToParaIdx : Z -> Z; optNum : Z; cutNum : Z }.
Definition select (n : Z) (OptFlag : Z -> Z) (r : Z -> R) (DSROptRedCut : R) : selection :=
  let diagCutThreshold := (diag_max n r * DSROptRedCut)%R in
  let s := loop 0 n (fun pi s =>
    if negb (OptFlag pi =? 1) then Sel (nSmat s) (smatToParaIdx s) (optNum s + 1) (cutNum s)
    else if Rlt_dec (r pi) diagCutThreshold then Sel (nSmat s) (smatToParaIdx s) (optNum s) (cutNum s + 1)
    else Sel (nSmat s + 1) (upd (smatToParaIdx s) (nSmat s) pi) (optNum s) (cutNum s)) (Sel 0 (fun _ => 0) 0 0) in
  Sel (nSmat s) (loop (nSmat s) n (fun si m => upd m si (-1)) (smatToParaIdx s)) (optNum s) (cutNum s).
(** stcopt.c:91: the diagonal of S *)
Definition sdiag (S : Z) (OO : Z -> C) (pi : Z) : R :=
  (fst (OO ((pi + 2) * (2 * S) + (pi + 2))%Z) - fst (OO (pi + 2)%Z) * fst (OO (pi + 2)%Z))%R.
(** stcopt.c:172-186: the update of the parameters on process 0 ([info] is the status after the finiteness check) *)
Definition update_para (info : Z) (s : selection) (r : Z -> R) (para : Z -> C) : Z -> C :=
  if info =? 0 then
    loop 0 (nSmat s) (fun si para =>
      let pi := smatToParaIdx s si in
      if pi mod 2 =? 0 then upd para (pi / 2) (Cplus (para (pi / 2)) (RtoC (r si)))
      else upd para ((pi - 1) / 2) (Cplus (para ((pi - 1) / 2)) (Cmult (RtoC (r si)) Ci))) para
  else para.

(** *** assembly: stcopt_dposv.c:53-85 stcOptInit (column major S) *)
Definition stcOptInit (SROptSize : Z) (DSROptStaDel DSROptStepDt : R) (nSmat : Z) (idx : Z -> Z) (OO HO : Z -> C)
    (Smat g : Z -> R) : (Z -> R) * (Z -> R) :=
  let ratioDiag := (1 + DSROptStaDel)%R in
  let Smat := loop 0 nSmat (fun si Smat =>
    let pi := idx si in
    let offset := (pi + 2) * (2 * SROptSize) in
    let tmp := fst (OO (pi + 2)) in
    let Smat := loop 0 nSmat (fun sj Smat =>
      let pj := idx sj in
      upd Smat (si + nSmat * sj) (fst (OO (offset + (pj + 2))%Z) - tmp * fst (OO (pj + 2)%Z))%R) Smat in
    upd Smat (si + nSmat * si) (Smat (si + nSmat * si)%Z * ratioDiag)%R) Smat in
  let g := loop 0 nSmat (fun si g =>
    let pi := idx si in
    upd g si (- DSROptStepDt * 2 * (fst (HO (pi + 2)%Z) - fst (HO 0%Z) * fst (OO (pi + 2)%Z)))%R) g in
  (Smat, g).

(** *** stcopt_pdposv.c:131-181: the block of the matrix held by process (myprow,mypcol) of an nprow x npcol grid.
    [numroc] is ScaLAPACK's NUMROC with source process 0. *)
Definition numroc (n nb iproc nprocs : Z) : Z :=
  let nblocks := n / nb in
  let num := (nblocks / nprocs) * nb in
  let extrablks := nblocks mod nprocs in
  if iproc <? extrablks then num + nb else if iproc =? extrablks then num + n mod nb else num.
Definition local_to_global (ir mb nprow myprow : Z) : Z := (ir / mb) * nprow * mb + myprow * mb + ir mod mb.
Definition pd_block (SROptSize : Z) (DSROptStaDel : R) (nSmat mb nprow npcol myprow mypcol : Z) (idx : Z -> Z) (OO : Z -> C)
    (s : Z -> R) : Z -> R :=
  let mlocr := numroc nSmat mb myprow nprow in
  let mlocc := numroc nSmat mb mypcol npcol in
  let ratioDiag := (1 + DSROptStaDel)%R in
  loop 0 mlocc (fun ic s =>
    let pj := idx (local_to_global ic mb npcol mypcol) in
    loop 0 mlocr (fun ir s =>
      let pi := idx (local_to_global ir mb nprow myprow) in
      let k := ir + ic * mlocr in
      let s := upd s k (fst (OO ((pi + 2) * (2 * SROptSize) + (pj + 2))%Z) - fst (OO (pi + 2)%Z) * fst (OO (pj + 2)%Z))%R in
      if pi =? pj then upd s k (s k * ratioDiag)%R else s) s) s.
(** stcopt_pdposv.c:185-193 *)
Definition pd_vec (DSROptStepDt : R) (nSmat mb nprow myprow : Z) (idx : Z -> Z) (OO HO : Z -> C) (g : Z -> R) : Z -> R :=
  loop 0 (numroc nSmat mb myprow nprow) (fun ir g =>
    let pi := idx (local_to_global ir mb nprow myprow) in
    upd g ir (- DSROptStepDt * 2 * (fst (HO (pi + 2)%Z) - fst (HO 0%Z) * fst (OO (pi + 2)%Z)))%R) g.
(** stcopt_pdposv.c:229-245: the solution held by the processes of column 0, gathered into r *)
Definition pd_gather (nSmat mb nprow : Z) (g : Z -> Z -> R) : Z -> R :=
  fun si => rsum (zrange 0 nprow) (fun myprow =>
    loop 0 (numroc nSmat mb myprow nprow) (fun ir w => upd w (local_to_global ir mb nprow myprow) (g myprow ir)) (fun _ => 0%R) si).

(** *** conjugate gradients, complex variant *)
Record veccg := VecCG { vg : Z -> R; vsdiag : Z -> R; vstcO : Z -> R; vOs_real : Z -> R; vOs_imag : Z -> R }.
(** stcopt_cg_impl.c:443-505 StochasticOptCG_Init *)
Definition cg_init (SROptSize NVMCSample nSmat : Z) (DSROptStepDt : R) (idx : Z -> Z) (OO HO Store : Z -> C) : veccg :=
  let dt := (2 * DSROptStepDt)%R in
  let OOdiag := fun i => OO (2 * SROptSize + i) in
  let zero := fun _ : Z => 0%R in
  let '(re, im) := loop 0 NVMCSample (fun i st =>
    let offset := i * 2 * SROptSize in
    loop 0 nSmat (fun si (st : (Z -> R) * (Z -> R)) =>
      let pi := idx si in
      (upd (fst st) (si + i * nSmat) (fst (Store (offset + pi + 2)%Z)),
       upd (snd st) (si + i * nSmat) (snd (Store (offset + pi + 2)%Z)))) st) (zero, zero) in
  let '(o, g, d) := loop 0 nSmat (fun si (st : (Z -> R) * (Z -> R) * (Z -> R)) =>
    let '(o, g, d) := st in
    let pi := idx si in
    (upd o si (fst (OO (pi + 2)%Z)),
     upd g si (- dt * (fst (HO (pi + 2)%Z) - fst (HO 0%Z) * fst (OO (pi + 2)%Z)))%R,
     upd d si (fst (OOdiag (pi + 2)%Z) - fst (OO (pi + 2)%Z) * fst (OO (pi + 2)%Z))%R)) (zero, zero, zero) in
  VecCG g d o re im.
(** stcopt_cg.c:27-35 xdot *)
Definition xdot (n : Z) (p q : Z -> R) : R := loop 0 n (fun i z => (z + p i * q i)%R) 0%R.
(** DGEMV: 'T' y[s] = sum_i A[i+s*n]*x[i];  'N' z[i] = sum_s A[i+s*n]*y[s] *)
Definition dgemv_T (n k : Z) (A x : Z -> R) (s : Z) : R := rsum (zrange 0 n) (fun i => A (i + s * n)%Z * x i)%R.
Definition dgemv_N (n k : Z) (A y : Z -> R) (i : Z) : R := rsum (zrange 0 k) (fun s => A (i + s * n)%Z * y s)%R.
(** stcopt_cg_impl.c:364-432 operate_by_S; [V p] is VecCG on process p, x is broadcast from process 0 *)
Definition operate_by_S (nSmat NVMCSample : Z) (W DSROptStaDel : R) (ps : list (Z * Z)) (V : Z * Z -> veccg) (me : Z * Z)
    (x : Z -> R) (si : Z) : R :=
  let invW := (1 / W)%R in
  let z_local := fun p si =>
    let y_real := dgemv_T nSmat NVMCSample (vOs_real (V p)) x in
    let y_imag := dgemv_T nSmat NVMCSample (vOs_imag (V p)) x in
    (dgemv_N nSmat NVMCSample (vOs_real (V p)) y_real si + dgemv_N nSmat NVMCSample (vOs_imag (V p)) y_imag si)%R in
  let z := rsum ps (fun p => z_local p si) in
  let coef := xdot nSmat (vstcO (V me)) x in
  let z := (invW * z - coef * vstcO (V me) si)%R in
  (z + vsdiag (V me) si * DSROptStaDel * x si)%R.

(** stcopt_cg_impl.c:292-345, the solver loop; [apply] is operate_by_S.  The state is (x, r, d, delta, iter);
    the loop runs at most max_iter times and stops early when delta < cg_thresh. *)
Record cgstate := CG { cx : Z -> R; cr : Z -> R; cd : Z -> R; cdelta : R; citer : Z; cstop : bool }.
Definition cg_step (n : Z) (thresh : R) (apply : (Z -> R) -> Z -> R) (g : Z -> R) (s : cgstate) : cgstate :=
  if cstop s then s
  else if Rlt_dec (cdelta s) thresh then CG (cx s) (cr s) (cd s) (cdelta s) (citer s) true
  else
    let q := apply (cd s) in
    let alpha := (cdelta s / xdot n (cd s) q)%R in
    let x := fun i => (cx s i + alpha * cd s i)%R in
    let r := if (citer s + 1) mod 20 =? 0 then let y := apply x in fun i => (g i - y i)%R
             else fun i => (cr s i - alpha * q i)%R in
    let beta := (xdot n r r / cdelta s)%R in
    let delta := (beta * cdelta s)%R in
    let d := fun i => (r i + beta * cd s i)%R in
    CG x r d delta (citer s + 1) false.
Definition cg_start (n : Z) (g : Z -> R) : cgstate := CG (fun _ => 0%R) g g (xdot n g g) 0 false.
Definition cg_main (n max_iter : Z) (thresh : R) (apply : (Z -> R) -> Z -> R) (g : Z -> R) : cgstate :=
  loop 0 max_iter (fun _ s => cg_step n thresh apply g s) (cg_start n g).

(** stcopt_cg_impl.c:261, 264 *)
Definition cg_max_iter (NSROptCGMaxIter nSmat : Z) : Z := if 0 <? NSROptCGMaxIter then NSROptCGMaxIter else nSmat.
Definition cg_thresh (DSROptCGTol : R) (nSmat : Z) : R := (DSROptCGTol * DSROptCGTol * IZR nSmat * IZR nSmat)%R.
(** stcopt_cg_impl.c:118-122: the diagonal of S in conjugate-gradient mode *)
Definition cg_sdiag (S : Z) (OO : Z -> C) (pi : Z) : R :=
  (fst (OO (2 * S + (pi + 2))%Z) - fst (OO (pi + 2)%Z) * fst (OO (pi + 2)%Z))%R.

(** *** the optimisation loop: vmcmain.c:331-527 and avevar.c:85-96.  [step k (E,E2,para)] is everything between
    sampling and SyncModifiedParameter; [None] is the early return on an error of the solver. *)
Record optdata := OptData { oE : C; oE2 : C; oPara : Z -> C }.
Definition store_opt (NPara sample : Z) (o : optdata) (data : Z -> C) : Z -> C :=
  let n := 2 + NPara in
  let base := n * sample in
  let data := upd data (base + 0) (oE o) in
  let data := upd data (base + 1) (oE2 o) in
  loop 0 NPara (fun i data => upd data (base + (i + 2)) (oPara o i)) data.
Fixpoint opt_steps (NPara itrStep itrSmp : Z) (step : Z -> optdata -> option optdata) (steps : list Z) (o : optdata)
    (data : Z -> C) : option (optdata * (Z -> C)) :=
  match steps with
  | [] => Some (o, data)
  | k :: rest =>
    match step k o with
    | None => None
    | Some o =>
      let data := if itrStep - itrSmp <=? k then store_opt NPara (k - (itrStep - itrSmp)) o data else data in
      opt_steps NPara itrStep itrSmp step rest o data
    end
  end.
Definition para_opt (NPara itrStep itrSmp : Z) (step : Z -> optdata -> option optdata) (o : optdata) (data : Z -> C) :=
  opt_steps NPara itrStep itrSmp step (zrange 0 itrStep) o data.
(** avevar.c:34-56 CalcAveVar *)
Definition calc_ave_var (NSROptItrSmp i n : Z) (data : Z -> C) : C * R :=
  let ave := loop 0 NSROptItrSmp (fun s a => Cplus a (data (i + n * s))) (RtoC 0) in
  let ave := Cdiv ave (RtoC (IZR NSROptItrSmp)) in
  let var := loop 0 NSROptItrSmp (fun s v =>
     let d := Cminus (data (i + n * s)) ave in (v + fst (Cmult d (Cconj d)))%R) 0%R in
  (ave, sqrt (var / (IZR NSROptItrSmp - 1))).

(** *** stcopt_cg_impl.c:221-238: in the conjugate-gradient variant the update loop is an OpenMP parallel for.  Every
    iteration loads the complex cell, adds to it and stores it; an execution is an interleaving of these loads and stores. *)
Inductive event := Rd (si : Z) | Wr (si : Z).
Definition cell_of (s : selection) (si : Z) : Z := let pi := smatToParaIdx s si in if pi mod 2 =? 0 then pi / 2 else (pi - 1) / 2.
Definition increment (s : selection) (r : Z -> R) (si : Z) : C :=
  if smatToParaIdx s si mod 2 =? 0 then RtoC (r si) else Cmult (RtoC (r si)) Ci.
Definition exec_event (s : selection) (r : Z -> R) (e : event) (st : (Z -> C) * (Z -> C)) : (Z -> C) * (Z -> C) :=
  let (para, reg) := st in
  match e with
  | Rd si => (para, upd reg si (para (cell_of s si)))
  | Wr si => (upd para (cell_of s si) (Cplus (reg si) (increment s r si)), reg)
  end.
Definition parallel_update (s : selection) (r : Z -> R) (schedule : list event) (para : Z -> C) : Z -> C :=
  fst (fold_left (fun st e => exec_event s r e st) schedule (para, fun _ => RtoC 0)).
