(** Restricted Boltzmann machine factor (src/mVMC/rbm.c).
    Double complex numbers are modelled by exact complex numbers (Coquelicot C). *)
From Coq Require Import ZArith List Bool Reals.
From Coquelicot Require Import Complex.
From Verif Require Import Base.ZLoop Base.Checked.
Import ListNotations.
Local Open Scope Z_scope.

(** Sizes and index tables (include/global.h; sizes from readdef.c:720-740).  Three families: charge (C),
    spin (S) and general (G).  [NneuronX] is the keyword "Nneuron", which readdef.c:720-724 adds to the
    three family counts. *)
Record machine := Machine {
  Nsite : Z;
  NPhysC : Z; NPhysS : Z; NPhysG : Z;          (* N{Charge,Spin,General}RBM_PhysLayerIdx *)
  NHidC : Z; NHidS : Z; NHidG : Z;             (* N{..}RBM_HiddenLayerIdx *)
  NPhC : Z; NPhS : Z; NPhG : Z;                (* N{..}RBM_PhysHiddenIdx *)
  NneuronC : Z; NneuronS : Z; NneuronG : Z; NneuronX : Z;
  PhysC : Z -> Z; PhysS : Z -> Z; PhysG : Z -> Z;
  HidC : Z -> Z; HidS : Z -> Z; HidG : Z -> Z;
  PhC : Z -> Z -> Z; PhS : Z -> Z -> Z; PhG : Z -> Z -> Z
}.

Section Machine.
Variable M : machine.
Let N := Nsite M.
(** readdef.c:720-740 *)
Definition NPhys : Z := NPhysC M + NPhysS M + NPhysG M.
Definition NHid : Z := NHidC M + NHidS M + NHidG M.
Definition NPh : Z := NPhC M + NPhS M + NPhG M.
Definition NRBM : Z := NHid + NPhys + NPh.
Definition Nneuron : Z := NneuronX M + (NneuronC M + NneuronS M + NneuronG M).
(** cells of rbmCnt: rbm.c:199 nRBM *)
Definition nRBM : Z := NPhys + Nneuron.

(** c[i] += v, checked *)
Definition cinc (n : Z) (c : Z -> C) (i : Z) (v : C) : option (Z -> C) :=
  if inb n i then Some (upd c i (Cplus (c i) v)) else None.
Definition zc (k : Z) : C := RtoC (IZR k).

(** n0[ri]+n1[ri]-1, n0[ri]-n1[ri], 2*n[ri]-1 (the last with ri running over both spins) *)
Definition xcharge (e : Z -> Z) (r : Z) : option Z := a <- rd (2 * N) e r;; b <- rd (2 * N) e (r + N);; Some (a + b - 1).
Definition xspin (e : Z -> Z) (r : Z) : option Z := a <- rd (2 * N) e r;; b <- rd (2 * N) e (r + N);; Some (a - b).
Definition xgeneral (e : Z -> Z) (r : Z) : option Z := a <- rd (2 * N) e r;; Some (2 * a - 1).

(** rbm.c:215-230: for(ri<sz) rbmCnt[ tab[ri] + offset ] += x; *)
Definition make_phys (sz : Z) (tab : Z -> Z) (offset : Z) (x : Z -> option Z) (c : Z -> C) : option (Z -> C) :=
  loopM 0 sz (fun ri c => t <- rd sz tab ri;; v <- x ri;; cinc nRBM c (t + offset) (zc v)) c.
(** rbm.c:233-252: for(hi<nn) rbmCnt[hi+offset] += RBM_Hidden[tab[hi]+offset2]; RBM_Hidden = RBM+NRBM_PhysLayerIdx *)
Definition make_hid (nn : Z) (tab : Z -> Z) (offset offset2 : Z) (RBM : Z -> C) (c : Z -> C) : option (Z -> C) :=
  loopM 0 nn (fun hi c => hidx <- rd nn tab hi;; w <- rd NRBM RBM (NPhys + (hidx + offset2));; cinc nRBM c (hi + offset) w) c.
(** rbm.c:255-290: for(hi<nn) { ctmp=0; for(ri<sz) ctmp += RBM_PhysHidden[tab[ri][hi]+offset2]*xi; rbmCnt[hi+offset] += ctmp; } *)
Definition make_ph (nn sz : Z) (tab : Z -> Z -> Z) (offset offset2 : Z) (x : Z -> option Z) (RBM : Z -> C) (c : Z -> C) : option (Z -> C) :=
  loopM 0 nn (fun hi c =>
    ctmp <- loopM 0 sz (fun ri ctmp => xi <- x ri;; hidx <- (if inb sz ri then rd nn (tab ri) hi else None);;
                          w <- rd NRBM RBM (NPhys + NHid + (hidx + offset2));; Some (Cplus ctmp (Cmult w (zc xi)))) (RtoC 0);;
    cinc nRBM c (hi + offset) ctmp) c.

(** rbm.c:187-288 MakeRBMCnt(rbmCnt, eleNum) *)
Definition make_rbm_cnt (RBM : Z -> C) (c : Z -> C) (e : Z -> Z) : option (Z -> C) :=
  c <- loopM 0 nRBM (fun idx c => wr nRBM c idx (RtoC 0)) c;;
  c <- (if 0 <? NPhysC M then make_phys N (PhysC M) 0 (xcharge e) c else Some c);;
  c <- (if 0 <? NPhysS M then make_phys N (PhysS M) (NPhysC M) (xspin e) c else Some c);;
  c <- (if 0 <? NPhysG M then make_phys (2 * N) (PhysG M) (NPhysC M + NPhysS M) (xgeneral e) c else Some c);;
  c <- (if 0 <? NHidC M then make_hid (NneuronC M) (HidC M) NPhys 0 RBM c else Some c);;
  c <- (if 0 <? NHidS M then make_hid (NneuronS M) (HidS M) (NPhys + NneuronC M) (NHidC M) RBM c else Some c);;
  c <- (if 0 <? NHidG M then make_hid (NneuronG M) (HidG M) (NPhys + NneuronC M + NneuronS M) (NHidC M + NHidS M) RBM c else Some c);;
  c <- (if 0 <? NPhC M then make_ph (NneuronC M) N (PhC M) NPhys 0 (xcharge e) RBM c else Some c);;
  c <- (if 0 <? NPhS M then make_ph (NneuronS M) N (PhS M) (NPhys + NneuronC M) (NPhC M) (xspin e) RBM c else Some c);;
  (if 0 <? NPhG M then make_ph (NneuronG M) (2 * N) (PhG M) (NPhys + NneuronC M + NneuronS M) (NPhC M + NPhS M) (xgeneral e) RBM c else Some c).

(** rbm.c:406-408: copy of the old counters unless the pointers are equal *)
Definition copy_rbm (alias : bool) (cnew cold : Z -> C) : option (Z -> C) :=
  if alias then Some cold
  else loopM 0 nRBM (fun idx c => v <- rd nRBM cold idx;; wr nRBM c idx v) cnew.
(** rbm.c:412-423: rbmCntNew[tab[i]+offset] += di; rbmCntNew[tab[j]+offset] += dj; *)
Definition move_phys (sz : Z) (tab : Z -> Z) (offset i di j dj : Z) (c : Z -> C) : option (Z -> C) :=
  ti <- rd sz tab i;; c <- cinc nRBM c (ti + offset) (zc di);;
  tj <- rd sz tab j;; cinc nRBM c (tj + offset) (zc dj).
(** rbm.c:429-461: for(hi<nn) rbmCntNew[hi+offset] += k*RBM_PhysHidden[tab[r][hi]+offset2]; (k<0 for "-=") *)
Definition move_ph (nn sz : Z) (tab : Z -> Z -> Z) (offset offset2 r k : Z) (RBM : Z -> C) (c : Z -> C) : option (Z -> C) :=
  loopM 0 nn (fun hi c => hidx <- (if inb sz r then rd nn (tab r) hi else None);;
    w <- rd NRBM RBM (NPhys + NHid + (hidx + offset2));; cinc nRBM c (hi + offset) (Cmult (zc k) w)) c.

(** rbm.c:383-466 UpdateRBMCnt(ri,rj,s,rbmCntNew,rbmCntOld,eleNum).  eleNum is only read into the unused nit, njt
    (399-400); the reads are modelled. *)
Definition update_rbm_cnt (RBM : Z -> C) (ri rj s : Z) (alias : bool) (cnew cold : Z -> C) (e : Z -> Z) : option (Z -> C) :=
  let rsi := ri + s * N in
  let rsj := rj + s * N in
  let t := 1 - s in
  _ <- rd (2 * N) e (ri + t * N);; _ <- rd (2 * N) e (rj + t * N);;
  c <- copy_rbm alias cnew cold;;
  if ri =? rj then Some c
  else
    c <- (if 0 <? NPhysC M then move_phys N (PhysC M) 0 ri (-1) rj 1 c else Some c);;
    c <- (if 0 <? NPhysS M then move_phys N (PhysS M) (NPhysC M) ri (2 * s - 1) rj (1 - 2 * s) c else Some c);;
    c <- (if 0 <? NPhysG M then move_phys (2 * N) (PhysG M) (NPhysC M + NPhysS M) rsi (-2) rsj 2 c else Some c);;
    c <- (if 0 <? NPhC M then
            c <- move_ph (NneuronC M) N (PhC M) NPhys 0 ri (-1) RBM c;;
            move_ph (NneuronC M) N (PhC M) NPhys 0 rj 1 RBM c else Some c);;
    c <- (if 0 <? NPhS M then
            c <- move_ph (NneuronS M) N (PhS M) (NPhys + NneuronC M) (NPhC M) ri (- (1 - 2 * s)) RBM c;;
            move_ph (NneuronS M) N (PhS M) (NPhys + NneuronC M) (NPhC M) rj (1 - 2 * s) RBM c else Some c);;
    (if 0 <? NPhG M then
       c <- move_ph (NneuronG M) (2 * N) (PhG M) (NPhys + NneuronC M + NneuronS M) (NPhC M + NPhS M) rsi (-2) RBM c;;
       move_ph (NneuronG M) (2 * N) (PhG M) (NPhys + NneuronC M + NneuronS M) (NPhC M + NPhS M) rsj 2 RBM c else Some c).

(** rbm.c:469-580 UpdateRBMCnt_fsz(ri,rj,s,t,rbmCntNew,rbmCntOld).  The branch for a spin flip on one site (490-519)
    has no statement for the general visible fields. *)
Definition update_rbm_cnt_fsz (RBM : Z -> C) (ri rj s t : Z) (alias : bool) (cnew cold : Z -> C) : option (Z -> C) :=
  let rsi := ri + s * N in
  let rtj := rj + t * N in
  c <- copy_rbm alias cnew cold;;
  if ri =? rj then
    if s =? t then Some c
    else
      c <- (if 0 <? NPhysS M then move_phys N (PhysS M) (NPhysC M) ri (2 * s - 1) rj (1 - 2 * t) c else Some c);;
      c <- (if 0 <? NPhS M then
              c <- move_ph (NneuronS M) N (PhS M) (NPhys + NneuronC M) (NPhC M) ri (- (1 - 2 * s)) RBM c;;
              move_ph (NneuronS M) N (PhS M) (NPhys + NneuronC M) (NPhC M) rj (1 - 2 * t) RBM c else Some c);;
      (if 0 <? NPhG M then
         c <- move_ph (NneuronG M) (2 * N) (PhG M) (NPhys + NneuronC M + NneuronS M) (NPhC M + NPhS M) rsi (-2) RBM c;;
         move_ph (NneuronG M) (2 * N) (PhG M) (NPhys + NneuronC M + NneuronS M) (NPhC M + NPhS M) rtj 2 RBM c else Some c)
  else
    c <- (if 0 <? NPhysC M then move_phys N (PhysC M) 0 ri (-1) rj 1 c else Some c);;
    c <- (if 0 <? NPhysS M then move_phys N (PhysS M) (NPhysC M) ri (2 * s - 1) rj (1 - 2 * t) c else Some c);;
    c <- (if 0 <? NPhysG M then move_phys (2 * N) (PhysG M) (NPhysC M + NPhysS M) rsi (-2) rtj 2 c else Some c);;
    c <- (if 0 <? NPhC M then
            c <- move_ph (NneuronC M) N (PhC M) NPhys 0 ri (-1) RBM c;;
            move_ph (NneuronC M) N (PhC M) NPhys 0 rj 1 RBM c else Some c);;
    c <- (if 0 <? NPhS M then
            c <- move_ph (NneuronS M) N (PhS M) (NPhys + NneuronC M) (NPhC M) ri (- (1 - 2 * s)) RBM c;;
            move_ph (NneuronS M) N (PhS M) (NPhys + NneuronC M) (NPhC M) rj (1 - 2 * t) RBM c else Some c);;
    (if 0 <? NPhG M then
       c <- move_ph (NneuronG M) (2 * N) (PhG M) (NPhys + NneuronC M + NneuronS M) (NPhC M + NPhS M) rsi (-2) RBM c;;
       move_ph (NneuronG M) (2 * N) (PhG M) (NPhys + NneuronC M + NneuronS M) (NPhC M + NPhS M) rtj 2 RBM c else Some c).

(** C library functions cexp, ccosh, ctanh as exact functions; clog is an argument (any function inverting cexp). *)
Definition cexp (z : C) : C := (exp (fst z) * cos (snd z), exp (fst z) * sin (snd z))%R.
Definition ccosh (z : C) : C := Cdiv (Cplus (cexp z) (cexp (Copp z))) (RtoC 2).
Definition ctanh (z : C) : C := Cdiv (Cminus (cexp z) (cexp (Copp z))) (Cplus (cexp z) (cexp (Copp z))).

Section Log.
Variable clog : C -> C.

(** rbm.c:47-62 LogWeightRBM; the two OpenMP sum reductions are modelled as sequential sums *)
Definition log_weight_rbm (RBM c : Z -> C) : C :=
  let z := loop 0 NPhys (fun idx z => Cplus z (Cmult (RBM idx) (c idx))) (RtoC 0) in
  loop 0 Nneuron (fun hi z => Cplus z (clog (ccosh (c (hi + NPhys))))) z.
(** rbm.c:30-45 WeightRBM: the same sum, then cexp *)
Definition weight_rbm (RBM c : Z -> C) : C := cexp (log_weight_rbm RBM c).

(** An OpenMP "for" without schedule clause, n iterations on T threads: thread tid gets one contiguous chunk,
    the first n mod T threads one iteration more (the static schedule of libgomp and libomp). *)
Definition chunk_start (n T tid : Z) : Z := tid * (n / T) + Z.min tid (n mod T).
Definition chunk_size (n T tid : Z) : Z := n / T + (if tid <? n mod T then 1 else 0).

(** rbm.c:86-91: choose the sign of theta with positive real part *)
Definition fold_sign (z : C) : C := if Rle_dec (fst z) 0 then Copp z else z.
(** rbm.c:92-94 *)
Definition quot (a b : C) : C :=
  Cdiv (Cplus (RtoC 1) (cexp (Cmult (RtoC (-2)) a))) (Cplus (RtoC 1) (cexp (Cmult (RtoC (-2)) b))).

(** rbm.c:80-118: what one of the T threads of the parallel region computes for the block [hist,hiend): its private z and zz.
    zzTmp is a private array whose cells not written in the first loop hold [junk].
    icnt restarts at 0 before the second loop, which has one iteration for every 8 cells (first branch) or for every cell. *)
Definition thread_part (cnew cold : Z -> C) (hist hiend T tid : Z) (junk : Z -> C) : C * C :=
  let n := hiend - hist in
  let st := chunk_start n T tid in
  let '(icnt, zzTmp, z) := loop (hist + st) (hist + st + chunk_size n T tid)
    (fun hi '(icnt, zzTmp, z) =>
       let a := fold_sign (cnew (hi + NPhys)) in
       let b := fold_sign (cold (hi + NPhys)) in
       (icnt + 1, upd zzTmp icnt (quot a b), Cplus z (Cminus a b))) (0, junk, RtoC 0) in
  if icnt mod 8 =? 0 then
    let n8 := (n + 7) / 8 in
    let '(icnt, zz) := loop 0 (chunk_size n8 T tid)
      (fun _ '(icnt, zz) => (icnt + 8, Cmult zz (loop 0 8 (fun k p => Cmult p (zzTmp (icnt + k))) (RtoC 1)))) (0, RtoC 1) in
    (z, zz)
  else
    let '(icnt, zz) := loop 0 (chunk_size n T tid) (fun _ '(icnt, zz) => (icnt + 1, Cmult zz (zzTmp icnt))) (0, RtoC 1) in
    (z, zz).

(** rbm.c:124-186 LogRBMRatio(rbmCntNew, rbmCntOld) with T threads; NB is NBlockSize_RBMRatio *)
Definition log_rbm_ratio (RBM : Z -> C) (NB T : Z) (junk : Z -> Z -> C) (cnew cold : Z -> C) : C :=
  let z := loop 0 NPhys (fun idx z => Cplus z (Cmult (RBM idx) (Cminus (cnew idx) (cold idx)))) (RtoC 0) in
  let Nblk := Z.quot (Nneuron - 1) NB + 1 in
  loop 0 Nblk (fun iblk z =>
    let hist := iblk * NB in
    let hiend := if Nneuron <? hist + NB then Nneuron else hist + NB in
    let '(z, zz) := loop 0 T (fun tid '(z, zz) =>
      let '(dz, dzz) := thread_part cnew cold hist hiend T tid (junk tid) in (Cplus z dz, Cmult zz dzz)) (z, RtoC 1) in
    Cplus z (clog zz)) z.
(** rbm.c:64-122 RBMRatio: the same statements, then cexp *)
Definition rbm_ratio (RBM : Z -> C) (NB T : Z) (junk : Z -> Z -> C) (cnew cold : Z -> C) : C :=
  cexp (log_rbm_ratio RBM NB T junk cnew cold).
End Log.

(** srOptO[i] += v; srOptO[i+1] += I*v *)
Definition put2 (O : Z -> C) (i : Z) (v : C) : option (Z -> C) :=
  O <- cinc (2 * NRBM) O i v;; cinc (2 * NRBM) O (i + 1) (Cmult Ci v).
(** rbm.c:343-379: one family of neurons: hidden-layer slot, then one slot per site *)
Definition diff_family (nn sz : Z) (hid : Z -> Z) (ph : Z -> Z -> Z) (first oh op : Z) (x : Z -> option Z) (c : Z -> C) (O : Z -> C) : option (Z -> C) :=
  loopM 0 nn (fun hi O =>
    idx <- rd nn hid hi;;
    th <- rd nRBM c (hi + first);;
    let ctmp := ctanh th in
    O <- put2 O (2 * idx + oh) ctmp;;
    loopM 0 sz (fun ri O => xi <- x ri;; idx <- (if inb sz ri then rd nn (ph ri) hi else None);;
                            put2 O (2 * idx + op) (Cmult (zc xi) ctmp)) O) O.
(** rbm.c:321-381 RBMDiff(srOptO, rbmCnt, eleNum) *)
Definition rbm_diff (O c : Z -> C) (e : Z -> Z) : option (Z -> C) :=
  let offset := 2 * NPhys in
  let offset2 := 2 * NPhys + 2 * NHid in
  O <- loopM 0 (2 * NRBM) (fun idx O => wr (2 * NRBM) O idx (RtoC 0)) O;;
  O <- loopM 0 NPhys (fun idx O => ctmp <- rd nRBM c idx;; O <- wr (2 * NRBM) O (2 * idx) ctmp;; wr (2 * NRBM) O (2 * idx + 1) (Cmult Ci ctmp)) O;;
  O <- diff_family (NneuronC M) N (HidC M) (PhC M) NPhys offset offset2 (xcharge e) c O;;
  O <- diff_family (NneuronS M) N (HidS M) (PhS M) (NPhys + NneuronC M) (offset + 2 * NHidC M) (offset2 + 2 * NPhC M) (xspin e) c O;;
  diff_family (NneuronG M) (2 * N) (HidG M) (PhG M) (NPhys + NneuronC M + NneuronS M) (offset + 2 * NHidC M + 2 * NHidS M)
    (offset2 + 2 * NPhC M + 2 * NPhS M) (xgeneral e) c O.
End Machine.
