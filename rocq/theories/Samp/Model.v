(** The Monte Carlo sampler (src/mVMC/vmcmake.c, vmcmake_fsz.c; vmcmake_real.c and
    vmcmake_fsz_real.c are the same text with real amplitudes). *)
From Coq Require Import ZArith List Bool.
From Verif Require Import Base.ZLoop Base.Checked Proj.Model Par.Model Samp.Prog.
Import ListNotations.
Local Open Scope Z_scope.

(** input values (global.h) used by the sampler; [T] holds Nsite and the correlation tables *)
Record input := Input {
  T : tables;
  Ne : Z;
  LocSpn : Z -> Z;
  TwoSz : Z;
  iFlgOrbitalGeneral : Z;
  NExUpdatePath : Z;
  NVMCWarmUp : Z;
  NVMCSample : Z;
  NVMCInterval : Z;
  NQPFull : Z
}.

(** TmpEleIdx[2*Ne], TmpEleCfg[2*Nsite], TmpEleNum[2*Nsite], TmpEleProjCnt[NProj], TmpEleSpn[2*Ne] *)
Record walker := Walker {
  eleIdx : Z -> Z; eleCfg : Z -> Z; eleNum : Z -> Z; eleProjCnt : Z -> Z; eleSpn : Z -> Z
}.

(** one proposed move, as passed to the numerical routines *)
Inductive move := OneMove (mi ri rj s t : Z) | TwoMove (mi s mj t ri rj : Z).

(** what an execution shows: the walker at the end of every inner step, the walkers stored as samples,
    the walkers at which the matrices are computed again *)
Inductive event (L : Type) :=
| AtStep (w : walker)
| Save (sample : Z) (w : walker) (logIp : L)
| Recalc (w : walker).
Arguments AtStep {L} _. Arguments Save {L} _ _ _. Arguments Recalc {L} _.

(** vmcmake.c UpdateType *)
Inductive updateType := HOPPING | EXCHANGE | LOCALSPINFLIP | NONE.

(** What is not modelled in detail enters as arbitrary functions: the random numbers, the numerical
    routines on amplitudes and matrices, the content of uninitialised local arrays. *)
Record oracles := Oracles {
  rnd : Z -> Z;         (* gen_rand32(): the stream of 32-bit words; all ranks of a group have the same seed *)
  fuel : nat;           (* number of draws after which a random search is given up (OutOfFuel) *)
  garbage : Z -> Z;     (* initial content of the local array projCntNew *)
  K : Type;             (* inner products *)
  L : Type;             (* their logarithms *)
  Q : Type;             (* the matrices of one quantum projection (InvM, PfM) *)
  kzero : K;
  kadd : K -> K -> K;
  calcM : walker -> Z -> Q -> Q * Z;       (* calculateMAll_child: new matrices, info *)
  term : Z -> Q -> K;                      (* QPFullWeight[q] * PfM[q] *)
  newTerm : Z -> Q -> walker -> move -> K; (* QPFullWeight[q] * pfMNew[q] (CalculateNewPfM2, ...Two2) *)
  updM : Z -> Q -> walker -> move -> Q;    (* UpdateMAll, UpdateMAllTwo *)
  clog : K -> L;
  finite : L -> bool;                      (* isfinite(creal+cimag) *)
  (* w > genrand_real2(), w = exp(2*Re(LogProjRatio + LogRBMRatio + logIpNew - logIpOld)), or -1 if not
     finite; arguments: walker before, walker after (with projCntNew), logIpOld, logIpNew, random word *)
  accept : walker -> walker -> L -> L -> Z -> bool
}.

Section Sampler.
Variable I : input.
Variable Orc : oracles.
Let N := Nsite (T I).
Let Nsize := 2 * Ne I.
Notation rnd := (rnd Orc). Notation fuel := (fuel Orc). Notation garbage := (garbage Orc).
Notation K := (K Orc). Notation L := (L Orc). Notation Q := (Q Orc).
Notation kzero := (kzero Orc). Notation kadd := (kadd Orc). Notation calcM := (calcM Orc).
Notation term := (term Orc). Notation newTerm := (newTerm Orc). Notation updM := (updM Orc).
Notation clog := (clog Orc). Notation finite := (finite Orc). Notation accept := (accept Orc).
(** process of the group *)
Variables (rank size : Z).

Notation prog := (Prog.prog K (event L)).

(** genrand_real2() < 0.5 ? 0 : 1, with genrand_real2() = word / 2^32 (SFMT.h:100-110) *)
Definition coin (w : Z) : Z := if w <? 2 ^ 31 then 0 else 1.

(** vmcmake.c:606-629 getUpdateType: next position in the stream, type *)
Definition get_update_type (p : Z) : Z * updateType :=
  if NExUpdatePath I =? 0 then (p, HOPPING)
  else if NExUpdatePath I =? 1 then (p + 1, if coin (rnd p) =? 0 then EXCHANGE else HOPPING)
  else if NExUpdatePath I =? 2 then
    if iFlgOrbitalGeneral I =? 0 then (p, EXCHANGE)
    else if TwoSz I =? -1 then (p + 1, if coin (rnd p) =? 0 then EXCHANGE else LOCALSPINFLIP)
    else (p, EXCHANGE)
  else if NExUpdatePath I =? 3 then
    if coin (rnd p) =? 0 then (p + 1, HOPPING)
    else (p + 2, if coin (rnd (p + 1)) =? 0 then EXCHANGE else LOCALSPINFLIP)
  else (p, NONE).

(** ** Proposals, Sz conserving version *)
(** vmcmake.c:522-526: do { mi = rand%Ne; s = coin; ri = eleIdx[mi+s*Ne]; } while (LocSpn[ri]==1) *)
Definition pick_hop (w : walker) (p : Z) : prog (Z * option (Z * Z * Z)) :=
  mi <~ umod (rnd p) (Ne I);; let s := coin (rnd (p + 1)) in
  ri <~ get Nsize (eleIdx w) (mi + s * Ne I);;
  l <~ get N (LocSpn I) ri;;
  Ret (p + 2, if l =? 1 then None else Some (mi, s, ri)).
(** the condition "eleCfg[r+s*Nsite] != -1 || LocSpn[r]==1" *)
Definition busy (w : walker) (r s : Z) : prog bool :=
  c <~ get (2 * N) (eleCfg w) (r + s * N);;
  if c =? -1 then l <~ get N (LocSpn I) r;; Ret (l =? 1) else Ret true.
(** vmcmake.c:528-536: at most icnt_max+2 draws, k = icnt_max+1-icnt; result: position, rj, flag *)
Fixpoint hop_target (w : walker) (s : Z) (k : nat) (p : Z) : prog (Z * Z * Z) :=
  rj <~ umod (rnd p) N;;
  match k with
  | O => Ret (p + 1, rj, 1)
  | S k => b <~ busy w rj s;; if b then hop_target w s k (p + 1) else Ret (p + 1, rj, 0)
  end.
(** vmcmake.c:515-545: position, (mi, ri, rj, s), rejectFlag *)
Definition make_candidate_hopping (w : walker) (p : Z) : prog (Z * (Z * Z * Z * Z) * Z) :=
  '(p, (mi, s, ri)) <~ search fuel (pick_hop w) p;;
  '(p, rj, flag) <~ hop_target w s (Z.to_nat (N * N + 1)) p;;
  Ret (p, (mi, ri, rj, s), flag).

(** vmcmake.c:553-559: flag=0 iff some site is singly occupied *)
Fixpoint scan_single (w : walker) (l : list Z) : prog Z :=
  match l with
  | [] => Ret 1
  | ri :: l => a <~ get (2 * N) (eleNum w) ri;; b <~ get (2 * N) (eleNum w) (ri + N);;
               if a + b =? 1 then Ret 0 else scan_single w l
  end.
(** vmcmake.c:565-569 *)
Definition pick_single (w : walker) (p : Z) : prog (Z * option (Z * Z * Z)) :=
  mi <~ umod (rnd p) (Ne I);; let s := coin (rnd (p + 1)) in
  ri <~ get Nsize (eleIdx w) (mi + s * Ne I);;
  c <~ get (2 * N) (eleCfg w) (ri + (1 - s) * N);;
  Ret (p + 2, if c =? -1 then Some (mi, s, ri) else None).
(** vmcmake.c:570-574, t = 1-s *)
Definition pick_partner (w : walker) (t : Z) (p : Z) : prog (Z * option (Z * Z)) :=
  mj <~ umod (rnd p) (Ne I);;
  rj <~ get Nsize (eleIdx w) (mj + t * Ne I);;
  c <~ get (2 * N) (eleCfg w) (rj + (1 - t) * N);;
  Ret (p + 1, if c =? -1 then Some (mj, rj) else None).
(** vmcmake.c:548-582; None = rejected *)
Definition make_candidate_exchange (w : walker) (p : Z) : prog (Z * option (Z * Z * Z * Z)) :=
  flag <~ scan_single w (zrange 0 N);;
  if flag =? 1 then Ret (p, None)
  else
    '(p, (mi, s, ri)) <~ search fuel (pick_single w) p;;
    '(p, (mj, rj)) <~ search fuel (pick_partner w (1 - s)) p;;
    Ret (p, Some (mi, ri, rj, s)).

(** vmcmake.c:585-593 *)
Definition update_ele_config (mi ri rj s : Z) (w : walker) : prog walker :=
  idx <~ put Nsize (eleIdx w) (mi + s * Ne I) rj;;
  cfg <~ put (2 * N) (eleCfg w) (ri + s * N) (-1);;
  cfg <~ put (2 * N) cfg (rj + s * N) mi;;
  num <~ put (2 * N) (eleNum w) (ri + s * N) 0;;
  num <~ put (2 * N) num (rj + s * N) 1;;
  Ret (Walker idx cfg num (eleProjCnt w) (eleSpn w)).
(** vmcmake.c:595-603 *)
Definition revert_ele_config (mi ri rj s : Z) (w : walker) : prog walker :=
  idx <~ put Nsize (eleIdx w) (mi + s * Ne I) ri;;
  cfg <~ put (2 * N) (eleCfg w) (ri + s * N) mi;;
  cfg <~ put (2 * N) cfg (rj + s * N) (-1);;
  num <~ put (2 * N) (eleNum w) (ri + s * N) 1;;
  num <~ put (2 * N) num (rj + s * N) 0;;
  Ret (Walker idx cfg num (eleProjCnt w) (eleSpn w)).

(** ** Proposals, general version (vmcmake_fsz.c) *)
(** vmcmake_fsz.c:602-607 (hopping_fsz) and 638-644 (hopping_csz) *)
Definition pick_hop_fsz (w : walker) (p : Z) : prog (Z * option (Z * Z * Z)) :=
  mi <~ umod (rnd p) Nsize;;
  s <~ get Nsize (eleSpn w) mi;;
  ri <~ get Nsize (eleIdx w) mi;;
  l <~ get N (LocSpn I) ri;;
  Ret (p + 1, if l =? 1 then None else Some (mi, s, ri)).
(** vmcmake_fsz.c:609-618: rj and t are drawn; position, rj, t, flag *)
Fixpoint hop_target_fsz (w : walker) (k : nat) (p : Z) : prog (Z * Z * Z * Z) :=
  rj <~ umod (rnd p) N;;
  let t := coin (rnd (p + 1)) in
  match k with
  | O => Ret (p + 2, rj, t, 1)
  | S k => b <~ busy w rj t;; if b then hop_target_fsz w k (p + 2) else Ret (p + 2, rj, t, 0)
  end.
(** vmcmake_fsz.c:594-627: position, (mi, ri, rj, s, t), rejectFlag *)
Definition make_candidate_hopping_fsz (w : walker) (p : Z) : prog (Z * (Z * Z * Z * Z * Z) * Z) :=
  '(p, (mi, s, ri)) <~ search fuel (pick_hop_fsz w) p;;
  '(p, rj, t, flag) <~ hop_target_fsz w (Z.to_nat (N * N + 1)) p;;
  Ret (p, (mi, ri, rj, s, t), flag).
(** vmcmake_fsz.c:630-664 *)
Definition make_candidate_hopping_csz (w : walker) (p : Z) : prog (Z * (Z * Z * Z * Z * Z) * Z) :=
  '(p, (mi, s, ri)) <~ search fuel (pick_hop_fsz w) p;;
  '(p, rj, flag) <~ hop_target w s (Z.to_nat (N * N + 1)) p;;
  Ret (p, (mi, ri, rj, s, s), flag).
(** vmcmake_fsz.c:685-701 *)
Fixpoint scan_opposite (w : walker) (l : list Z) (spn0 spn1 : Z) : prog Z :=
  match l with
  | [] => Ret 1
  | ri :: l =>
    a <~ get (2 * N) (eleNum w) ri;; b <~ get (2 * N) (eleNum w) (ri + N);;
    if a + b =? 1 then
      let spn1' := if spn0 =? 0 then spn1 else 2 * a - 1 in
      let spn0' := if spn0 =? 0 then 2 * a - 1 else spn0 in
      if spn0' * spn1' <? 0 then Ret 0 else scan_opposite w l spn0' spn1'
    else scan_opposite w l spn0 spn1
  end.
(** vmcmake_fsz.c:708-712 *)
Definition pick_single_fsz (w : walker) (p : Z) : prog (Z * option (Z * Z * Z)) :=
  mi <~ umod (rnd p) Nsize;;
  s <~ get Nsize (eleSpn w) mi;;
  ri <~ get Nsize (eleIdx w) mi;;
  c <~ get (2 * N) (eleCfg w) (ri + (1 - s) * N);;
  Ret (p + 1, if c =? -1 then Some (mi, s, ri) else None).
(** vmcmake_fsz.c:714-717 *)
Definition pick_partner_fsz (w : walker) (t : Z) (p : Z) : prog (Z * option (Z * Z)) :=
  mj <~ umod (rnd p) Nsize;;
  rj <~ get Nsize (eleIdx w) mj;;
  c <~ get (2 * N) (eleCfg w) (rj + (1 - t) * N);;
  if c =? -1 then u <~ get Nsize (eleSpn w) mj;; Ret (p + 1, if u =? t then Some (mj, rj) else None)
  else Ret (p + 1, None).
(** vmcmake_fsz.c:670-725 *)
Definition make_candidate_exchange_fsz (w : walker) (p : Z) : prog (Z * option (Z * Z * Z * Z)) :=
  flag <~ scan_opposite w (zrange 0 N) 0 0;;
  if flag =? 1 then Ret (p, None)
  else
    '(p, (mi, s, ri)) <~ search fuel (pick_single_fsz w) p;;
    '(p, (mj, rj)) <~ search fuel (pick_partner_fsz w (1 - s)) p;;
    Ret (p, Some (mi, ri, rj, s)).
(** vmcmake_fsz.c:734-741 *)
Definition pick_local (w : walker) (p : Z) : prog (Z * option (Z * Z * Z)) :=
  mi <~ umod (rnd p) Nsize;;
  s <~ get Nsize (eleSpn w) mi;;
  ri <~ get Nsize (eleIdx w) mi;;
  l <~ get N (LocSpn I) ri;;
  Ret (p + 1, if l =? 0 then None else Some (mi, s, ri)).
(** vmcmake_fsz.c:728-753 *)
Definition make_candidate_flip_localspin (w : walker) (p : Z) : prog (Z * (Z * Z * Z * Z * Z) * Z) :=
  '(p, (mi, s, ri)) <~ search fuel (pick_local w) p;;
  Ret (p, (mi, ri, ri, s, 1 - s), 0).
(** vmcmake_fsz.c:764-776: position, mi, s, ri, flag *)
Fixpoint flip_target (w : walker) (k : nat) (p : Z) : prog (Z * Z * Z * Z * Z) :=
  mi <~ umod (rnd p) Nsize;;
  s <~ get Nsize (eleSpn w) mi;;
  ri <~ get Nsize (eleIdx w) mi;;
  match k with
  | O => Ret (p + 1, mi, s, ri, 1)
  | S k =>
    l <~ get N (LocSpn I) ri;;
    b <~ (if l =? 1 then Ret true
          else c <~ get (2 * N) (eleCfg w) (ri + (1 - s) * N);; Ret (negb (c =? -1)));;
    if b then flip_target w k (p + 1) else Ret (p + 1, mi, s, ri, 0)
  end.
(** vmcmake_fsz.c:756-788 *)
Definition make_candidate_flip_conduction (w : walker) (p : Z) : prog (Z * (Z * Z * Z * Z * Z) * Z) :=
  '(p, mi, s, ri, flag) <~ flip_target w (Z.to_nat (N * N + 1)) p;;
  Ret (p, (mi, ri, ri, s, 1 - s), flag).
(** vmcmake_fsz.c:795-806 *)
Definition update_ele_config_fsz (mi ri rj s t : Z) (w : walker) : prog walker :=
  idx <~ put Nsize (eleIdx w) mi rj;;
  spn <~ put Nsize (eleSpn w) mi t;;
  cfg <~ put (2 * N) (eleCfg w) (ri + s * N) (-1);;
  cfg <~ put (2 * N) cfg (rj + t * N) mi;;
  num <~ put (2 * N) (eleNum w) (ri + s * N) 0;;
  num <~ put (2 * N) num (rj + t * N) 1;;
  Ret (Walker idx cfg num (eleProjCnt w) spn).
(** vmcmake_fsz.c:808-819 *)
Definition revert_ele_config_fsz (mi ri rj s t : Z) (w : walker) : prog walker :=
  idx <~ put Nsize (eleIdx w) mi ri;;
  spn <~ put Nsize (eleSpn w) mi s;;
  cfg <~ put (2 * N) (eleCfg w) (ri + s * N) mi;;
  cfg <~ put (2 * N) cfg (rj + t * N) (-1);;
  num <~ put (2 * N) (eleNum w) (ri + s * N) 1;;
  num <~ put (2 * N) num (rj + t * N) 0;;
  Ret (Walker idx cfg num (eleProjCnt w) spn).

(** ** Numerical state of one process *)
Definition qpStart : Z := fst (split_loop (NQPFull I) rank size).
Definition qpEnd : Z := snd (split_loop (NQPFull I) rank size).
(** matrix.c:285-330 CalculateMAll_fcmp (38-98 for fsz): after the first failure the remaining projections
    are skipped.  The omp loop is modelled in order. *)
Definition calc_all (w : walker) (qs : Z -> Q) : (Z -> Q) * Z :=
  loop qpStart qpEnd (fun q (st : (Z -> Q) * Z) =>
    if snd st =? 0 then let r := calcM w q (fst st q) in (upd (fst st) q (fst r), snd r) else st) (qs, 0).
Definition ksum (l : list Z) (f : Z -> K) : K := fold_right (fun q a => kadd (f q) a) kzero l.
(** qp.c:90-107 CalculateLogIP_fcmp *)
Definition calc_log_ip (f : Z -> K) : prog L :=
  let ip := ksum (zrange qpStart qpEnd) f in
  if 1 <? size then Sum ip (fun ip2 => Ret (clog ip2)) else Ret (clog ip).

(** state of the sampler: position in the random stream, walker, matrices, logIpOld, nAccept *)
Record st := St { pos : Z; wk : walker; qs : Z -> Q; logIpOld : L; nAccept : Z }.
Definition set_cnt (w : walker) (c : Z -> Z) : walker :=
  Walker (eleIdx w) (eleCfg w) (eleNum w) c (eleSpn w).
(** for(i=0;i<NProj;i++) TmpEleProjCnt[i] = projCntNew[i]; *)
Definition copy_proj (dst src : Z -> Z) : prog (Z -> Z) := ofOpt (copy_cnt (T I) false dst src).

(** The Metropolis step common to all moves (vmcmake.c:178-222, 264-305 and vmcmake_fsz.c): [w0] walker
    before, [w1] after the tables were updated, [cnt] = projCntNew, [revert] the reject branch. *)
Definition metropolis (s : st) (w0 w1 : walker) (cnt : Z -> Z) (m : move) (p : Z)
    (revert : walker -> prog walker) : prog st :=
  logIpNew <~ calc_log_ip (fun q => newTerm q (qs s q) w1 m);;
  if accept w0 (set_cnt w1 cnt) (logIpOld s) logIpNew (rnd p) then
    let qs' := fun q => if (qpStart <=? q) && (q <? qpEnd) then updM q (qs s q) w1 m else qs s q in
    c <~ copy_proj (eleProjCnt w1) cnt;;
    Ret (St (p + 1) (set_cnt w1 c) qs' logIpNew (nAccept s + 1))
  else
    w <~ revert w1;;
    Ret (St (p + 1) w (qs s) (logIpOld s) (nAccept s)).

(** vmcmake.c:309-332: recalculation after more than Nsite accepted moves *)
Definition recalc (s : st) : prog st :=
  if N <? nAccept s then
    Emit (Recalc (wk s))
      (let qs' := fst (calc_all (wk s) (qs s)) in
       l <~ calc_log_ip (fun q => term q (qs' q));;
       Ret (St (pos s) (wk s) qs' l 0))
  else Ret s.

(** vmcmake.c:151-222 *)
Definition hopping_step (s : st) (p : Z) : prog st :=
  '(p, (mi, ri, rj, sp), flag) <~ make_candidate_hopping (wk s) p;;
  if flag =? 1 then Ret (St p (wk s) (qs s) (logIpOld s) (nAccept s))
  else
    w1 <~ update_ele_config mi ri rj sp (wk s);;
    cnt <~ ofOpt (update_proj_cnt (T I) ri rj sp false garbage (eleProjCnt w1) (eleNum w1));;
    s' <~ metropolis s (wk s) w1 cnt (OneMove mi ri rj sp sp) p (revert_ele_config mi ri rj sp);;
    recalc s'.
(** vmcmake.c:223-307 *)
Definition exchange_step (s : st) (p : Z) : prog st :=
  '(p, r) <~ make_candidate_exchange (wk s) p;;
  match r with
  | None => Ret (St p (wk s) (qs s) (logIpOld s) (nAccept s))
  | Some (mi, ri, rj, sp) =>
    let t := 1 - sp in
    mj <~ get (2 * N) (eleCfg (wk s)) (rj + t * N);;
    w1 <~ update_ele_config mi ri rj sp (wk s);;
    cnt <~ ofOpt (update_proj_cnt (T I) ri rj sp false garbage (eleProjCnt w1) (eleNum w1));;
    w2 <~ update_ele_config mj rj ri t w1;;
    cnt <~ ofOpt (update_proj_cnt (T I) rj ri t true cnt cnt (eleNum w2));;
    s' <~ metropolis s (wk s) w2 cnt (TwoMove mi sp mj t ri rj) p
            (fun w => w <~ revert_ele_config mj rj ri t w;; revert_ele_config mi ri rj sp w);;
    recalc s'
  end.
(** vmcmake.c:147-333, one inner step.  Other update types do nothing. *)
Definition inner_step (s : st) : prog st :=
  let (p, ut) := get_update_type (pos s) in
  s' <~ match ut with
        | HOPPING => hopping_step s p
        | EXCHANGE => exchange_step s p
        | _ => recalc (St p (wk s) (qs s) (logIpOld s) (nAccept s))
        end;;
  Emit (AtStep (wk s')) (Ret s').

(** vmcmake_fsz.c:182-240 (hopping) and 320-378 (local spin flip): update, counters, Metropolis.
    UpdateProjCnt is called when s = t, else UpdateProjCnt_fsz; the local-spin branch always calls
    UpdateProjCnt_fsz. *)
Definition one_move_fsz (always_fsz : bool) (s : st) (r : Z * (Z * Z * Z * Z * Z) * Z) : prog st :=
  let '(p, (mi, ri, rj, sp, t), flag) := r in
  if flag =? 1 then Ret (St p (wk s) (qs s) (logIpOld s) (nAccept s))
  else
    w1 <~ update_ele_config_fsz mi ri rj sp t (wk s);;
    cnt <~ ofOpt (if negb always_fsz && (sp =? t)
                  then update_proj_cnt (T I) ri rj sp false garbage (eleProjCnt w1) (eleNum w1)
                  else update_proj_cnt_fsz (T I) ri rj sp t false garbage (eleProjCnt w1) (eleNum w1));;
    s' <~ metropolis s (wk s) w1 cnt (OneMove mi ri rj sp t) p (revert_ele_config_fsz mi ri rj sp t);;
    recalc s'.
(** vmcmake_fsz.c:159-182 *)
Definition hopping_step_fsz (s : st) (p : Z) : prog st :=
  if TwoSz I =? -1 then
    if coin (rnd p) =? 0 then r <~ make_candidate_hopping_fsz (wk s) (p + 1);; one_move_fsz false s r
    else r <~ make_candidate_flip_conduction (wk s) (p + 1);; one_move_fsz false s r
  else r <~ make_candidate_hopping_csz (wk s) p;; one_move_fsz false s r.
(** vmcmake_fsz.c:312-378 *)
Definition flip_step_fsz (s : st) (p : Z) : prog st :=
  r <~ make_candidate_flip_localspin (wk s) p;; one_move_fsz true s r.
(** vmcmake_fsz.c:241-312 *)
Definition exchange_step_fsz (s : st) (p : Z) : prog st :=
  '(p, r) <~ make_candidate_exchange_fsz (wk s) p;;
  match r with
  | None => Ret (St p (wk s) (qs s) (logIpOld s) (nAccept s))
  | Some (mi, ri, rj, sp) =>
    let t := 1 - sp in
    mj <~ get (2 * N) (eleCfg (wk s)) (rj + t * N);;
    w1 <~ update_ele_config_fsz mi ri rj sp sp (wk s);;
    cnt <~ ofOpt (update_proj_cnt (T I) ri rj sp false garbage (eleProjCnt w1) (eleNum w1));;
    w2 <~ update_ele_config_fsz mj rj ri t t w1;;
    cnt <~ ofOpt (update_proj_cnt (T I) rj ri t true cnt cnt (eleNum w2));;
    s' <~ metropolis s (wk s) w2 cnt (TwoMove mi sp mj t ri rj) p
            (fun w => w <~ revert_ele_config_fsz mj rj ri t t w;; revert_ele_config_fsz mi ri rj sp sp w);;
    recalc s'
  end.
(** vmcmake_fsz.c:157-400, one inner step *)
Definition inner_step_fsz (s : st) : prog st :=
  let (p, ut) := get_update_type (pos s) in
  s' <~ match ut with
        | HOPPING => hopping_step_fsz s p
        | EXCHANGE => exchange_step_fsz s p
        | LOCALSPINFLIP => flip_step_fsz s p
        | NONE => recalc (St p (wk s) (qs s) (logIpOld s) (nAccept s))
        end;;
  Emit (AtStep (wk s')) (Ret s').

(** ** Initial sample *)
(** for(i=0;i<n;i++) a[i] = v; *)
Definition fill (n v : Z) (a : Z -> Z) : prog (Z -> Z) := forM (zrange 0 n) (fun i a => put n a i v) a.
(** eleNum[rsi] = (eleCfg[rsi] < 0) ? 0 : 1 *)
Definition fill_num (cfg : Z -> Z) (num : Z -> Z) : prog (Z -> Z) :=
  forM (zrange 0 (2 * N)) (fun rsi num =>
    c <~ get (2 * N) cfg rsi;; put (2 * N) num rsi (if c <? 0 then 0 else 1)) num.
(** state of the filling loops: position, eleIdx, eleCfg *)
Definition fill_st : Type := Z * (Z -> Z) * (Z -> Z).
(** vmcmake.c:379-382 *)
Definition pick_free (idx : Z -> Z) (p : Z) : prog (Z * option (Z * Z)) :=
  mi <~ umod (rnd p) (Ne I);; let si := coin (rnd (p + 1)) in
  c <~ get Nsize idx (mi + si * Ne I);;
  Ret (p + 2, if c =? -1 then Some (mi, si) else None).
(** vmcmake.c:376-387 *)
Definition place_local (ri : Z) (f : fill_st) : prog fill_st :=
  let '(p, idx, cfg) := f in
  l <~ get N (LocSpn I) ri;;
  if l =? 1 then
    '(p, (mi, si)) <~ search fuel (pick_free idx) p;;
    cfg <~ put (2 * N) cfg (ri + si * N) mi;;
    idx <~ put Nsize idx (mi + si * Ne I) ri;;
    Ret (p, idx, cfg)
  else Ret (p, idx, cfg).
(** vmcmake.c:393-395 *)
Definition pick_site (cfg : Z -> Z) (si : Z) (p : Z) : prog (Z * option Z) :=
  ri <~ umod (rnd p) N;;
  b <~ (c <~ get (2 * N) cfg (ri + si * N);;
        if c =? -1 then l <~ get N (LocSpn I) ri;; Ret (l =? 1) else Ret true);;
  Ret (p + 1, if (b : bool) then None else Some ri).
(** vmcmake.c:390-401 *)
Definition place_itinerant (si mi : Z) (f : fill_st) : prog fill_st :=
  let '(p, idx, cfg) := f in
  c <~ get Nsize idx (mi + si * Ne I);;
  if c =? -1 then
    '(p, ri) <~ search fuel (pick_site cfg si) p;;
    cfg <~ put (2 * N) cfg (ri + si * N) mi;;
    idx <~ put Nsize idx (mi + si * Ne I) ri;;
    Ret (p, idx, cfg)
  else Ret (p, idx, cfg).
(** vmcmake.c:369-410, one attempt *)
Definition initial_tables (w : walker) (p : Z) : prog (Z * walker) :=
  idx <~ fill Nsize (-1) (eleIdx w);;
  cfg <~ fill (2 * N) (-1) (eleCfg w);;
  f <~ forM (zrange 0 N) place_local (p, idx, cfg);;
  '(p, idx, cfg) <~ forM (zrange 0 2) (fun si f => forM (zrange 0 (Ne I)) (place_itinerant si) f) f;;
  num <~ fill_num cfg (eleNum w);;
  cnt <~ ofOpt (make_proj_cnt (T I) (eleProjCnt w) num);;
  Ret (p, Walker idx cfg num cnt (eleSpn w)).

(** vmcmake_fsz.c:455-467: TwoSz/2 truncates *)
Definition initial_spin (spn : Z -> Z) : prog (Z -> Z) :=
  spn <~ fill Nsize (-1) spn;;
  let tmp_TwoSz := if TwoSz I =? -1 then 0 else Z.quot (TwoSz I) 2 in
  forM (zrange 0 Nsize) (fun x spn => put Nsize spn x (if x <? Ne I + tmp_TwoSz then 0 else 1)) spn.
(** vmcmake_fsz.c:471-475 *)
Definition pick_free_fsz (spn idx : Z -> Z) (p : Z) : prog (Z * option (Z * Z)) :=
  x <~ umod (rnd p) Nsize;;
  si <~ get Nsize spn x;;
  c <~ get Nsize idx x;;
  Ret (p + 1, if c =? -1 then Some (x, si) else None).
(** vmcmake_fsz.c:469-480 *)
Definition place_local_fsz (spn : Z -> Z) (ri : Z) (f : fill_st) : prog fill_st :=
  let '(p, idx, cfg) := f in
  l <~ get N (LocSpn I) ri;;
  if l =? 1 then
    '(p, (x, si)) <~ search fuel (pick_free_fsz spn idx) p;;
    cfg <~ put (2 * N) cfg (ri + si * N) x;;
    idx <~ put Nsize idx x ri;;
    Ret (p, idx, cfg)
  else Ret (p, idx, cfg).
(** vmcmake_fsz.c:482-492 *)
Definition place_itinerant_fsz (spn : Z -> Z) (x : Z) (f : fill_st) : prog fill_st :=
  let '(p, idx, cfg) := f in
  si <~ get Nsize spn x;;
  c <~ get Nsize idx x;;
  if c =? -1 then
    '(p, ri) <~ search fuel (pick_site cfg si) p;;
    cfg <~ put (2 * N) cfg (ri + si * N) x;;
    idx <~ put Nsize idx x ri;;
    Ret (p, idx, cfg)
  else Ret (p, idx, cfg).
(** vmcmake_fsz.c:446-502, one attempt *)
Definition initial_tables_fsz (w : walker) (p : Z) : prog (Z * walker) :=
  idx <~ fill Nsize (-1) (eleIdx w);;
  spn <~ initial_spin (eleSpn w);;
  cfg <~ fill (2 * N) (-1) (eleCfg w);;
  f <~ forM (zrange 0 N) (place_local_fsz spn) (p, idx, cfg);;
  '(p, idx, cfg) <~ forM (zrange 0 Nsize) (place_itinerant_fsz spn) f;;
  num <~ fill_num cfg (eleNum w);;
  cnt <~ ofOpt (make_proj_cnt (T I) (eleProjCnt w) num);;
  Ret (p, Walker idx cfg num cnt spn).

Section Generic.
(** the Sz-conserving and the general sampler have the same outer structure *)
Variable initial : walker -> Z -> prog (Z * walker).
Variable step : st -> prog st.
(** vmcmake.c:412-424 / vmcmake_fsz.c:504-515: do { ... } while (flag>0), abort when loop > 100;
    n = 100 - loop before the attempt *)
Fixpoint make_initial_sample (n : nat) (w : walker) (qs : Z -> Q) (p : Z) : prog (Z * walker * (Z -> Q)) :=
  '(p, w) <~ initial w p;;
  let r := calc_all w qs in
  flag <~ (if 1 <? size then Max (snd r) (fun flagRdc => Ret flagRdc) else Ret (snd r));;
  match n with
  | O => Stop Abort
  | S n => if 0 <? flag then make_initial_sample n w (fst r) p else Ret (p, w, fst r)
  end.

(** vmcmake.c:156-339: the inner loop and the sample saved at the end of an outer step *)
Definition outer_step (nOutStep : Z) (outStep : Z) (s : st) : prog st :=
  s <~ forM (zrange 0 (NVMCInterval I * N)) (fun _ s => step s) s;;
  if nOutStep - NVMCSample I <=? outStep
  then Emit (Save (outStep - (nOutStep - NVMCSample I)) (wk s) (logIpOld s)) (Ret s)
  else Ret s.

(** vmcmake.c:44-356 VMCMakeSample / vmcmake_fsz.c:42-432.  [burn]: BurnFlag and the walker kept by
    copyToBurnSample; [w] previous content of the Tmp arrays.  Result: position in the random stream, the
    walker copied to the burn buffer (BurnFlag becomes 1), matrices. *)
Definition make_sample (burn : option walker) (w : walker) (qs0 : Z -> Q) (p : Z) : prog (Z * walker * (Z -> Q)) :=
  '(p, w, qs0) <~ match burn with
                  | None => make_initial_sample 100 w qs0 p
                  | Some b => Ret (p, b, qs0)
                  end;;
  '(s, burnflag) <~
    Emit (Recalc w)
      (let qs1 := fst (calc_all w qs0) in
       l <~ calc_log_ip (fun q => term q (qs1 q));;
       if finite l then Ret (St p w qs1 l 0, match burn with None => 0 | Some _ => 1 end)
       else
         '(p, w, qs2) <~ make_initial_sample 100 w qs1 p;;
         Emit (Recalc w)
           (let qs3 := fst (calc_all w qs2) in
            l <~ calc_log_ip (fun q => term q (qs3 q));;
            Ret (St p w qs3 l 0, 0)));;
  let nOutStep := if burnflag =? 0 then NVMCWarmUp I + NVMCSample I else NVMCSample I + 1 in
  s <~ forM (zrange 0 nOutStep) (outer_step nOutStep) s;;
  Ret (pos s, wk s, qs s).
End Generic.

Definition vmc_make_sample := make_sample initial_tables inner_step.
Definition vmc_make_sample_fsz := make_sample initial_tables_fsz inner_step_fsz.
End Sampler.
