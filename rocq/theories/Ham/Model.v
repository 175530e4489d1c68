(** Local energy (calham.c) and the local values of H times operators used by the Lanczos step (lslocgrn.c).
    Arrays are functions; accesses to the configuration tables are checked (None = outside the array).  Sums over threads are
    taken in the order of the thread numbers; real and complex numbers are exact.  Timers are left out. *)
From Coq Require Import ZArith List Bool Reals.
From Coquelicot Require Import Complex.
From Verif Require Import Base.ZLoop Base.Checked Base.RSum Proj.Model Pf.Model Slater.Model Rbm.Model Green.Model.
Import ListNotations.
Local Open Scope Z_scope.

(** global.h:90-121, the Hamiltonian as read from the definition files *)
Record terms := Terms {
  NIntra : Z; Intra : Z -> Z; ParaIntra : Z -> R;
  NInter : Z; Inter : Z -> Z -> Z; ParaInter : Z -> R;
  NHund : Z; Hund : Z -> Z -> Z; ParaHund : Z -> R;
  NTransfer : Z; Transfer : Z -> Z -> Z; ParaTransfer : Z -> C;
  NPair : Z; Pair : Z -> Z -> Z; ParaPair : Z -> R;
  NExchange : Z; Exchange : Z -> Z -> Z; ParaExchange : Z -> R;
  NInterAll : Z; InterAll : Z -> Z -> Z; ParaInterAll : Z -> C
}.
(** One execution of a parallel region: the number of threads, the iterations of loop l that thread t runs, in order
    (schedule static or dynamic), and what the work space of each thread contains before. *)
Record sched := Sched { threads : Z; plan : Z -> Z -> list Z; space : Z -> work }.
(** the iterations of one thread *)
Definition runs {S : Type} (l : list Z) (f : Z -> S -> option S) (s : S) : option S := fold_left (fun o i => bind o (f i)) l (Some s).

Section Ham.
Variable G : env.
Variable H : terms.
Let N := gNsite G.
Let n2 := 2 * gNsite G.
Let nsize := 2 * gNe G.

Section Region.
Variables (ip : C) (eleCfg eleNum : Z -> Z) (cnt : Z -> Z) (rcnt : Z -> C).
(** state of a thread: its work space and myEnergy *)
Definition tstate : Type := work * C.
Definition add_real (st : tstate) (v : R) : option tstate := Some (fst st, Cplus (snd st) (RtoC v)).
(** calham.c:109-113 *)
Definition it_intra (idx : Z) (st : tstate) : option tstate :=
  let ri := Intra H idx in
  a <- rd n2 eleNum ri;; b <- rd n2 eleNum (ri + N);;
  add_real st (ParaIntra H idx * IZR a * IZR b)%R.
(** calham.c:115-121 *)
Definition it_inter (idx : Z) (st : tstate) : option tstate :=
  let ri := Inter H idx 0 in let rj := Inter H idx 1 in
  a <- rd n2 eleNum ri;; b <- rd n2 eleNum (ri + N);; c <- rd n2 eleNum rj;; d <- rd n2 eleNum (rj + N);;
  add_real st (ParaInter H idx * IZR (a + b) * IZR (c + d))%R.
(** calham.c:123-130 *)
Definition it_hund (idx : Z) (st : tstate) : option tstate :=
  let ri := Hund H idx 0 in let rj := Hund H idx 1 in
  a <- rd n2 eleNum ri;; b <- rd n2 eleNum (ri + N);; c <- rd n2 eleNum rj;; d <- rd n2 eleNum (rj + N);;
  add_real st (- (ParaHund H idx * IZR (a * c + b * d)))%R.
(** myEnergy += p * g *)
Definition add_green (st : tstate) (p : C) (g : option (C * work)) : option tstate :=
  r <- g;; Some (snd r, Cplus (snd st) (Cmult p (fst r))).
(** calham.c:135-145 *)
Definition it_transfer (idx : Z) (st : tstate) : option tstate :=
  let ri := Transfer H idx 0 in let rj := Transfer H idx 2 in let s := Transfer H idx 3 in
  add_green st (Copp (ParaTransfer H idx)) (green1 G ri rj s ip eleCfg cnt rcnt (fst st)).
(** calham.c:150-158 *)
Definition it_pair (idx : Z) (st : tstate) : option tstate :=
  let ri := Pair H idx 0 in let rj := Pair H idx 1 in
  add_green st (RtoC (ParaPair H idx)) (green2 G ri rj ri rj 0 1 ip eleCfg cnt rcnt (fst st)).
(** calham.c:160-169 *)
Definition it_exchange (idx : Z) (st : tstate) : option tstate :=
  let ri := Exchange H idx 0 in let rj := Exchange H idx 1 in
  add_green st (RtoC (ParaExchange H idx))
    (r <- green2 G ri rj rj ri 0 1 ip eleCfg cnt rcnt (fst st);;
     r' <- green2 G ri rj rj ri 1 0 ip eleCfg cnt rcnt (snd r);;
     Some (Cplus (fst r) (fst r'), snd r')).
(** calham.c:171-183 *)
Definition it_interall (idx : Z) (st : tstate) : option tstate :=
  let ri := InterAll H idx 0 in let rj := InterAll H idx 2 in let s := InterAll H idx 3 in
  let rk := InterAll H idx 4 in let rl := InterAll H idx 6 in let t := InterAll H idx 7 in
  add_green st (ParaInterAll H idx) (green2 G ri rj rk rl s t ip eleCfg cnt rcnt (fst st)).

(** e += the value of each thread; thread t starts with state (space t, 0) *)
Definition region (P : sched) (start : work -> work) (body : Z -> tstate -> option tstate) : option C :=
  runs (zrange 0 (threads P)) (fun t e => st <- body t (start (space P t), RtoC 0);; Some (Cplus e (snd st))) (RtoC 0).
(** calham.c:97-100 *)
Definition copy_tables (eleIdx : Z -> Z) (w : work) : work :=
  Work (loop 0 nsize (fun i a => upd a i (eleIdx i)) (Green.Model.eleIdx w)) (loop 0 n2 (fun i a => upd a i (eleNum i)) (Green.Model.eleNum w))
    (projNew w) (rbmNew w) (pfBuf w).
(** calham.c:61-193 CalculateHamiltonian *)
Definition calculate_hamiltonian (P : sched) (eleIdx : Z -> Z) : option C :=
  region P (copy_tables eleIdx) (fun t st =>
    st <- runs (plan P 0 t) it_intra st;;
    st <- runs (plan P 1 t) it_inter st;;
    st <- runs (plan P 2 t) it_hund st;;
    st <- runs (plan P 3 t) it_transfer st;;
    st <- runs (plan P 4 t) it_pair st;;
    st <- runs (plan P 5 t) it_exchange st;;
    runs (plan P 6 t) it_interall st).
(** calham.c:198-238 CalculateHamiltonian0 *)
Definition calculate_hamiltonian0 (P : sched) : option C :=
  region P (fun w => w) (fun t st =>
    st <- runs (plan P 0 t) it_intra st;;
    st <- runs (plan P 1 t) it_inter st;;
    runs (plan P 2 t) it_hund st).
(** calham.c:37-59 CalculateDoubleOccupation *)
Definition double_occupation (P : sched) : option R :=
  runs (zrange 0 (threads P)) (fun t db =>
    v <- runs (plan P 0 t) (fun ri v => a <- rd n2 eleNum ri;; b <- rd n2 eleNum (ri + N);; Some (v + IZR (a * b))%R) 0%R;;
    Some (db + v)%R) 0%R.
End Region.
End Ham.

(** ** lslocgrn.c *)
(** The shared tables it changes and restores: configuration, inverses, Pfaffians. *)
Record shared := Shared { hIdx : Z -> Z; hCfg : Z -> Z; hNum : Z -> Z; hInv : Z -> C; hPf : Z -> C }.
Definition with_mats (G : env) (inv pf : Z -> C) : env :=
  Env (gNsite G) (gNe G) (gNQPFull G) (gT G) (gProj G) (gFlagRBM G) (gM G) (gRBM G) (gclog G) (gNB G) (gThreads G) (gjunk G) (gA G) (gSl G) inv pf.

Section Lanczos.
Variable G0 : env.             (* its inverses and Pfaffians are not used *)
Variable H : terms.
Let N := gNsite G0.
Let n2 := 2 * gNsite G0.
Let Ne := gNe G0.
(** calculateNewPfMN_child, see Green/Model.v *)
Variable kernel : Z -> Z -> (Z -> Z) -> (Z -> Z) -> (Z -> Z) -> C.
(** the work space that the calling thread passes to the Green functions *)
Variable own : work.
Definition genv (sh : shared) : env := with_mats G0 (hInv sh) (hPf sh).
(** 1.0e-12 *)
Definition tiny : R := (/ 10 ^ 12)%R.

(** electron m leaves spin-orbital rsOld for rsNew on site rNew; with or without the table of electrons on sites *)
Definition hop_tables (full : bool) (m mlab rNew rsOld rsNew : Z) (sh : shared) : option shared :=
  x <- wr (2 * Ne) (hIdx sh) mlab rNew;;
  cf <- (if full then cf <- wr n2 (hCfg sh) rsOld (-1);; wr n2 cf rsNew m else Some (hCfg sh));;
  e <- wr n2 (hNum sh) rsOld 0;;
  e <- wr n2 e rsNew 1;;
  Some (Shared x cf e (hInv sh) (hPf sh)).

(** lslocgrn.c:206-231 checkGF1 *)
Definition check_gf1 (ri rj s : Z) (ip : C) (sh : shared) : option (C * shared) :=
  let rsi := ri + s * N in let rsj := rj + s * N in
  mj <- rd n2 (hCfg sh) rsj;;
  let msj := mj + s * Ne in
  sh1 <- hop_tables false mj msj ri rsj rsi sh;;
  let pf := calculate_new_pfm N Ne (2 * Ne) (gSl G0) mj s (hIdx sh1) 0 (gNQPFull G0) (hInv sh1) (hPf sh1) (pfBuf own) in
  let z := calculate_ip (gA G0) 0 (gNQPFull G0) pf in
  sh2 <- hop_tables false mj msj rj rsi rsj sh1;;
  Some (Cdiv z ip, sh2).

Variables (cnt : Z -> Z) (rcnt : Z -> C).
(** the ratio of correlation and machine factors *)
Definition factor (p : Z -> Z) (r : Z -> C) : C :=
  let z := RtoC (proj_ratio G0 p cnt) in
  if gFlagRBM G0 then Cmult z (rbm_ratio (gM G0) (gclog G0) (gRBM G0) (gNB G0) (gThreads G0) (gjunk G0) r rcnt) else z.

(** lslocgrn.c:234-299 calHCA1 *)
Definition cal_hca1 (P : sched) (ri rj s : Z) (ip : C) (sh : shared) : option (C * shared) :=
  let rsi := ri + s * N in let rsj := rj + s * N in
  mj <- rd n2 (hCfg sh) rsj;;
  let msj := mj + s * Ne in
  sh1 <- hop_tables true mj msj ri rsj rsi sh;;
  p <- update_proj_cnt (gT G0) rj ri s false (projNew own) cnt (hNum sh1);;
  r <- (if gFlagRBM G0 then update_rbm_cnt (gM G0) (gRBM G0) rj ri s false (rbmNew own) rcnt (hNum sh1) else Some (rbmNew own));;
  let z := factor p r in
  let st := update_mall N Ne (2 * Ne) (gSl G0) mj s (hIdx sh1) 0 (gNQPFull G0) (hInv sh1, hPf sh1) in
  let ipNew := calculate_ip (gA G0) 0 (gNQPFull G0) (snd st) in
  e <- calculate_hamiltonian (with_mats G0 (fst st) (snd st)) H ipNew (hCfg sh1) (hNum sh1) p r P (hIdx sh1);;
  sh2 <- hop_tables true mj msj rj rsi rsj sh1;;
  Some (Cmult e (Cconj (Cdiv (Cmult z ipNew) ip)), sh2).

(** one thread's share of the terms 3..6 applied before further operators [tail] (annihilators and creators as spin-orbitals);
    n = number of operators in the tail *)
Section Terms.
Variables (G : env) (ip : C) (eleCfg : Z -> Z) (n : Z) (ta tb : Z -> Z).
Definition strings (m : Z) (a b : Z -> Z) : (Z -> Z) * (Z -> Z) := ((fun k => if k <? m then a k else ta (k - m)), (fun k => if k <? m then b k else tb (k - m))).
Definition call_n (m : Z) (a b : Z -> Z) (w : work) : option (C * work) :=
  let ab := strings m a b in green_n G kernel 4 (m + n) (fst ab) (snd ab) ip eleCfg cnt rcnt w.
Definition two (u v : Z) (k : Z) : Z := if k =? 0 then u else v.
(** lslocgrn.c:709-721 (calHCA2, lslocgrn.c:382-391, calls GreenFunc2 here, see below) *)
Definition n_transfer (idx : Z) (st : tstate) : option tstate :=
  add_green st (Copp (ParaTransfer H idx))
    (call_n 1 (fun _ => Transfer H idx 0 + Transfer H idx 1 * N) (fun _ => Transfer H idx 2 + Transfer H idx 3 * N) (fst st)).
(** lslocgrn.c:393-407, 723-739 *)
Definition n_pair (idx : Z) (st : tstate) : option tstate :=
  let r0 := Pair H idx 0 in let r1 := Pair H idx 1 in
  add_green st (RtoC (ParaPair H idx)) (call_n 2 (two r0 (r0 + N)) (two r1 (r1 + N)) (fst st)).
(** lslocgrn.c:409-432, 741-768 *)
Definition n_exchange (idx : Z) (st : tstate) : option tstate :=
  let r0 := Exchange H idx 0 in let r1 := Exchange H idx 1 in
  st <- add_green st (RtoC (ParaExchange H idx)) (call_n 2 (two r0 (r1 + N)) (two r1 (r0 + N)) (fst st));;
  add_green st (RtoC (ParaExchange H idx)) (call_n 2 (two (r0 + N) r1) (two (r1 + N) r0) (fst st)).
(** lslocgrn.c:434-445, 770-783 *)
Definition n_interall (idx : Z) (st : tstate) : option tstate :=
  let c := InterAll H idx in
  add_green st (ParaInterAll H idx) (call_n 2 (two (c 0 + c 3 * N) (c 4 + c 7 * N)) (two (c 2 + c 3 * N) (c 6 + c 7 * N)) (fst st)).
End Terms.

(** lslocgrn.c:301-447 calHCA2 *)
Definition cal_hca2 (P : sched) (ri rj s : Z) (ip : C) (sh : shared) : option (C * shared) :=
  let rsi := ri + s * N in let rsj := rj + s * N in
  g <- green1 (genv sh) ri rj s ip (hCfg sh) cnt rcnt (Work (hIdx sh) (hNum sh) (projNew own) (rbmNew own) (pfBuf own));;
  let idx := Green.Model.eleIdx (snd g) in
  e <- wr n2 (Green.Model.eleNum (snd g)) rsi 1;; e <- wr n2 e rsj 0;;
  h0 <- calculate_hamiltonian0 (genv sh) H e P;;
  let val := Cmult (fst g) h0 in
  e <- wr n2 e rsi 0;; e <- wr n2 e rsj 1;;
  let G := genv sh in
  let ta := fun _ : Z => rsi in let tb := fun _ : Z => rsj in
  v <- region P (copy_tables G e idx) (fun t st =>
    st <- runs (plan P 3 t) (fun k st => let rk := Transfer H k 0 in let rl := Transfer H k 2 in let sk := Transfer H k 3 in
            add_green st (Copp (ParaTransfer H k)) (green2 G rk rl ri rj sk s ip (hCfg sh) cnt rcnt (fst st))) st;;
    st <- runs (plan P 4 t) (n_pair G ip (hCfg sh) 1 ta tb) st;;
    st <- runs (plan P 5 t) (n_exchange G ip (hCfg sh) 1 ta tb) st;;
    runs (plan P 6 t) (n_interall G ip (hCfg sh) 1 ta tb) st);;
  Some (Cplus val v, Shared idx (hCfg sh) e (hInv sh) (hPf sh)).

(** lslocgrn.c:178-204 calHCA; h1 is the local energy *)
Definition cal_hca (P : sched) (ri rj s : Z) (h1 ip : C) (sh : shared) : option (C * shared) :=
  let rsi := ri + s * N in let rsj := rj + s * N in
  ni <- rd n2 (hNum sh) rsi;; nj <- rd n2 (hNum sh) rsj;;
  if rsi =? rsj then Some (if ni =? 1 then h1 else RtoC 0, sh)
  else if nj =? 0 then Some (RtoC 0, sh)
  else if ni =? 1 then Some (RtoC 0, sh)
  else
    g <- check_gf1 ri rj s ip sh;;
    if Rlt_dec tiny (Cmod (fst g)) then cal_hca1 P ri rj s ip (snd g) else cal_hca2 P ri rj s ip (snd g).

(** lslocgrn.c:499-545 checkGF2 *)
Definition check_gf2 (ri rj rk rl s t : Z) (ip : C) (sh : shared) : option (C * shared) :=
  let rsi := ri + s * N in let rsj := rj + s * N in let rtk := rk + t * N in let rtl := rl + t * N in
  mj <- rd n2 (hCfg sh) rsj;; ml <- rd n2 (hCfg sh) rtl;;
  let msj := mj + s * Ne in let mtl := ml + t * Ne in
  sh1 <- hop_tables false ml mtl rk rtl rtk sh;;
  sh2 <- hop_tables false mj msj ri rsj rsi sh1;;
  let pf := calculate_new_pfm_two N Ne (2 * Ne) (gSl G0) ml t mj s (hIdx sh2) 0 (gNQPFull G0) (hInv sh2) (hPf sh2) (pfBuf own) in
  let z := calculate_ip (gA G0) 0 (gNQPFull G0) pf in
  sh3 <- hop_tables false ml mtl rl rtk rtl sh2;;
  sh4 <- hop_tables false mj msj rj rsi rsj sh3;;
  Some (Cdiv z ip, sh4).

(** lslocgrn.c:547-634 calHCACA1; line 609 passes the machine counters of the unmoved configuration *)
Definition cal_hcaca1 (P : sched) (ri rj rk rl si sk : Z) (ip : C) (sh : shared) : option (C * shared) :=
  let rsi := ri + si * N in let rsj := rj + si * N in let rsk := rk + sk * N in let rsl := rl + sk * N in
  ml <- rd n2 (hCfg sh) rsl;;
  sh1 <- hop_tables true ml (ml + sk * Ne) rk rsl rsk sh;;
  p <- update_proj_cnt (gT G0) rl rk sk false (projNew own) cnt (hNum sh1);;
  r <- (if gFlagRBM G0 then update_rbm_cnt (gM G0) (gRBM G0) rl rk sk false (rbmNew own) rcnt (hNum sh1) else Some (rbmNew own));;
  mj <- rd n2 (hCfg sh1) rsj;;
  sh2 <- hop_tables true mj (mj + si * Ne) ri rsj rsi sh1;;
  p <- update_proj_cnt (gT G0) rj ri si true p p (hNum sh2);;
  r <- (if gFlagRBM G0 then update_rbm_cnt (gM G0) (gRBM G0) rj ri si true r r (hNum sh2) else Some r);;
  let z := factor p r in
  let st := update_mall_two N Ne (2 * Ne) (gSl G0) ml sk mj si rl rj (hIdx sh2) 0 (gNQPFull G0) (hInv sh2, hPf sh2) in
  let ipNew := calculate_ip (gA G0) 0 (gNQPFull G0) (snd st) in
  e <- calculate_hamiltonian (with_mats G0 (fst st) (snd st)) H ipNew (hCfg sh2) (hNum sh2) p rcnt P (hIdx sh2);;
  sh3 <- hop_tables true mj (mj + si * Ne) rj rsi rsj sh2;;
  sh4 <- hop_tables true ml (ml + sk * Ne) rl rsk rsl sh3;;
  Some (Cmult e (Cconj (Cdiv (Cmult z ipNew) ip)), sh4).

(** lslocgrn.c:638-801 calHCACA2; with a Boltzmann machine line 677 passes an uninitialised pointer (None) *)
Definition cal_hcaca2 (P : sched) (ri rj rk rl si sk : Z) (ip : C) (sh : shared) : option (C * shared) :=
  let rsi := ri + si * N in let rsj := rj + si * N in let rsk := rk + sk * N in let rsl := rl + sk * N in
  if gFlagRBM G0 then None else
  g <- green2 (genv sh) ri rj rk rl si sk ip (hCfg sh) cnt rcnt (Work (hIdx sh) (hNum sh) (projNew own) (rbmNew own) (pfBuf own));;
  let idx := Green.Model.eleIdx (snd g) in
  e <- wr n2 (Green.Model.eleNum (snd g)) rsi 1;; e <- wr n2 e rsj 0;; e <- wr n2 e rsk 1;; e <- wr n2 e rsl 0;;
  h0 <- calculate_hamiltonian0 (genv sh) H e P;;
  let val := Cmult (fst g) h0 in
  e <- wr n2 e rsi 0;; e <- wr n2 e rsj 1;; e <- wr n2 e rsk 0;; e <- wr n2 e rsl 1;;
  let G := genv sh in
  let ta := two rsi rsk in let tb := two rsj rsl in
  v <- region P (copy_tables G e idx) (fun t st =>
    st <- runs (plan P 3 t) (n_transfer G ip (hCfg sh) 2 ta tb) st;;
    st <- runs (plan P 4 t) (n_pair G ip (hCfg sh) 2 ta tb) st;;
    st <- runs (plan P 5 t) (n_exchange G ip (hCfg sh) 2 ta tb) st;;
    runs (plan P 6 t) (n_interall G ip (hCfg sh) 2 ta tb) st);;
  Some (Cplus val v, Shared idx (hCfg sh) e (hInv sh) (hPf sh)).

(** lslocgrn.c:454-497 calHCACA *)
Definition cal_hcaca (P : sched) (ri rj rk rl si sk : Z) (h1 ip : C) (sh : shared) : option (C * shared) :=
  let rsi := ri + si * N in let rsj := rj + si * N in let rsk := rk + sk * N in let rsl := rl + sk * N in
  ni <- rd n2 (hNum sh) rsi;; nj <- rd n2 (hNum sh) rsj;; nk <- rd n2 (hNum sh) rsk;; nl <- rd n2 (hNum sh) rsl;;
  let zero := Some (RtoC 0, sh) in
  if rsk =? rsl then (if nk =? 1 then cal_hca P ri rj si h1 ip sh else zero)
  else if rsj =? rsk then (if nj =? 1 then zero else cal_hca P ri rl si h1 ip sh)
  else if rsj =? rsl then zero
  else if rsi =? rsj then (if ni =? 1 then cal_hca P rk rl sk h1 ip sh else zero)
  else if rsi =? rsk then zero
  else if rsi =? rsl then (if ni =? 1 then r <- cal_hca P rk rj sk h1 ip sh;; Some (Copp (fst r), snd r) else zero)
  else if nl =? 0 then zero
  else if nk =? 1 then zero
  else if nj =? 0 then zero
  else if ni =? 1 then zero
  else
    g <- check_gf2 ri rj rk rl si sk ip sh;;
    if Rlt_dec tiny (Cmod (fst g)) then cal_hcaca1 P ri rj rk rl si sk ip (snd g) else cal_hcaca2 P ri rj rk rl si sk ip (snd g).

(** state of the loops below: val and the shared tables *)
Definition lstate : Type := C * shared.
Definition add_val (st : lstate) (p : C) (r : option (C * shared)) : option lstate :=
  v <- r;; Some (Cplus (fst st) (Cmult p (fst v)), snd v).
(** lslocgrn.c:122-137 calculateHK; [P l idx] is the execution inside call number idx of loop l *)
Definition calculate_hk (P : Z -> Z -> sched) (h1 ip : C) (sh : shared) : option (C * shared) :=
  loopM 0 (NTransfer H) (fun idx st =>
    add_val st (Copp (ParaTransfer H idx)) (cal_hca (P 3 idx) (Transfer H idx 0) (Transfer H idx 2) (Transfer H idx 3) h1 ip (snd st))) (RtoC 0, sh).
(** lslocgrn.c:139-177 calculateHW; the second exchange call is number -1-idx *)
Definition calculate_hw (P : Z -> Z -> sched) (h1 ip : C) (sh : shared) : option (C * shared) :=
  st <- loopM 0 (NPair H) (fun idx st =>
    let ri := Pair H idx 0 in let rj := Pair H idx 1 in
    add_val st (RtoC (ParaPair H idx)) (cal_hcaca (P 4 idx) ri rj ri rj 0 1 h1 ip (snd st))) (RtoC 0, sh);;
  st <- loopM 0 (NExchange H) (fun idx st =>
    let ri := Exchange H idx 0 in let rj := Exchange H idx 1 in
    add_val st (RtoC (ParaExchange H idx))
      (r <- cal_hcaca (P 5 idx) ri rj rj ri 0 1 h1 ip (snd st);;
       r' <- cal_hcaca (P 5 (-1 - idx)) ri rj rj ri 1 0 h1 ip (snd r);;
       Some (Cplus (fst r) (fst r'), snd r'))) st;;
  loopM 0 (NInterAll H) (fun idx st =>
    let c := InterAll H idx in
    add_val st (ParaInterAll H idx) (cal_hcaca (P 6 idx) (c 0) (c 2) (c 4) (c 6) (c 3) (c 7) h1 ip (snd st))) st.
(** lslocgrn.c:76-95 LSLocalQ: h2, the local value of H*H (the three other numbers stored are 1, h1, h1) *)
Definition ls_local_q (P0 : sched) (P : Z -> Z -> sched) (h1 ip : C) (sh : shared) : option (C * shared) :=
  e0 <- calculate_hamiltonian0 (genv sh) H (hNum sh) P0;;
  let h2 := Cmult h1 e0 in
  k <- calculate_hk P h1 ip sh;;
  w <- calculate_hw P h1 ip (snd k);;
  Some (Cplus (Cplus h2 (fst k)) (fst w), snd w).
(** lslocgrn.c:98-120 LSLocalCisAjs, second half of LSLCisAjs: the local value of H times operator number idx *)
Definition ls_local_cisajs (P : Z -> sched) (n : Z) (CisAjsIdx : Z -> Z -> Z) (h1 ip : C) (out : Z -> C) (sh : shared) : option ((Z -> C) * shared) :=
  loopM 0 n (fun idx st =>
    r <- cal_hca (P idx) (CisAjsIdx idx 0) (CisAjsIdx idx 2) (CisAjsIdx idx 3) h1 ip (snd st);;
    Some (upd (fst st) (idx + n) (fst r), snd r)) (out, sh).
End Lanczos.
