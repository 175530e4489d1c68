(** Local energy with general spins (calham_fsz.c).  Conventions of Ham/Model.v; the Hamiltonian is the record [terms] there. *)
From Coq Require Import ZArith List Bool Reals.
From Coquelicot Require Import Complex.
From Verif Require Import Base.ZLoop Base.Checked Base.RSum Green.Model Ham.Model Gfz.Model.
Import ListNotations.
Local Open Scope Z_scope.

(** one execution of the parallel region: threads, iterations of loop l run by thread t in order, previous contents of work spaces *)
Record fsched := FSched { fthreads : Z; fplan : Z -> Z -> list Z; fspace : Z -> fwork }.

Section Ham.
Variable G : env.
Variable H : terms.
Let N := gNsite G.
Let n2 := 2 * gNsite G.
Let nsize := 2 * gNe G.

Section Region.
Variables (ip : C) (eleCfg eleNum : Z -> Z) (cnt : Z -> Z).
(** state of a thread: its work space and myEnergy *)
Definition ftstate : Type := fwork * C.
Definition fadd_real (st : ftstate) (v : R) : option ftstate := Some (fst st, Cplus (snd st) (RtoC v)).
(** calham_fsz.c:98-102 *)
Definition ft_intra (idx : Z) (st : ftstate) : option ftstate :=
  let ri := Intra H idx in
  a <- rd n2 eleNum ri;; b <- rd n2 eleNum (ri + N);;
  fadd_real st (ParaIntra H idx * IZR a * IZR b)%R.
(** calham_fsz.c:104-110 *)
Definition ft_inter (idx : Z) (st : ftstate) : option ftstate :=
  let ri := Inter H idx 0 in let rj := Inter H idx 1 in
  a <- rd n2 eleNum ri;; b <- rd n2 eleNum (ri + N);; c <- rd n2 eleNum rj;; d <- rd n2 eleNum (rj + N);;
  fadd_real st (ParaInter H idx * IZR (a + b) * IZR (c + d))%R.
(** calham_fsz.c:112-119 *)
Definition ft_hund (idx : Z) (st : ftstate) : option ftstate :=
  let ri := Hund H idx 0 in let rj := Hund H idx 1 in
  a <- rd n2 eleNum ri;; b <- rd n2 eleNum (ri + N);; c <- rd n2 eleNum rj;; d <- rd n2 eleNum (rj + N);;
  fadd_real st (- (ParaHund H idx * IZR (a * c + b * d)))%R.
(** myEnergy += p * g *)
Definition fadd_green (st : ftstate) (p : C) (g : option (C * fwork)) : option ftstate :=
  r <- g;; Some (snd r, Cplus (snd st) (Cmult p (fst r))).
(** calham_fsz.c:124-139 *)
Definition ft_transfer (idx : Z) (st : ftstate) : option ftstate :=
  let ri := Transfer H idx 0 in let s := Transfer H idx 1 in let rj := Transfer H idx 2 in let t := Transfer H idx 3 in
  fadd_green st (Copp (ParaTransfer H idx))
    (if s =? t then green1_fsz G ri rj s ip eleCfg cnt (fst st) else green1_fsz2 G ri rj s t ip eleCfg cnt (fst st)).
(** calham_fsz.c:144-152 *)
Definition ft_pair (idx : Z) (st : ftstate) : option ftstate :=
  let ri := Pair H idx 0 in let rj := Pair H idx 1 in
  fadd_green st (RtoC (ParaPair H idx)) (green2_fsz G ri rj ri rj 0 1 ip eleCfg cnt (fst st)).
(** calham_fsz.c:154-166 *)
Definition ft_exchange (idx : Z) (st : ftstate) : option ftstate :=
  let ri := Exchange H idx 0 in let rj := Exchange H idx 1 in
  fadd_green st (RtoC (ParaExchange H idx))
    (r <- green2_fsz G ri rj rj ri 0 1 ip eleCfg cnt (fst st);;
     r' <- green2_fsz G ri rj rj ri 1 0 ip eleCfg cnt (snd r);;
     Some (Cplus (fst r) (fst r'), snd r')).
(** calham_fsz.c:168-188 *)
Definition ft_interall (idx : Z) (st : ftstate) : option ftstate :=
  let ri := InterAll H idx 0 in let s := InterAll H idx 1 in let rj := InterAll H idx 2 in let t := InterAll H idx 3 in
  let rk := InterAll H idx 4 in let u := InterAll H idx 5 in let rl := InterAll H idx 6 in let v := InterAll H idx 7 in
  fadd_green st (ParaInterAll H idx)
    (if (s =? t) && (u =? v) then green2_fsz G ri rj rk rl s u ip eleCfg cnt (fst st) else green2_fsz2 G ri rj rk rl s t u v ip eleCfg cnt (fst st)).

(** e += the value of each thread; thread t starts with (space t, 0) *)
Definition fregion (P : fsched) (start : fwork -> fwork) (body : Z -> ftstate -> option ftstate) : option C :=
  runs (zrange 0 (fthreads P)) (fun t e => st <- body t (start (fspace P t), RtoC 0);; Some (Cplus e (snd st))) (RtoC 0).
(** calham_fsz.c:85-90 *)
Definition fcopy_tables (eleIdx eleSpn : Z -> Z) (w : fwork) : fwork :=
  FWork (loop 0 nsize (fun i a => upd a i (eleIdx i)) (fIdx w)) (loop 0 nsize (fun i a => upd a i (eleSpn i)) (fSpn w))
    (loop 0 n2 (fun i a => upd a i (eleNum i)) (fNum w)) (fProjNew w) (fPfBuf w).
(** calham_fsz.c:49-198 CalculateHamiltonian_fsz *)
Definition calculate_hamiltonian_fsz (P : fsched) (eleIdx eleSpn : Z -> Z) : option C :=
  fregion P (fcopy_tables eleIdx eleSpn) (fun t st =>
    st <- runs (fplan P 0 t) ft_intra st;;
    st <- runs (fplan P 1 t) ft_inter st;;
    st <- runs (fplan P 2 t) ft_hund st;;
    st <- runs (fplan P 3 t) ft_transfer st;;
    st <- runs (fplan P 4 t) ft_pair st;;
    st <- runs (fplan P 5 t) ft_exchange st;;
    runs (fplan P 6 t) ft_interall st).
(** calham_fsz.c:204-243 CalculateHamiltonian0_fsz *)
Definition calculate_hamiltonian0_fsz (P : fsched) : option C :=
  fregion P (fun w => w) (fun t st =>
    st <- runs (fplan P 0 t) ft_intra st;;
    st <- runs (fplan P 1 t) ft_inter st;;
    runs (fplan P 2 t) ft_hund st).
(** calham_fsz.c:32-45 CalculateSz_fsz *)
Definition calculate_sz_fsz : option R :=
  loop 0 N (fun ri o => z <- o;; a <- rd n2 eleNum ri;; b <- rd n2 eleNum (ri + N);; Some (z + IZR (a - b))%R) (Some 0%R).
End Region.
End Ham.
