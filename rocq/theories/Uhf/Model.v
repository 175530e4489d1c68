(** The Hartree-Fock program src/ComplexUHF that prepares initial parameters.
    double is R, double complex is C, exact.  Matrices are functions of two indices, 2 * Ns spin-orbitals (site + spin * Ns).  The
    interactions are read into the same tables as in the main program ([terms]; pair hoppings are doubled by the reader,
    readdef.c:541-552).  iFlg_Fock is 1 (include/Def.h:31).  LAPACK's zheev is a parameter; it is taken to succeed (the value 0 that
    ZHEEVall returns otherwise is ignored by diag). *)
From Coq Require Import ZArith List Bool Reals.
From Coquelicot Require Import Complex.
From Verif Require Import Base.ZLoop Base.RSum Ham.Model.
Import ListNotations.
Local Open Scope Z_scope.

Definition matrix := Z -> Z -> C.
(** a sequence of statements Ham[i][j] += v *)
Definition add (M : matrix) (e : Z * Z * C) : matrix := let '(i, j, v) := e in fun a b => if (a =? i) && (b =? j) then Cplus (M a b) v else M a b.
Definition adds (l : list (Z * Z * C)) (M : matrix) : matrix := fold_left add l M.

Section Program.
Variables (Ns : Z) (H : terms).

Section Ham.
Variable G : matrix.
(** makeham.c:45-55 *)
Definition add_transfer (k : Z) : list (Z * Z * C) :=
  let tmp := Copp (ParaTransfer H k) in
  let t1 := Transfer H k 0 + Transfer H k 1 * Ns in let t2 := Transfer H k 2 + Transfer H k 3 * Ns in
  [(t1, t2, tmp)].
(** makeham.c:57-72 *)
Definition add_intra (k : Z) : list (Z * Z * C) :=
  let tmp := RtoC (ParaIntra H k) in let u := Intra H k + 0 * Ns in let d := Intra H k + 1 * Ns in
  [(u, u, Cmult tmp (G d d)); (d, d, Cmult tmp (G u u));
   (u, d, Cmult (Copp tmp) (G d u)); (d, u, Cmult (Copp tmp) (G u d))].
(** makeham.c:74-106; charge is a double *)
Definition charge (u d : Z) : C := RtoC (fst (Cplus (G u u) (G d d))).
Definition add_inter (k : Z) : list (Z * Z * C) :=
  let tmp := RtoC (ParaInter H k) in
  let u1 := Inter H k 0 + 0 * Ns in let d1 := Inter H k 0 + 1 * Ns in let u2 := Inter H k 1 + 0 * Ns in let d2 := Inter H k 1 + 1 * Ns in
  [(u1, u1, Cmult tmp (charge u2 d2)); (d1, d1, Cmult tmp (charge u2 d2));
   (u2, u2, Cmult tmp (charge u1 d1)); (d2, d2, Cmult tmp (charge u1 d1));
   (u1, u2, Cmult (Copp tmp) (G u2 u1)); (u2, u1, Cmult (Copp tmp) (G u1 u2));
   (d1, d2, Cmult (Copp tmp) (G d2 d1)); (d2, d1, Cmult (Copp tmp) (G d1 d2));
   (u1, d2, Cmult (Copp tmp) (G d2 u1)); (d2, u1, Cmult (Copp tmp) (G u1 d2));
   (u2, d1, Cmult (Copp tmp) (G d1 u2)); (d1, u2, Cmult (Copp tmp) (G u2 d1))].
(** makeham.c:108-132 *)
Definition add_hund (k : Z) : list (Z * Z * C) :=
  let tmp := Copp (RtoC (ParaHund H k)) in
  let u1 := Hund H k 0 + 0 * Ns in let d1 := Hund H k 0 + 1 * Ns in let u2 := Hund H k 1 + 0 * Ns in let d2 := Hund H k 1 + 1 * Ns in
  [(u1, u1, Cmult tmp (G u2 u2)); (d1, d1, Cmult tmp (G d2 d2)); (u2, u2, Cmult tmp (G u1 u1)); (d2, d2, Cmult tmp (G d1 d1));
   (u1, u2, Cmult (Copp tmp) (G u2 u1)); (u2, u1, Cmult (Copp tmp) (G u1 u2));
   (d1, d2, Cmult (Copp tmp) (G d2 d1)); (d2, d1, Cmult (Copp tmp) (G d1 d2))].
(** makeham.c:136-160 *)
Definition add_exchange (k : Z) : list (Z * Z * C) :=
  let tmp := RtoC (ParaExchange H k) in
  let u1 := Exchange H k 0 + 0 * Ns in let d1 := Exchange H k 0 + 1 * Ns in let u2 := Exchange H k 1 + 0 * Ns in let d2 := Exchange H k 1 + 1 * Ns in
  [(u1, u2, Cmult tmp (G d2 d1)); (d2, d1, Cmult tmp (G u1 u2)); (d1, d2, Cmult tmp (G u2 u1)); (u2, u1, Cmult tmp (G d1 d2));
   (u1, d1, Cmult (Copp tmp) (G d2 u2)); (u2, d2, Cmult (Copp tmp) (G d1 u1));
   (d1, u1, Cmult (Copp tmp) (G u2 d2)); (d2, u2, Cmult (Copp tmp) (G u1 d1))].
(** makeham.c:162-179 *)
Definition add_pair (k : Z) : list (Z * Z * C) :=
  let tmp := RtoC (ParaPair H k) in
  let u1 := Pair H k 0 + 0 * Ns in let d1 := Pair H k 0 + 1 * Ns in let u2 := Pair H k 1 + 0 * Ns in let d2 := Pair H k 1 + 1 * Ns in
  [(u1, u2, Cmult tmp (G d1 d2)); (d1, d2, Cmult tmp (G u1 u2));
   (u1, d2, Cmult (Copp tmp) (G d1 u2)); (d1, u2, Cmult (Copp tmp) (G u1 d2))].
(** makeham.c:182-217 *)
Definition add_interall (k : Z) : list (Z * Z * C) :=
  let c := InterAll H k in let tmp := ParaInterAll H k in
  let s1 := c 0 + c 1 * Ns in let s2 := c 2 + c 3 * Ns in let s3 := c 4 + c 5 * Ns in let s4 := c 6 + c 7 * Ns in
  if (s1 =? s2) && (s3 =? s4) && (s1 =? s3) then [(s1, s1, tmp)]
  else [(s1, s2, Cmult tmp (G s3 s4)); (s3, s4, Cmult tmp (G s1 s2));
        (s1, s4, Cmult (Copp tmp) (G s3 s2)); (s3, s2, Cmult (Copp tmp) (G s1 s4))] ++ (if s2 =? s3 then [(s1, s4, tmp)] else []).
(** makeham.c:24-218 *)
Definition makeham : matrix :=
  let M := fun _ _ => RtoC 0 in
  let M := loop 0 (NTransfer H) (fun k => adds (add_transfer k)) M in
  let M := loop 0 (NIntra H) (fun k => adds (add_intra k)) M in
  let M := loop 0 (NInter H) (fun k => adds (add_inter k)) M in
  let M := loop 0 (NHund H) (fun k => adds (add_hund k)) M in
  let M := loop 0 (NExchange H) (fun k => adds (add_exchange k)) M in
  let M := loop 0 (NPair H) (fun k => adds (add_pair k)) M in
  loop 0 (NInterAll H) (fun k => adds (add_interall k)) M.
End Ham.

Variables (Nsize : Z) (zheev : Z -> (Z -> C) -> (Z -> R) * (Z -> C)).
(** matrixlapack.c:235-292 ZHEEVall: column-major copy; row k of vec is column k of the result.  The counter k is j * n + i. *)
Definition zheevall (n : Z) (A : matrix) : (Z -> R) * matrix :=
  let a := loop 0 n (fun j a => loop 0 n (fun i a => upd a (j * n + i) (A i j)) a) (fun _ => RtoC 0) in
  let '(w, a) := zheev n a in
  (w, fun i j => a (i * n + j)).
(** diag.c:28-77 with green.c:26-51; matrixlapack.c:74-130 cmp_MMProd is the product of the 2Ns x Nsize and the Nsize x 2Ns matrix *)
Definition diag (Ham : matrix) : (Z -> R) * matrix * matrix :=
  let '(r, vec) := zheevall (2 * Ns) Ham in
  (r, fun l k => Cconj (vec k l), fun k l => vec k l).
Definition green (R_SLT L_SLT : matrix) : matrix := fun i j => csum (zrange 0 Nsize) (fun k => Cmult (R_SLT i k) (L_SLT k j)).

(** statements E += z with E a double: the real part is kept *)
Definition accumulate (l : list C) (e : R) : R := fold_left (fun e z => (e + fst z)%R) l e.
Section Energy.
Variables (EigenValues : Z -> R) (G : matrix).
(** cal_energy.c:47-64 *)
Definition e_intra (k : Z) : list C :=
  let tmp := RtoC (ParaIntra H k) in let u := Intra H k + 0 * Ns in let d := Intra H k + 1 * Ns in
  [Cmult (Cmult (Copp tmp) (G u u)) (G d d); Cmult (Cmult tmp (G u d)) (G d u)].
(** cal_energy.c:66-95 *)
Definition e_inter (k : Z) : list C :=
  let tmp := RtoC (ParaInter H k) in
  let u1 := Inter H k 0 + 0 * Ns in let d1 := Inter H k 0 + 1 * Ns in let u2 := Inter H k 1 + 0 * Ns in let d2 := Inter H k 1 + 1 * Ns in
  [Cmult (Cmult (Copp tmp) (charge G u1 d1)) (charge G u2 d2);
   Cmult (Cmult tmp (G u1 u2)) (G u2 u1); Cmult (Cmult tmp (G d1 d2)) (G d2 d1);
   Cmult (Cmult tmp (G u1 d2)) (G d2 u1); Cmult (Cmult tmp (G d1 u2)) (G u2 d1)].
(** cal_energy.c:97-118 *)
Definition e_hund (k : Z) : list C :=
  let tmp := Copp (RtoC (ParaHund H k)) in
  let u1 := Hund H k 0 + 0 * Ns in let d1 := Hund H k 0 + 1 * Ns in let u2 := Hund H k 1 + 0 * Ns in let d2 := Hund H k 1 + 1 * Ns in
  [Cmult (Cmult (Copp tmp) (G u1 u1)) (G u2 u2); Cmult (Cmult (Copp tmp) (G d1 d1)) (G d2 d2);
   Cmult (Cmult tmp (G u1 u2)) (G u2 u1); Cmult (Cmult tmp (G d1 d2)) (G d2 d1)].
(** cal_energy.c:120-141 *)
Definition e_exchange (k : Z) : list C :=
  let tmp := RtoC (ParaExchange H k) in
  let u1 := Exchange H k 0 + 0 * Ns in let d1 := Exchange H k 0 + 1 * Ns in let u2 := Exchange H k 1 + 0 * Ns in let d2 := Exchange H k 1 + 1 * Ns in
  [Cmult (Cmult (Copp tmp) (G u1 u2)) (G d2 d1); Cmult (Cmult (Copp tmp) (G d1 d2)) (G u2 u1);
   Cmult (Cmult tmp (G u1 d1)) (G d2 u2); Cmult (Cmult tmp (G d1 u1)) (G u2 d2)].
(** cal_energy.c:143-158 *)
Definition e_pair (k : Z) : list C :=
  let tmp := RtoC (ParaPair H k) in
  let u1 := Pair H k 0 + 0 * Ns in let d1 := Pair H k 0 + 1 * Ns in let u2 := Pair H k 1 + 0 * Ns in let d2 := Pair H k 1 + 1 * Ns in
  [Cmult (Cmult (Copp tmp) (G u1 u2)) (G d1 d2); Cmult (Cmult tmp (G u1 d2)) (G d1 u2)].
(** cal_energy.c:160-179 *)
Definition e_interall (k : Z) : list C :=
  let c := InterAll H k in let tmp := ParaInterAll H k in
  let s1 := c 0 + c 1 * Ns in let s2 := c 2 + c 3 * Ns in let s3 := c 4 + c 5 * Ns in let s4 := c 6 + c 7 * Ns in
  [Copp (Cmult (Cmult tmp (G s1 s2)) (G s3 s4)); Cmult (Cmult tmp (G s1 s4)) (G s3 s2)].
(** cal_energy.c:42-45 and 181-183 *)
Definition cal_energy : R :=
  let E_band := loop 0 Nsize (fun k e => (e + EigenValues k)%R) 0%R in
  let total n (row : Z -> list C) := loop 0 n (fun k => accumulate (row k)) 0%R in
  (E_band + total (NIntra H) e_intra + total (NInter H) e_inter + total (NHund H) e_hund +
   (total (NExchange H) e_exchange + total (NPair H) e_pair + total (NInterAll H) e_interall))%R.
(** cal_energy.c:185-197: number of electrons, residue and mixing *)
Definition cal_num : R := loop 0 (2 * Ns) (fun i e => (e + fst (G i i))%R) 0%R.
Definition cal_rest (G_old : matrix) : R :=
  (sqrt (loop 0 (2 * Ns) (fun i e => loop 0 (2 * Ns) (fun j e => let tmp := Cmod (Cminus (G_old i j) (G i j)) in (e + tmp * tmp)%R) e) 0%R) / (2 * IZR Ns * IZR Ns))%R.
Definition mixed (mix : R) (G_old : matrix) : matrix := fun i j => Cplus (Cmult (G_old i j) (RtoC (1 - mix))) (Cmult (RtoC mix) (G i j)).
End Energy.

(** UHFmain.c:115-118: one pass of the loop *)
Record pass := Pass { pEigen : Z -> R; pR : matrix; pGreen : matrix; pEnergy : R; pNum : R; pRest : R; pMixed : matrix }.
Definition step (mix : R) (G : matrix) : pass :=
  let '(r, R_SLT, L_SLT) := diag (makeham G) in
  let Gn := green R_SLT L_SLT in
  Pass r R_SLT Gn (cal_energy r Gn) (cal_num Gn) (cal_rest Gn G) (mixed Gn mix G).
(** UHFmain.c:113-128: the result is the last pass and whether its residue was below eps *)
Fixpoint iterate (eps mix : R) (n : nat) (G : matrix) : option (pass * bool) :=
  match n with
  | O => None
  | S n => let p := step mix G in
    if Rlt_dec (pRest p) eps then Some (p, true) else match n with O => Some (p, false) | S _ => iterate eps mix n (pMixed p) end
  end.
End Program.

(** initial.c:26-62: the first Green functions.  Fresh matrices are zero (common/setmemory.c:139-149); random numbers are an oracle. *)
Definition initial (Ns NInitial : Z) (Initial : Z -> Z -> Z) (ParaInitial : Z -> C) (rand : Z -> Z -> R) : matrix :=
  let G := if NInitial =? 0 then fun i j => RtoC (/ 100 * (rand i j - / 2)) else fun _ _ => RtoC 0 in
  loop 0 NInitial (fun k G => let t0 := Initial k 0 + Initial k 1 * Ns in let t1 := Initial k 2 + Initial k 3 * Ns in
    fun a b => if (a =? t0) && (b =? t1) then ParaInitial k else G a b) G.
