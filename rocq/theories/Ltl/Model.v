(** Pfaffian and inverse of a skew-symmetric matrix from its tridiagonal factorisation (src/ltl2inv), and the call sequence of
    matrix.c around it.  double and double complex are C.  Matrices are column-major arrays with a leading dimension; a pointer into
    a matrix is a number of elements.  Division by zero, whose result is not finite, makes the outcome None.
    Level-1/3 BLAS routines (swap, trmm) and LAPACK's lacpy are written out by their documented meaning; trtri and PFAPACK's sktrf,
    which are not in the repository, are parameters; npanel is what ilaenv_lauum (ilaenv_lauum.cc:36-44) returns. *)
From Coq Require Import ZArith List Bool Reals.
From Coquelicot Require Import Complex.
From Verif Require Import Base.ZLoop Base.Checked Base.RSum.
Import ListNotations.
Local Open Scope Z_scope.

(** colmaj.hh:18-21 *)
Definition at_ (A : Z -> C) (ld i j : Z) : C := A (i + j * ld).
Definition put (A : Z -> C) (ld i j : Z) (v : C) : Z -> C := upd A (i + j * ld) v.
(** a routine that is given the address of element [off] *)
Definition from (off : Z) (f : (Z -> C) -> Z -> C) (A : Z -> C) : Z -> C := fun p => f (fun k => A (off + k)) (p - off).

(** pfaffian.tcc:11-23 ltl2pfa and 26-38 utu2pfa; i = 2*k.  The loop runs (n+1)/2 times. *)
Definition ltl2pfa (n : Z) (A : Z -> C) (ldA : Z) (iPiv : Z -> Z) : C :=
  loop 0 ((n + 1) / 2) (fun k pfa => let i := 2 * k in
    let pfa := Cmult pfa (Copp (at_ A ldA (i + 1) i)) in
    let pfa := if negb (iPiv i - 1 =? i) then Copp pfa else pfa in
    if negb (iPiv (i + 1) - 1 =? i + 1) then Copp pfa else pfa) (RtoC 1).
Definition utu2pfa (n : Z) (A : Z -> C) (ldA : Z) (iPiv : Z -> Z) : C :=
  loop 0 ((n + 1) / 2) (fun k pfa => let i := 2 * k in
    let pfa := Cmult pfa (at_ A ldA i (i + 1)) in
    let pfa := if negb (iPiv i - 1 =? i) then Copp pfa else pfa in
    if negb (iPiv (i + 1) - 1 =? i + 1) then Copp pfa else pfa) (RtoC 1).

(** a quotient; not finite when the divisor vanishes *)
Definition quotient (x y : C) : option C := if Ceq_dec y (RtoC 0) then None else Some (Cdiv x y).
(** invert.tcc:11-28 sktdsmx: solves T C = B for the skew tridiagonal T with subdiagonal vT.  i = 2*(k+1) in the first loop over i
    ((n-1)/2 iterations), i = n-3-2*k in the second (as many). *)
Definition sktdsmx (n : Z) (vT : Z -> C) (B : Z -> C) (ldB : Z) (X : Z -> C) (ldC : Z) : option (Z -> C) :=
  bind (loopM 0 n (fun j X => bind (quotient (at_ B ldB 0 j) (Copp (vT 0))) (fun v => Some (put X ldC 1 j v))) X) (fun X =>
  bind (loopM 0 ((n - 1) / 2) (fun k X => let i := 2 * (k + 1) in
    loopM 0 n (fun j X => bind (quotient (Cminus (at_ B ldB i j) (Cmult (at_ X ldC (i - 1) j) (vT (i - 1)))) (Copp (vT i))) (fun v =>
      Some (put X ldC (i + 1) j v))) X) X) (fun X =>
  bind (loopM 0 n (fun j X => bind (quotient (at_ B ldB (n - 1) j) (vT (n - 2))) (fun v => Some (put X ldC (n - 2) j v))) X) (fun X =>
  loopM 0 ((n - 1) / 2) (fun k X => let i := n - 3 - 2 * k in
    loopM 0 n (fun j X => bind (quotient (Cplus (at_ B ldB i j) (Cmult (at_ X ldC (i + 1) j) (vT i))) (vT (i - 1))) (fun v =>
      Some (put X ldC (i - 1) j v))) X) X))).

(** BLAS swap of two vectors of one array (blalink.hh swap) *)
Definition swap (n x incx y incy : Z) (A : Z -> C) : Z -> C :=
  loop 0 n (fun k A => let t := A (x + k * incx) in
    let A := upd A (x + k * incx) (A (y + k * incy)) in upd A (y + k * incy) t) A.
(** LAPACK lacpy of a triangle, diagonal included, of an m x m matrix *)
Definition lacpy (upper : bool) (m : Z) (A : Z -> C) (a ldA : Z) (B : Z -> C) (b ldB : Z) : Z -> C :=
  loop 0 m (fun j B => loop (if upper then 0 else j) (if upper then j + 1 else m) (fun i B => upd B (b + i + j * ldB) (A (a + i + j * ldA))) B) B.
(** BLAS trmm, side left, transposed, unit diagonal, alpha = 1: the m x c matrix at b becomes A' B, A the triangular m x m matrix at a *)
Definition trmm (upper : bool) (m c : Z) (A : Z -> C) (a ldA : Z) (B : Z -> C) (b ldB : Z) : Z -> C :=
  loop 0 c (fun j R => loop 0 m (fun i R =>
    upd R (b + i + j * ldB) (Cplus (B (b + i + j * ldB)) (csum (if upper then zrange 0 i else zrange (i + 1) m) (fun k => Cmult (A (a + k + i * ldA)) (B (b + k + j * ldB)))))) R) B.
(** trmmt.tcc:12-34; j = p*npanel *)
Definition trmmt (upper : bool) (npanel n : Z) (A : Z -> C) (ldA : Z) (B : Z -> C) (ldB : Z) : Z -> C :=
  loop 0 ((n + npanel - 1) / npanel) (fun p B => let j := p * npanel in let nloc := Z.min npanel (n - j) in
    if upper then trmm true (j + nloc) nloc A 0 ldA B (j * ldB) ldB
    else trmm false (n - j) nloc A (j + j * ldA) ldA B (j + j * ldB) ldB) B.

Section Inverse.
(** LAPACK trtri with unit diagonal: upper?, size, leading dimension *)
Variable trtri : bool -> Z -> Z -> (Z -> C) -> Z -> C.
Variable npanel : Z.

(** invert.tcc:30-72 ltl2inv; returns the matrix left in A *)
Definition ltl2inv (n : Z) (A : Z -> C) (ldA : Z) (iPiv : Z -> Z) (M : Z -> C) (ldM : Z) : option (Z -> C) :=
  let full := (npanel <=? 1) || (n <=? npanel) in
  let M := loop 0 n (fun j M => loop 0 n (fun i M => put M ldM i j (if i =? j then RtoC 1 else RtoC 0)) M) M in
  let A := from 1 (trtri false (n - 1) ldA) A in
  let M := lacpy false (n - 2) A 2 ldA M (2 + 1 * ldM) ldM in
  let vT := fun i => at_ A ldA (i + 1) i in
  bind (sktdsmx n vT M ldM A ldA) (fun A =>
  let A := if full then A else
    loop 0 n (fun j A => loop 0 j (fun i A => put A ldA i j (Copp (at_ A ldA j i))) (put A ldA j j (RtoC 0))) (trmmt false npanel n M ldM A ldA) in
  let A := loop 0 n (fun k A => let j := n - 1 - k in if negb (iPiv j - 1 =? j) then swap n (j * ldA) 1 ((iPiv j - 1) * ldA) 1 A else A) A in
  let A := if full then trmm false n n M 0 ldM A 0 ldA else A in
  Some (loop 0 n (fun k A => let i := n - 1 - k in if negb (iPiv i - 1 =? i) then swap n i ldA (iPiv i - 1) ldA A else A) A)).

(** invert.tcc:74-116 utu2inv *)
Definition utu2inv (n : Z) (A : Z -> C) (ldA : Z) (iPiv : Z -> Z) (M : Z -> C) (ldM : Z) : option (Z -> C) :=
  let full := (npanel <=? 1) || (n <=? npanel) in
  let M := loop 0 n (fun j M => loop 0 n (fun i M => put M ldM i j (if i =? j then RtoC 1 else RtoC 0)) M) M in
  let A := from ldA (trtri true (n - 1) ldA) A in
  let M := lacpy true (n - 2) A (2 * ldA) ldA M (1 * ldM) ldM in
  let vT := fun i => Copp (at_ A ldA i (i + 1)) in
  bind (sktdsmx n vT M ldM A ldA) (fun A =>
  let A := if full then A else
    loop 0 n (fun j A => loop (j + 1) n (fun i A => put A ldA i j (Copp (at_ A ldA j i))) (put A ldA j j (RtoC 0))) (trmmt true npanel n M ldM A ldA) in
  let A := loop 0 n (fun j A => if negb (iPiv j - 1 =? j) then swap n (j * ldA) 1 ((iPiv j - 1) * ldA) 1 A else A) A in
  let A := if full then trmm true n n M 0 ldM A 0 ldA else A in
  Some (loop 0 n (fun i A => if negb (iPiv i - 1 =? i) then swap n i ldA (iPiv i - 1) ldA A else A) A)).

(** matrix.c:370-380 (also 163-173, 262-272, 597-607): factorise, Pfaffian, inverse.  sktrf returns None for info != 0, else the
    overwritten matrix and the pivots.  The outcome is None where the program fails or goes on with entries that are not finite. *)
Variable sktrf : Z -> (Z -> C) -> option ((Z -> C) * (Z -> Z)).
Definition pfaffian_and_inverse (bufM : Z -> C) (n : Z) (invM : Z -> C) : option (C * (Z -> C)) :=
  bind (sktrf n invM) (fun st => let '(invM, iwork) := st in
  let pfaff := utu2pfa n invM n iwork in
  bind (utu2inv n invM n iwork bufM n) (fun invM => Some (pfaff, invM))).
End Inverse.
