(** What the external routines are meant to deliver. *)
From Coq Require Import ZArith List Bool Reals.
From Coquelicot Require Import Complex.
From Verif Require Import Base.ZLoop Base.RSum Pf.Pfaffian Pf.Spec Ltl.Model.
Import ListNotations.
Local Open Scope Z_scope.

(** the skew tridiagonal matrix with superdiagonal t *)
Definition tridiagonal (t : Z -> C) (i j : Z) : C := if j =? i + 1 then t i else if i =? j + 1 then Copp (t j) else RtoC 0.
(** unit triangular matrices from stored entries *)
Definition unit_tri (upper : bool) (a : Z -> Z -> C) (i j : Z) : C :=
  if i =? j then RtoC 1 else if (if upper then i <? j else j <? i) then a i j else RtoC 0.
(** exchange of a and b *)
Definition exchange (a b i : Z) : Z := if i =? a then b else if i =? b then a else i.
(** the interchanges j <-> piv j of a list of rows, the last of the list first *)
Definition interchanges (piv : Z -> Z) (l : list Z) (i : Z) : Z := fold_right (fun j i => exchange j (piv j - 1) i) i l.
Definition product (n : Z) (X Y : Z -> Z -> C) (i j : Z) : C := csum (zrange 0 n) (fun k => Cmult (X i k) (Y k j)).
Definition transpose (X : Z -> Z -> C) (i j : Z) : C := X j i.

(** PFAPACK sktrf.  Upper: A = P U T U' P', T tridiagonal with its superdiagonal on the superdiagonal of the result, U unit upper
    triangular with column j in column j+1 of the result and last column (0,...,0,1); lower: A = P L T L' P', T with its subdiagonal on
    the subdiagonal, column j of L in column j-1 and first column (1,0,...,0)'.  Row k of A is row s(k) of the product. *)
Definition factor (upper : bool) (n : Z) (R : Z -> C) (ld : Z) : Z -> Z -> C :=
  if upper then unit_tri true (fun i j => if j <? n - 1 then at_ R ld i (j + 1) else RtoC 0)
  else unit_tri false (fun i j => if 0 <? j then at_ R ld i (j - 1) else RtoC 0).
Definition diagonal_of (upper : bool) (R : Z -> C) (ld : Z) (i : Z) : C := if upper then at_ R ld i (i + 1) else Copp (at_ R ld (i + 1) i).
Definition rows (upper : bool) (n : Z) (piv : Z -> Z) : Z -> Z := interchanges piv (if upper then zrange 0 n else rev (zrange 0 n)).
Definition factorised (upper : bool) (n : Z) (A : Z -> Z -> C) (R : Z -> C) (ld : Z) (piv : Z -> Z) : Prop :=
  (forall j, 0 <= j < n -> 1 <= piv j <= n) /\
  (forall i j, 0 <= i < n -> 0 <= j < n ->
    A i j = product n (product n (factor upper n R ld) (tridiagonal (diagonal_of upper R ld))) (transpose (factor upper n R ld)) (rows upper n piv i) (rows upper n piv j)).

(** LAPACK trtri: the strict triangle is replaced by that of the inverse, nothing else is touched *)
Definition inverts (trtri : bool -> Z -> Z -> (Z -> C) -> Z -> C) : Prop :=
  forall upper n ld B, 0 <= n -> n <= ld -> let V := unit_tri upper (at_ (trtri upper n ld B) ld) in let U := unit_tri upper (at_ B ld) in
  (forall i j, 0 <= i < n -> 0 <= j < n -> product n V U i j = kron i j /\ product n U V i j = kron i j) /\
  (forall p, (forall i j, 0 <= i < n -> 0 <= j < n -> (if upper then i < j else j < i) -> p <> i + j * ld) -> trtri upper n ld B p = B p).
(** a column-major matrix of even size n that is skew *)
Definition skew_array (n : Z) (A : Z -> C) : Prop := forall i j, 0 <= i < n -> 0 <= j < n -> at_ A n j i = Copp (at_ A n i j).
(** a factorisation routine whose results are factorisations *)
Definition factorises (sktrf : Z -> (Z -> C) -> option ((Z -> C) * (Z -> Z))) : Prop :=
  forall n A R piv, 0 <= n -> skew_array n A -> sktrf n A = Some (R, piv) -> factorised true n (at_ A n) R n piv.
