(** Specification vocabulary for the parameter renormalisation. *)
From Coq Require Import ZArith List Bool Reals.
From Coquelicot Require Import Complex.
From Verif Require Import Base.ZLoop Base.RSum Proj.Model Proj.Spec Para.Model.
Import ListNotations.
Local Open Scope Z_scope.

(** number of electrons of a configuration *)
Definition electrons (N : Z) (e : Z -> Z) : Z := zsum (zrange 0 (2 * N)) e.
(** parameter i is being optimised (its real component) *)
Definition optimised (OptFlag : Z -> Z) (i : Z) : Prop := OptFlag (2 * i) = 1.
(** m is the largest modulus among a_0 .. a_{n-1} *)
Definition is_max_mod (n : Z) (a : Z -> C) (m : R) : Prop :=
  (exists i, 0 <= i < n /\ Cmod (a i) = m) /\ forall i, 0 <= i < n -> (Cmod (a i) <= m)%R.
(** a' is a multiple of a by one positive real *)
Definition rescaled (n : Z) (a a' : Z -> C) : Prop :=
  exists c, (0 < c)%R /\ forall i, 0 <= i < n -> a' i = Cmult (RtoC c) (a i).
(** the centred form of the correlation factors: for each shift flag that is set, the real parts of the factors of one
    doublon-holon shape, of one of its two kinds (around a holon, around a doublon), add to zero, and so do those of the
    Gutzwiller and Jastrow factors together *)
Record centred (T : tables) (F : flags) (q : Z -> C) : Prop := {
  c_2 : fDH2 F = 1 -> forall xn, 0 <= xn < 2 * NDoublonHolon2siteIdx T ->
    let n0 := NGutzwillerIdx T + NJastrowIdx T + xn in
    (fst (q n0) + fst (q (n0 + 2 * NDoublonHolon2siteIdx T)%Z) + fst (q (n0 + 4 * NDoublonHolon2siteIdx T)%Z) = 0)%R;
  c_4 : fDH4 F = 1 -> forall xn, 0 <= xn < 2 * NDoublonHolon4siteIdx T ->
    let n0 := NGutzwillerIdx T + NJastrowIdx T + 6 * NDoublonHolon2siteIdx T + xn in let M := NDoublonHolon4siteIdx T in
    (fst (q n0) + fst (q (n0 + 2 * M)%Z) + fst (q (n0 + 4 * M)%Z) + fst (q (n0 + 6 * M)%Z) + fst (q (n0 + 8 * M)%Z) = 0)%R;
  c_gj : fGJ F = 1 -> 0 < NGutzwillerIdx T -> 0 < NJastrowIdx T ->
    rsum (zrange 0 (NGutzwillerIdx T + NJastrowIdx T)) (fun i => fst (q i)) = 0%R
}.
