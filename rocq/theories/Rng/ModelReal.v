(** Reals from 32-bit words, in binary64 with rounding to nearest even. *)
From Coq Require Import ZArith Reals.
From Flocq Require Import Core.
Local Open Scope R_scope.
Definition rnd : R -> R := round radix2 (FLT_exp (-1074) 53) ZnearestE.
(** SFMT.h:100-104 to_real2: v is converted to double, the constant is a double, the product is rounded *)
Definition to_real2 (v : Z) : R := rnd (rnd (IZR v) * rnd (1 / IZR 4294967296)).
