(** What the file of additional transformations states. *)
From Coq Require Import ZArith List Bool Reals.
From Verif Require Import Sym.Model Sym.Spec.
Import ListNotations.
Local Open Scope Z_scope.

(** one weight for every transformation *)
Definition factors_ok (n : Z) (ws : list (Z * R)) : Prop := Z.of_nat (length ws) = n /\ (forall w, In w ws -> site n (fst w)) /\ NoDup (map fst ws).
(** the table has a line for every transformation and site *)
Definition complete_table (n N : Z) (rows : list row) : Prop := forall i j, site n i -> site N j -> exists r, In r rows /\ rtr r = i /\ rsite r = j.
