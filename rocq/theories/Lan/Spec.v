(** Sample estimates for the state (1 + alpha H)|psi>.  At a sampled configuration x its amplitude relative to <psi|x> is 1 + alpha h1, where
    h1 = <psi|H|x>/<psi|x>, and the local values of H and of A between it and x are h1 + alpha h2 and A + alpha HA. *)
From Coq Require Import ZArith List Reals.
From Coquelicot Require Import Coquelicot.
From Verif Require Import Base.RSum Lan.Model.
Local Open Scope R_scope.

Definition amp (a : R) (s : sample) : C := Cplus (RtoC 1) (Cmult (RtoC a) (sh1 s)).
Definition h_amp (a : R) (s : sample) : C := Cplus (sh1 s) (Cmult (RtoC a) (sh2 s)).
Definition norm (l : list sample) (a : R) : R := rsum l (fun s => sw s * Cmod (amp a s) ^ 2).
(** energy and mean square of H *)
Definition energy (l : list sample) (a : R) : R := rsum l (fun s => sw s * fst (Cmult (Cconj (amp a s)) (h_amp a s))) / norm l a.
Definition square (l : list sample) (a : R) : R := rsum l (fun s => sw s * Cmod (h_amp a s) ^ 2) / norm l a.
(** expectation value of operator number i *)
Definition value (l : list sample) (i : Z) (a : R) : C :=
  Cdiv (csum l (fun s => Cmult (RtoC (sw s)) (Cmult (Cconj (amp a s)) (Cplus (sA s i) (Cmult (RtoC a) (sHA s i)))))) (RtoC (norm l a)).
(** the state does not vanish for any mixing *)
Definition positive (l : list sample) : Prop := (forall s, In s l -> 0 < sw s) /\ l <> nil /\ forall a, 0 < norm l a.
(** real samples *)
Definition embed (s : rsample) : sample := Sample (rw s) (RtoC (rh1 s)) (RtoC (rh2 s)) (fun i => RtoC (rA s i)) (fun i => RtoC (rHA s i)).
(** E is stationary and minimal at a *)
Definition minimum (E : R -> R) (a : R) : Prop := is_derive E a 0 /\ forall b, E a <= E b.
