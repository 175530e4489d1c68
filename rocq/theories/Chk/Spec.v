(** What consistent settings are. *)
From Coq Require Import ZArith Bool.
From Verif Require Import Base.ZLoop Chk.Model.
Local Open Scope Z_scope.

Definition even (k : Z) : Prop := exists h, k = 2 * h.
(** the number of electrons that the settings state: local spins and conduction electrons, or twice Ne *)
Definition electrons (s : settings) : Z := if sNCond s =? -1 then 2 * sNe s else sNLocSpin s + sNCond s.
Record consistent (s : settings) : Prop := {
  c_number : sNCond s <> -1 -> even (sNCond s) /\ even (electrons s);
  c_spin : sTwoSz s <> 0 -> sGeneral s = true /\ (sTwoSz s = -1 \/ even (sTwoSz s));
  c_lanczos : sGeneral s = true -> sLanczos s = 0;
  c_local : 0 < sNLocSpin s -> sNLocSpin s <= electrons s /\ sPath s <> 0 /\ (sNLocSpin s = electrons s -> sPath s = 2)
}.
(** the electrons can have the spin (-1: not fixed) *)
Definition possible_spin (s : settings) : Prop := sTwoSz s = -1 \/ Z.abs (sTwoSz s) <= electrons s.
(** twice the total spin of n electrons with spins 0 (up) or 1 (down) *)
Definition spin_sum (n : Z) (spn : Z -> Z) : Z := zsum (zrange 0 n) (fun x => 1 - 2 * spn x).
