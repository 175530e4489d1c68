(** What the definition files of the parameters mean. *)
From Coq Require Import ZArith List Bool String.
From Verif Require Import Base.ZLoop Mem.Model Opt.Model.
From Verif Require File.Spec.
Import ListNotations.
Local Open Scope Z_scope.

(** lines "index flag" *)
Definition flag_lines (l : list (Z * Z)) : list token := flat_map (fun e => [Num (fst e); Num (snd e)]) l.
(** first parameter and number of parameters of a family *)
Definition family (S : sizes) (kw : string) : option (Z * Z) := option_map (fun x => (snd (fst x), snd x)) (File.Spec.place S ("In" ++ kw)).
Definition is_named {A} (o : option A) : bool := match o with Some _ => true | None => false end.
(** readdef.c:484-506: the number of orbital parameters comes from the orbital files *)
Definition orbital_files {A} (S : sizes) (files : string -> option A) : Prop :=
  let named k := is_named (files k) in
  (named "OrbitalGeneral" = true /\ named "Orbital" = false /\ named "OrbitalAntiParallel" = false /\ named "OrbitalParallel" = false /\ iNOrbitalAntiParallel S = 0 /\ iNOrbitalParallel S = 0 \/
   named "OrbitalGeneral" = false /\ NOrbitalIdx S = iNOrbitalAntiParallel S + 2 * iNOrbitalParallel S /\ named "Orbital" && named "OrbitalAntiParallel" = false /\
   (named "Orbital" || named "OrbitalAntiParallel" = false -> iNOrbitalAntiParallel S = 0) /\ (named "OrbitalParallel" = false -> iNOrbitalParallel S = 0))%string%bool.

(** the tables of pair orbitals describe an antisymmetric pairing: equal parameters and opposite signs for exchanged spin orbitals (site + spin * number of sites) *)
Definition antisymmetric (N : Z) (a : orbitals) : Prop :=
  forall x y, 0 <= x < 2 * N -> 0 <= y < 2 * N -> fst a x y = fst a y x /\ snd a x y = - snd a y x.
(** an orbital file: lines of numbers *)
Definition number_lines (l : list (list Z)) : list (list token) := map (map Num) l.
(** lines "site spin site spin parameter sign", "site site parameter sign" *)
Definition general_pair (N : Z) (l : list Z) : Z * Z := match l with [i; s; j; t; _; _] => (i + s * N, j + t * N) | _ => (-1, -1) end.
Definition site_pair (l : list Z) : Z * Z := match l with [i; j; _; _] => (i, j) | _ => (-1, -1) end.
(** lines "site site index" *)
Definition pair_lines (l : list (Z * Z * Z)) : list token := flat_map (fun e => [Num (fst (fst e)); Num (snd (fst e)); Num (snd e)]) l.
