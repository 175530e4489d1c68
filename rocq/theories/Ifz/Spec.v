(** Lattice symmetry of wave functions with general spins.  Nothing here mentions how the program computes them. *)
From Coq Require Import ZArith List Bool Reals.
From Coquelicot Require Import Complex.
From Verif Require Import Base.ZLoop Base.RSum Pf.Pfaffian Slater.Model Slater.Spec Rbm.Model Rbm.Spec Green.Spec Ham.Model Grd.Spec Fsz.Spec Gfz.Spec Hfz.Spec Sym.Spec Inv.Spec.
Import ListNotations.
Local Open Scope Z_scope.

(** the lattice, transformations, weights and correlation factors, for which Sym/Spec.v says what a symmetry is; no machine, no spin projection *)
Definition lattice (V : fwave) : wave := {| vS := fS V; vQ := fQ V; vstot := 0; vbeta := fun _ => 0%R; vweight := fun _ => 0%R; vpara := fpara V; vflag := fflag V; vopt := fopt V; vsl := fsl V;
  vT := fT V; vProj := fProj V; vFlagRBM := false;
  vM := Machine (Slater.Model.Nsite (fS V)) 0 0 0 0 0 0 0 0 0 0 0 0 0 (fun _ => 0) (fun _ => 0) (fun _ => 0) (fun _ => 0) (fun _ => 0) (fun _ => 0) (fun _ _ => 0) (fun _ _ => 0) (fun _ _ => 0); vRBM := fun _ => RtoC 0 |}.
Definition fsymmetry (V : fwave) (g : Z) : Prop := symmetry (lattice V) g.
Section Spec.
Variables (V : fwave) (g : Z).
(** every electron moves with its spin; the signs collected *)
Definition fmoved (x : Z -> Z) : Z -> Z := fun i => carried (lattice V) g (x i).
Definition fcollected (x : Z -> Z) : C := cprod (flabels V) (fun i => RtoC (carried_sign (lattice V) g (x i))).
(** <f| O |x> *)
Definition fapplied (O : observable) (f : (Z -> Z) -> C) (x : Z -> Z) : C := csum O (fun t => Cmult (fst t) (Cconj (fstring (flabels V) (snd t) f x))).
(** the transformation leaves the operator as it is *)
Definition finvariant (O : observable) : Prop := forall f x, fapplied (carried_observable (lattice V) g O) f x = fapplied O f x.
(** all configurations: the spin-orbitals of electrons 0, 1, ... *)
Definition fconfigurations : list (list Z) := words (zrange 0 (2 * fsites V)) (Z.to_nat (2 * Slater.Model.Ne (fS V))).
(** <psi| O |psi> / <psi|psi> *)
Definition fexpectation (O : observable) : C :=
  Cdiv (csum fconfigurations (fun u => Cmult (fapplied O (fpsi V) (conf u)) (fpsi V (conf u)))) (csum fconfigurations (fun u => Cmult (Cconj (fpsi V (conf u))) (fpsi V (conf u)))).
End Spec.
