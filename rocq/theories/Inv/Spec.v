(** What it means that operators and measured values respect a lattice symmetry.  Nothing here mentions how the program computes them. *)
From Coq Require Import ZArith List Bool Reals Permutation.
From Coquelicot Require Import Complex.
From Verif Require Import Base.ZLoop Base.RSum Proj.Model Proj.Spec Slater.Model Slater.Spec Rbm.Model Rbm.Spec Green.Spec Ham.Model Ham.Spec Grd.Spec Sym.Spec.
Import ListNotations.
Local Open Scope Z_scope.

Section Spec.
Variables (V : wave) (g : Z).
Notation N := (sites V).
(** where transformation g takes a spin-orbital, and the sign collected *)
Definition carried (rs : Z) : Z := lifted N (QPTrans (vQ V) g) rs.
Definition carried_sign (rs : Z) : R := IZR (QPTransSgn (vQ V) g (rs mod N)).
(** c+_a c_b becomes c+_ga c_gb, with both signs *)
Definition carried_string (ops : list (Z * Z)) : list (Z * Z) := map (fun ab => (carried (fst ab), carried (snd ab))) ops.
Definition string_sign (ops : list (Z * Z)) : R := fold_right (fun ab r => carried_sign (fst ab) * carried_sign (snd ab) * r)%R 1%R ops.
Definition carried_observable (O : observable) : observable := map (fun t => (Cmult (fst t) (RtoC (string_sign (snd t))), carried_string (snd t))) O.
(** <f| O |x> *)
Definition applied (O : observable) (f : (Z -> Z) -> C) (x : Z -> Z) : C := csum O (fun t => Cmult (fst t) (Cconj (string V (snd t) f x))).
(** the transformation leaves the operator as it is *)
Definition invariant (O : observable) : Prop := forall f u, In u (configurations V) -> applied (carried_observable O) f (conf u) = applied O f (conf u).
(** <psi|O|psi> / <psi|psi> *)
Definition expectation (O : observable) : C := Cdiv (Grd.Spec.element V O (psi V) (psi V)) (RtoC (norm V (psi V))).

(** ** definition files that do not distinguish equivalent sites *)
Notation p := (QPTrans (vQ V) g).
Notation sg := (fun r => IZR (QPTransSgn (vQ V) g r)).
(** the bond between two sites, whichever is named first *)
Definition bond (i j : Z) : Z * Z := (Z.min i j, Z.max i j).
(** a list of rows is the same after the transformation *)
Definition kept {A} (n : Z) (row image : Z -> A) : Prop := Permutation (map image (zrange 0 n)) (map row (zrange 0 n)).
Record symmetric_files (H : terms) : Prop := {
  sf_intra : kept (NIntra H) (fun k => (ParaIntra H k, Intra H k)) (fun k => (ParaIntra H k, p (Intra H k)));
  sf_inter : kept (NInter H) (fun k => (ParaInter H k, bond (Inter H k 0) (Inter H k 1))) (fun k => (ParaInter H k, bond (p (Inter H k 0)) (p (Inter H k 1))));
  sf_hund : kept (NHund H) (fun k => (ParaHund H k, bond (Hund H k 0) (Hund H k 1))) (fun k => (ParaHund H k, bond (p (Hund H k 0)) (p (Hund H k 1))));
  (* hoppings across an antiperiodic boundary change sign *)
  sf_transfer : kept (NTransfer H) (fun k => (ParaTransfer H k, (Transfer H k 0, Transfer H k 1, Transfer H k 2, Transfer H k 3)))
    (fun k => (Cmult (ParaTransfer H k) (RtoC (sg (Transfer H k 0) * sg (Transfer H k 2))), (p (Transfer H k 0), Transfer H k 1, p (Transfer H k 2), Transfer H k 3)));
  sf_pair : kept (NPair H) (fun k => (ParaPair H k, (Pair H k 0, Pair H k 1))) (fun k => (ParaPair H k, (p (Pair H k 0), p (Pair H k 1))));
  sf_exchange : kept (NExchange H) (fun k => (ParaExchange H k, bond (Exchange H k 0) (Exchange H k 1))) (fun k => (ParaExchange H k, bond (p (Exchange H k 0)) (p (Exchange H k 1))));
  sf_interall : kept (NInterAll H) (fun k => let c := InterAll H k in (ParaInterAll H k, (c 0, c 1, c 2, c 3, (c 4, c 5, c 6, c 7))))
    (fun k => let c := InterAll H k in (Cmult (ParaInterAll H k) (RtoC (sg (c 0%Z) * sg (c 2%Z) * (sg (c 4%Z) * sg (c 6%Z)))), (p (c 0), c 1, p (c 2), c 3, (p (c 4), c 5, p (c 6), c 7))))
}.
End Spec.
