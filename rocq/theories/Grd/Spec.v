(** Energies of wave functions as sums over all configurations, and exact averages.  Independent of the program. *)
From Coq Require Import ZArith List Bool Reals.
From Coquelicot Require Import Complex.
From Verif Require Import Base.ZLoop Base.RSum Proj.Model Slater.Model Slater.Spec Rbm.Model Rbm.Spec Samp.Model Samp.Spec Green.Model Green.Spec Ham.Model Ham.Spec SR.Model SR.Spec Grd.Model.
Import ListNotations.
Local Open Scope Z_scope.

(** the parameters with component c shifted by t: even components are real parts, odd ones imaginary parts *)
Definition shifted (P : Z -> C) (c : Z) (t : R) : Z -> C := if c mod 2 =? 0 then shift_re P (c / 2) t else shift_im P (c / 2) t.

(** ** configurations *)
(** all lists of n values taken from l *)
Fixpoint words {A} (l : list A) (n : nat) : list (list A) :=
  match n with O => [[]] | S n => flat_map (fun a => map (cons a) (words l n)) l end.
(** the sites of the electrons, as a function of the electron *)
Definition conf (l : list Z) (m : Z) : Z := if 0 <=? m then nth (Z.to_nat m) l 0 else 0.
Section Energy.
Variable V : wave.
Definition configurations : list (list Z) := words (zrange 0 (sites V)) (Z.to_nat (2 * Slater.Model.Ne (vS V))).
(** <f|O|g> *)
Definition element (O : observable) (f g : (Z -> Z) -> C) : C :=
  csum configurations (fun l => Cmult (csum O (fun t => Cmult (fst t) (Cconj (string V (snd t) f (conf l))))) (g (conf l))).
Definition norm (f : (Z -> Z) -> C) : R := rsum configurations (fun l => Rsqr (Cmod (f (conf l)))).
Definition energy (O : observable) (f : (Z -> Z) -> C) : R := (fst (element O f f) / norm f)%R.
Definition self_adjoint (O : observable) : Prop := forall f g, element O f g = Cconj (element O g f).
(** (files_hermitian of Uhf/Spec.v says that every hopping and four-operator row comes with its adjoint, every pair hopping with the opposite one) *)
(** the mean of F with weight |f|^2 *)
Definition mean (f : (Z -> Z) -> C) (F : list Z -> R) : R := (rsum configurations (fun l => Rsqr (Cmod (f (conf l))) * F l)%R / norm f)%R.
(** what the configurations x with f(x) = 0 contribute to Re <f|O|d> / <f|f> *)
Definition missed (O : observable) (f : (Z -> Z) -> C) (d : list Z -> C) : R :=
  (fst (csum configurations (fun l => if Ceq_dec (f (conf l)) (RtoC 0) then Cmult (csum O (fun t => Cmult (fst t) (Cconj (string V (snd t) f (conf l))))) (d l) else RtoC 0)) / norm f)%R.
(** no two electrons on the same spin-orbital *)
Definition distinct (x : Z -> Z) : Prop := forall m m', In m (labels V) -> In m' (labels V) -> orb V x m = orb V x m' -> m = m'.
End Energy.

(** ** samples *)
(** what the program evaluates for the configuration x: local energy and derivatives; junk is what the vector held before *)
Definition evaluated (V : wave) (H : terms) (s : sample) (x : Z -> Z) : Prop :=
  exists K w rcnt ip S junk, sampled V K w rcnt ip /\ execution (count H) S /\ (forall m, Samp.Model.eleIdx w m = x m) /\
  calculate_hamiltonian (env_of V K) H ip (Samp.Model.eleCfg w) (Samp.Model.eleNum w) (eleProjCnt w) rcnt S (Samp.Model.eleIdx w) = Some (ene s) /\
  sr_opt_o (vS V) (vQ V) (NProj (vT V)) (vFlagRBM V) (vM V) (angles_of V (sopt0 K)) (sInvM K) (sPfM K) ip (Samp.Model.eleIdx w) (Samp.Model.eleNum w) (eleProjCnt w) rcnt junk = Some (der s).
(** the averages over the samples that count, taken in the configurations xs, are the exact ones *)
Definition unbiased (V : wave) (l : list sample) (xs : list (list Z)) : Prop :=
  length xs = length (counted l) /\ total_weight l <> 0%R /\
  forall F, (rsum (combine (counted l) xs) (fun sx => wgt (fst sx) * F (snd sx)) / total_weight l = mean V (psi V) F)%R.
(** d gives the derivatives with respect to component c of the parameters at the zeros of the wave function.
    (Configurations with two electrons on one spin-orbital always have amplitude 0.) *)
Definition node_derivatives (V : wave) (P : Z -> C) (c : Z) (d : list Z -> C) : Prop :=
  forall l, In l (configurations V) -> distinct V (conf l) -> psi (with_para V P) (conf l) = RtoC 0 ->
  derivative (fun t => psi (with_para V (shifted P c t)) (conf l)) (d l).
(** moving component c does not lift a zero of the wave function to first order *)
Definition flat_nodes (V : wave) (P : Z -> C) (c : Z) : Prop := node_derivatives V P c (fun _ => RtoC 0).
