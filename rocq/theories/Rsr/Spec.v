(** What the optimisation step is when every parameter is real: the covariances of the real derivatives. *)
From Coq Require Import ZArith List Bool Reals.
From Coquelicot Require Import Complex.
From Verif Require Import Base.ZLoop Base.RSum SR.Model SR.Spec.
Local Open Scope Z_scope.

(** real part of the derivative with respect to the real part of parameter p (cell 2p+2 of the derivative array) *)
Definition reO (p : Z) (x : sample) : R := fst (der x (2 * p + 2)).
(** covariance of the real derivatives of parameters p and q *)
Definition rcov (l : list sample) (p q : Z) : R :=
  (rmean l (fun x => reO p x * reO q x) - rmean l (reO p) * rmean l (reO q))%R.
(** covariance of the energy with the derivative of parameter p *)
Definition rforce (l : list sample) (p : Z) : R :=
  let E := rmean l (fun x => fst (ene x)) in
  rmean l (fun x => (fst (ene x) - E) * (reO p x - rmean l (reO p)))%R.
(** the derivatives of the listed parameters have no imaginary part *)
Definition real_derivatives (l : list sample) (n : Z) (par : Z -> Z) : Prop :=
  forall x k, In x (counted l) -> 0 <= k < n -> snd (der x (2 * par k + 2)) = 0%R.
(** component 2p is the real part of parameter p, component 2p+1 its imaginary part; s optimises component c *)
Definition optimises (s : selection) (c : Z) : Prop := exists k, 0 <= k < nSmat s /\ smatToParaIdx s k = c.
