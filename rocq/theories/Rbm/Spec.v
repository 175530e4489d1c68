(** What a restricted Boltzmann machine factor is, as a function of the occupation numbers only. *)
From Coq Require Import ZArith List Bool Reals.
From Coquelicot Require Import Complex.
From Verif Require Import Base.ZLoop Base.RSum Rbm.Model.
Import ListNotations.
Local Open Scope Z_scope.

Definition below (n : Z) (k : Z) : Prop := 0 <= k < n.

(** what the reader of the definition files guarantees: sizes are not negative and, for the parts that are present,
    the tables contain parameter numbers *)
Record wf_machine (M : machine) : Prop := {
  wf_sizes : 0 <= Nsite M /\ 0 <= NPhysC M /\ 0 <= NPhysS M /\ 0 <= NPhysG M /\ 0 <= NHidC M /\ 0 <= NHidS M /\ 0 <= NHidG M /\
    0 <= NPhC M /\ 0 <= NPhS M /\ 0 <= NPhG M /\ 0 <= NneuronC M /\ 0 <= NneuronS M /\ 0 <= NneuronG M /\ 0 <= NneuronX M;
  wf_physC : 0 < NPhysC M -> forall r, below (Nsite M) r -> below (NPhysC M) (PhysC M r);
  wf_physS : 0 < NPhysS M -> forall r, below (Nsite M) r -> below (NPhysS M) (PhysS M r);
  wf_physG : 0 < NPhysG M -> forall r, below (2 * Nsite M) r -> below (NPhysG M) (PhysG M r);
  wf_hidC : 0 < NHidC M -> forall h, below (NneuronC M) h -> below (NHidC M) (HidC M h);
  wf_hidS : 0 < NHidS M -> forall h, below (NneuronS M) h -> below (NHidS M) (HidS M h);
  wf_hidG : 0 < NHidG M -> forall h, below (NneuronG M) h -> below (NHidG M) (HidG M h);
  wf_phC : 0 < NPhC M -> forall r h, below (Nsite M) r -> below (NneuronC M) h -> below (NPhC M) (PhC M r h);
  wf_phS : 0 < NPhS M -> forall r h, below (Nsite M) r -> below (NneuronS M) h -> below (NPhS M) (PhS M r h);
  wf_phG : 0 < NPhG M -> forall r h, below (2 * Nsite M) r -> below (NneuronG M) h -> below (NPhG M) (PhG M r h)
}.

(** a family with neurons has both its hidden-layer and its coupling tables *)
Definition complete (M : machine) : Prop :=
  (0 < NneuronC M -> 0 < NHidC M /\ 0 < NPhC M) /\ (0 < NneuronS M -> 0 < NHidS M /\ 0 < NPhS M) /\ (0 < NneuronG M -> 0 < NHidG M /\ 0 < NPhG M).

Section Spec.
Variable M : machine.
Let N := Nsite M.
Variable W : Z -> C.          (* the weights: visible, hidden, couplings; each charge, spin, general *)
Variable e : Z -> Z.          (* occupation of site + spin*Nsite *)
(** inputs of the machine *)
Definition charge (r : Z) : Z := e r + e (r + N) - 1.
Definition spin (r : Z) : Z := e r - e (r + N).
Definition general (rs : Z) : Z := 2 * e rs - 1.

(** total input belonging to visible weight k *)
Definition visC (k : Z) : Z := zsum (zrange 0 N) (fun r => if PhysC M r =? k then charge r else 0).
Definition visS (k : Z) : Z := zsum (zrange 0 N) (fun r => if PhysS M r =? k then spin r else 0).
Definition visG (k : Z) : Z := zsum (zrange 0 (2 * N)) (fun r => if PhysG M r =? k then general r else 0).

(** argument of neuron h: bias plus weighted inputs; an absent part contributes nothing *)
Definition thetaC (h : Z) : C := Cplus
  (if 0 <? NHidC M then W (NPhys M + HidC M h) else RtoC 0)
  (if 0 <? NPhC M then csum (zrange 0 N) (fun r => Cmult (W (NPhys M + NHid M + PhC M r h)) (zc (charge r))) else RtoC 0).
Definition thetaS (h : Z) : C := Cplus
  (if 0 <? NHidS M then W (NPhys M + (NHidC M + HidS M h)) else RtoC 0)
  (if 0 <? NPhS M then csum (zrange 0 N) (fun r => Cmult (W (NPhys M + NHid M + (NPhC M + PhS M r h))) (zc (spin r))) else RtoC 0).
Definition thetaG (h : Z) : C := Cplus
  (if 0 <? NHidG M then W (NPhys M + (NHidC M + NHidS M + HidG M h)) else RtoC 0)
  (if 0 <? NPhG M then csum (zrange 0 (2 * N)) (fun r => Cmult (W (NPhys M + NHid M + (NPhC M + NPhS M + PhG M r h))) (zc (general r))) else RtoC 0).

(** the counter vector the program keeps *)
Record is_rbm_cnt (c : Z -> C) : Prop := {
  cnt_visC : forall k, below (NPhysC M) k -> c k = zc (visC k);
  cnt_visS : forall k, below (NPhysS M) k -> c (NPhysC M + k) = zc (visS k);
  cnt_visG : forall k, below (NPhysG M) k -> c (NPhysC M + NPhysS M + k) = zc (visG k);
  cnt_thC : forall h, below (NneuronC M) h -> c (NPhys M + h) = thetaC h;
  cnt_thS : forall h, below (NneuronS M) h -> c (NPhys M + NneuronC M + h) = thetaS h;
  cnt_thG : forall h, below (NneuronG M) h -> c (NPhys M + NneuronC M + NneuronS M + h) = thetaG h;
  cnt_none : forall h, below (NneuronX M) h -> c (NPhys M + NneuronC M + NneuronS M + NneuronG M + h) = RtoC 0
}.

Fixpoint cprod {A : Type} (l : list A) (f : A -> C) : C := match l with [] => RtoC 1 | x :: l => Cmult (f x) (cprod l f) end.
(** the machine: exponential of the visible part times one cosh per neuron *)
Definition visible : C := Cplus (Cplus
  (if 0 <? NPhysC M then csum (zrange 0 N) (fun r => Cmult (W (PhysC M r)) (zc (charge r))) else RtoC 0)
  (if 0 <? NPhysS M then csum (zrange 0 N) (fun r => Cmult (W (NPhysC M + PhysS M r)) (zc (spin r))) else RtoC 0))
  (if 0 <? NPhysG M then csum (zrange 0 (2 * N)) (fun r => Cmult (W (NPhysC M + NPhysS M + PhysG M r)) (zc (general r))) else RtoC 0).
Definition hidden : C := Cmult (Cmult
  (cprod (zrange 0 (NneuronC M)) (fun h => ccosh (thetaC h)))
  (cprod (zrange 0 (NneuronS M)) (fun h => ccosh (thetaS h))))
  (cprod (zrange 0 (NneuronG M)) (fun h => ccosh (thetaG h))).
Definition machine_weight : C := Cmult (cexp visible) hidden.
End Spec.

(** a logarithm: any function inverting the exponential away from zero *)
Definition is_log (clog : C -> C) : Prop := forall z, z <> RtoC 0 -> cexp (clog z) = z.
