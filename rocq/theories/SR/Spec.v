(** Specification vocabulary for stochastic reconfiguration. *)
From Coq Require Import ZArith List Bool Reals.
From Coquelicot Require Import Complex.
From Verif Require Import Base.ZLoop Base.RSum SR.Model.
Import ListNotations.
Local Open Scope Z_scope.

(** all samples of all groups, and those that count *)
Definition all_samples (groups N : Z) (smp : Z -> Z -> sample) : list sample :=
  flat_map (fun g => map (smp g) (zrange 0 N)) (zrange 0 groups).
Definition counted (l : list sample) : list sample := filter ok l.
Definition total_weight (l : list sample) : R := rsum (counted l) wgt.
(** weighted averages over the samples that count *)
Definition rmean (l : list sample) (f : sample -> R) : R := (rsum (counted l) (fun x => wgt x * f x) / total_weight l)%R.
Definition cmean (l : list sample) (f : sample -> C) : C :=
  Cdiv (csum (counted l) (fun x => Cmult (RtoC (wgt x)) (f x))) (RtoC (total_weight l)).

(** the averages the linear system is built from: <O_j conj(O_i)> and <e O_j> *)
Definition is_average (S : Z) (l : list sample) (OO HO : Z -> C) : Prop :=
  (forall i j, 0 <= i < 2 * S -> 0 <= j < 2 * S ->
     OO (i * (2 * S) + j) = cmean l (fun x => Cmult (srOptO x j) (Cconj (srOptO x i)))) /\
  (forall j, 0 <= j < 2 * S -> HO j = cmean l (fun x => Cmult (ene x) (srOptO x j))).

(** derivative of component p of the parameters *)
Definition dO (p : Z) (x : sample) : C := der x (p + 2).
(** covariance of the derivatives of components p and q: mean of Re(O_p conj(O_q)) minus the product of the mean real parts *)
Definition covO (l : list sample) (p q : Z) : R :=
  (rmean l (fun x => fst (Cmult (dO p x) (Cconj (dO q x)))) - rmean l (fun x => fst (dO p x)) * rmean l (fun x => fst (dO q x)))%R.
(** the force on component p: the mean of Re((e - E)(O_p - <O_p>)), E and <O_p> the mean real parts *)
Definition force (l : list sample) (p : Z) : R :=
  let E := rmean l (fun x => fst (ene x)) in
  let Op := rmean l (fun x => fst (dO p x)) in
  rmean l (fun x => fst (Cmult (Cminus (ene x) (RtoC E)) (Cminus (dO p x) (RtoC Op)))).

(** a component is fixed by its flag, cut because its diagonal is too small, or optimised *)
Definition is_fixed (OptFlag : Z -> Z) (p : Z) : Prop := OptFlag p <> 1.
Definition is_cut (OptFlag : Z -> Z) (r : Z -> R) (thr : R) (p : Z) : Prop := OptFlag p = 1 /\ (r p < thr)%R.
Definition is_free (OptFlag : Z -> Z) (r : Z -> R) (thr : R) (p : Z) : Prop := OptFlag p = 1 /\ (thr <= r p)%R.
(** m is the maximum of r over [0,n) *)
Definition is_rmax (n : Z) (r : Z -> R) (m : R) : Prop :=
  (exists i, 0 <= i < n /\ r i = m) /\ forall i, 0 <= i < n -> (r i <= m)%R.

(** component p of a complex parameter vector: even real parts, odd imaginary parts *)
Definition component (para : Z -> C) (p : Z) : R := if p mod 2 =? 0 then fst (para (p / 2)) else snd (para (p / 2)).

(** a complete schedule of the update loop: every iteration loads and stores exactly once, the load first *)
Definition complete_schedule (n : Z) (sched : list event) : Prop :=
  NoDup sched /\ (forall si, In (Rd si) sched <-> 0 <= si < n) /\ (forall si, In (Wr si) sched <-> 0 <= si < n) /\
  forall pre post si, sched = pre ++ Wr si :: post -> In (Rd si) pre.

(** y solves the linear system M y = g up to a squared residual of less than eps *)
Definition solves (n : Z) (M : Z -> Z -> R) (g y : Z -> R) (eps : R) : Prop :=
  (rsum (zrange 0 n) (fun i => Rsqr (g i - rsum (zrange 0 n) (fun j => M i j * y j))) < eps)%R.
Definition pos_def (n : Z) (M : Z -> Z -> R) : Prop :=
  forall x, (exists i, 0 <= i < n /\ x i <> 0%R) -> (0 < rsum (zrange 0 n) (fun i => rsum (zrange 0 n) (fun j => x i * M i j * x j)))%R.
Definition pos_semidef (n : Z) (M : Z -> Z -> R) : Prop :=
  forall x, (0 <= rsum (zrange 0 n) (fun i => rsum (zrange 0 n) (fun j => x i * M i j * x j)))%R.
Definition symmetric (n : Z) (M : Z -> Z -> R) : Prop := forall i j, 0 <= i < n -> 0 <= j < n -> M i j = M j i.

(** what sample x contributes to cell k of the block of observables: one-body functions, then products of one-body
    functions (first times conjugate of second), then two-body functions *)
Definition green_cell (N1 N2 : Z) (ca : Z -> Z * Z) (x : sample) (k : Z) : C :=
  if k <? N1 then grn1 x k
  else if k <? N1 + N2 then Cmult (grn1 x (fst (ca (k - N1)))) (Cconj (grn1 x (snd (ca (k - N1)))))
  else grn2 x (k - N1 - N2).

(** slot s of the optimisation record holds energy, energy squared and the parameters of o *)
Definition slot_holds (NPara s : Z) (o : optdata) (data : Z -> C) : Prop :=
  data ((2 + NPara) * s) = oE o /\ data ((2 + NPara) * s + 1) = oE2 o /\
  forall i, 0 <= i < NPara -> data ((2 + NPara) * s + 2 + i) = oPara o i.

(** in conjugate-gradient mode row 0 holds the means and row 1 the mean squares *)
Definition is_average_cg (S : Z) (l : list sample) (OO HO : Z -> C) : Prop :=
  forall j, 0 <= j < 2 * S ->
  OO j = cmean l (fun x => srOptO x j) /\ OO (2 * S + j) = cmean l (fun x => Cmult (srOptO x j) (Cconj (srOptO x j))) /\
  HO j = cmean l (fun x => Cmult (ene x) (srOptO x j)).

(** the stabilised covariance matrix of the selected components *)
Definition covMat (l : list sample) (idx : Z -> Z) (del : R) (i j : Z) : R := (covO l (idx i) (idx j) * (if i =? j then 1 + del else 1))%R.
