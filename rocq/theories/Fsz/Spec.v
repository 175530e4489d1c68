(** What the tables of a wave function with general spins are meant to hold.  Independent of the code that fills them. *)
From Coq Require Import ZArith List Bool Reals.
From Coquelicot Require Import Complex.
From Verif Require Import Base.ZLoop Base.RSum Pf.Pfaffian Pf.Spec Slater.Model Slater.Spec.
Import ListNotations.
Local Open Scope Z_scope.

(** electron k sits on site eleIdx k with spin eleSpn k (0 up, 1 down); spin-orbitals are site + spin*Nsite *)
Definition spin_orbital (Nsite : Z) (eleIdx eleSpn : Z -> Z) (k : Z) : Z := eleIdx k + eleSpn k * Nsite.
Definition placed (Nsite n : Z) (eleIdx eleSpn : Z -> Z) : Prop :=
  forall k, 0 <= k < n -> 0 <= eleIdx k < Nsite /\ (eleSpn k = 0 \/ eleSpn k = 1).
(** amplitudes between the n electrons, and the tables of Pfaffians and inverses of one configuration *)
Definition pair_matrix_fsz (Nsite : Z) (Sl : Z -> C) (qp : Z) (eleIdx eleSpn : Z -> Z) (i j : Z) : C :=
  Sl (qp * (2 * Nsite) * (2 * Nsite) + spin_orbital Nsite eleIdx eleSpn i * (2 * Nsite) + spin_orbital Nsite eleIdx eleSpn j).
Definition current_fsz (Nsite n : Z) (Sl : Z -> C) (qpStart qpEnd : Z) (eleIdx eleSpn : Z -> Z) (InvM PfM : Z -> C) : Prop :=
  forall q, 0 <= q < qpEnd - qpStart ->
    PfM q = pf (pair_matrix_fsz Nsite Sl (q + qpStart) eleIdx eleSpn) (zrange 0 n) /\
    is_inverse n (stored n InvM q) (pair_matrix_fsz Nsite Sl (q + qpStart) eleIdx eleSpn).
Definition regular_fsz (Nsite n : Z) (Sl : Z -> C) (qpStart qpEnd : Z) (eleIdx eleSpn : Z -> Z) : Prop :=
  forall q, 0 <= q < qpEnd - qpStart -> pf (pair_matrix_fsz Nsite Sl (q + qpStart) eleIdx eleSpn) (zrange 0 n) <> RtoC 0.

(** accepted moves: electron m to site r with spin s (its old spin or the other); two electrons, with whatever old sites *)
Inductive fmove :=
| FOne (m r s : Z)
| FTwo (ma ra s mb rb t : Z) (raOld rbOld : Z).
Definition moved_idx (eleIdx : Z -> Z) (mv : fmove) : Z -> Z :=
  match mv with FOne m r _ => upd eleIdx m r | FTwo ma ra _ mb rb _ _ _ => upd (upd eleIdx ma ra) mb rb end.
Definition moved_spn (eleSpn : Z -> Z) (mv : fmove) : Z -> Z :=
  match mv with FOne m _ s => upd eleSpn m s | FTwo ma _ s mb _ t _ _ => upd (upd eleSpn ma s) mb t end.
Definition place (Nsite r s : Z) : Prop := 0 <= r < Nsite /\ (s = 0 \/ s = 1).
Definition legal_fsz (Nsite n : Z) (mv : fmove) : Prop :=
  match mv with
  | FOne m r s => 0 <= m < n /\ place Nsite r s
  | FTwo ma ra s mb rb t _ _ => 0 <= ma < n /\ 0 <= mb < n /\ ma <> mb /\ place Nsite ra s /\ place Nsite rb t
  end.

(** ** the projected pair function of two spin-orbitals (signs and images as in Slater/Spec.v, spins unchanged) *)
Definition image_fsz (Nsite : Z) (T : qptables) (o m x : Z) : Z := image T o m (x mod Nsite) + (x / Nsite) * Nsite.
Definition pair_fsz (Nsite : Z) (T : qptables) (sl : Z -> C) (o m x y : Z) : C :=
  let x' := image_fsz Nsite T o m x in let y' := image_fsz Nsite T o m y in
  Cmult (RtoC (IZR (sign T o m (x mod Nsite) * sign T o m (y mod Nsite) * OrbitalSgn T x' y'))) (sl (OrbitalIdx T x' y')).
(** antisymmetrised *)
Definition element_fsz (Nsite : Z) (T : qptables) (sl : Z -> C) (o m x y : Z) : C :=
  Cminus (pair_fsz Nsite T sl o m x y) (pair_fsz Nsite T sl o m y x).
(** the amplitude of electrons on the spin-orbitals x 0 .. x (n-1) *)
Definition pfaffian_fsz (S : sizes) (T : qptables) (sl : Z -> C) (x : Z -> Z) (o m : Z) : C :=
  pf (fun i j => element_fsz (Nsite S) T sl o m (x i) (x j)) (zrange 0 (2 * Ne S)).
Definition amplitude_fsz (S : sizes) (T : qptables) (para : Z -> C) (opt : Z -> C) (sl : Z -> C) (x : Z -> Z) : C :=
  csum (zrange 0 (NQPOptTrans S)) (fun o => csum (zrange 0 (NMPTrans S)) (fun m => Cmult (Cmult (opt o) (para m)) (pfaffian_fsz S T sl x o m))).

(** input: no spin projection with general orbitals (readdef.c:629-640); orbital indices given for all pairs of spin-orbitals *)
Definition valid_fsz (S : sizes) (T : qptables) (flag : bool) : Prop :=
  0 < Nsite S /\ 0 < Ne S /\ NSPGaussLeg S = 1 /\ 0 < NMPTrans S /\ 0 < NQPOptTrans S /\ 0 <= NSlater S /\
  (flag = false -> NQPOptTrans S = 1) /\
  (forall o r, 0 <= o < NQPOptTrans S -> 0 <= r < Nsite S -> 0 <= QPOptTrans T o r < Nsite S) /\
  (forall m r, 0 <= m < NMPTrans S -> 0 <= r < Nsite S -> 0 <= QPTrans T m r < Nsite S) /\
  (forall a b, 0 <= a < 2 * Nsite S -> 0 <= b < 2 * Nsite S -> 0 <= OrbitalIdx T a b < NSlater S).
