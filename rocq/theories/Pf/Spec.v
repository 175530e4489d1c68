(** What the pair-matrix tables are meant to hold.  Independent of the update code.
    [pf A l] (Pfaffian.v) is the Pfaffian of the entries A i j, i,j in l, by expansion along the first row;
    [csum l f] is the sum of f over l. *)
From Coq Require Import ZArith List Bool Reals.
From Coquelicot Require Import Complex.
From Verif Require Import Base.ZLoop Base.RSum Pf.Pfaffian.
Import ListNotations.
Local Open Scope Z_scope.

(** electron k of the list (the first Ne are up, the rest down) on the spin-orbital site + spin*Nsite *)
Definition orbital (Nsite Ne : Z) (eleIdx : Z -> Z) (k : Z) : Z := eleIdx k + (k / Ne) * Nsite.
(** the pair amplitudes between the electrons of the list for one projection *)
Definition pair_matrix (Nsite Ne : Z) (Sl : Z -> C) (qp : Z) (eleIdx : Z -> Z) (i j : Z) : C :=
  Sl (qp * (2 * Nsite) * (2 * Nsite) + orbital Nsite Ne eleIdx i * (2 * Nsite) + orbital Nsite Ne eleIdx j).
(** the table of amplitudes is skew-symmetric (C25) *)
Definition skew_table (Nsite : Z) (Sl : Z -> C) (qp : Z) : Prop :=
  forall x y, 0 <= x < 2 * Nsite -> 0 <= y < 2 * Nsite ->
    Sl (qp * (2 * Nsite) * (2 * Nsite) + y * (2 * Nsite) + x) = Copp (Sl (qp * (2 * Nsite) * (2 * Nsite) + x * (2 * Nsite) + y)).
Definition on_lattice (Nsite N : Z) (eleIdx : Z -> Z) : Prop := forall k, 0 <= k < N -> 0 <= eleIdx k < Nsite.

Definition kron (i j : Z) : C := if i =? j then RtoC 1 else RtoC 0.
(** X is the inverse of M on 0..N-1 and is skew-symmetric *)
Definition is_inverse (N : Z) (X M : Z -> Z -> C) : Prop :=
  (forall i j, 0 <= i < N -> 0 <= j < N -> csum (zrange 0 N) (fun k => Cmult (X i k) (M k j)) = kron i j) /\
  (forall i j, 0 <= i < N -> 0 <= j < N -> csum (zrange 0 N) (fun k => Cmult (M i k) (X k j)) = kron i j) /\
  (forall i j, 0 <= i < N -> 0 <= j < N -> X j i = Copp (X i j)).
(** the stored slice of projection q *)
Definition stored (N : Z) (InvM : Z -> C) (q i j : Z) : C := InvM (q * N * N + i * N + j).
(** tables of one configuration: for every projection handled here, the Pfaffian and the inverse of its pair matrix *)
Definition current (Nsite Ne : Z) (Sl : Z -> C) (qpStart qpEnd : Z) (eleIdx : Z -> Z) (InvM PfM : Z -> C) : Prop :=
  forall q, 0 <= q < qpEnd - qpStart ->
    PfM q = pf (pair_matrix Nsite Ne Sl (q + qpStart) eleIdx) (zrange 0 (2 * Ne)) /\
    is_inverse (2 * Ne) (stored (2 * Ne) InvM q) (pair_matrix Nsite Ne Sl (q + qpStart) eleIdx).
(** no Pfaffian of the configuration vanishes *)
Definition regular (Nsite Ne : Z) (Sl : Z -> C) (qpStart qpEnd : Z) (eleIdx : Z -> Z) : Prop :=
  forall q, 0 <= q < qpEnd - qpStart -> pf (pair_matrix Nsite Ne Sl (q + qpStart) eleIdx) (zrange 0 (2 * Ne)) <> RtoC 0.

(** accepted moves: electron (m,s) to site r; or two electrons, with whatever old sites are passed along *)
Inductive move :=
| One (m s r : Z)
| Two (ma s ra mb t rb : Z) (raOld rbOld : Z).
Definition moved (Ne : Z) (eleIdx : Z -> Z) (mv : move) : Z -> Z :=
  match mv with
  | One m s r => upd eleIdx (m + s * Ne) r
  | Two ma s ra mb t rb _ _ => upd (upd eleIdx (ma + s * Ne) ra) (mb + t * Ne) rb
  end.
Definition electron (Ne m s : Z) : Prop := 0 <= m < Ne /\ (s = 0 \/ s = 1).
Definition legal (Nsite Ne : Z) (mv : move) : Prop :=
  match mv with
  | One m s r => electron Ne m s /\ 0 <= r < Nsite
  | Two ma s ra mb t rb _ _ => electron Ne ma s /\ electron Ne mb t /\ ma + s * Ne <> mb + t * Ne /\ 0 <= ra < Nsite /\ 0 <= rb < Nsite
  end.
