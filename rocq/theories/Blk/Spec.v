(** What block updates are meant to deliver. *)
From Coq Require Import ZArith List Bool Reals.
From Coquelicot Require Import Complex.
From Verif Require Import Base.ZLoop Base.RSum Pf.Pfaffian Pf.Spec Ltl.Model Ltl.Spec Blk.Model.
Import ListNotations.
Local Open Scope Z_scope.

(** the skew matrix whose upper triangle an array holds *)
Definition full (A : Z -> C) (ld i j : Z) : C := if i <? j then at_ A ld i j else if j <? i then Copp (at_ A ld j i) else RtoC 0.
(** the amplitudes between the electrons of a configuration: entry of orbitals c i and c j of the column-major table X *)
Definition amplitudes (norbs : Z) (X : Z -> C) (c : Z -> Z) (i j : Z) : C := at_ X norbs (c i) (c j).

(** what the external routines deliver: a factorisation, and the Pfaffian, of the skew matrix whose upper triangle they are given;
    skpfa has nothing to eliminate in a 2 x 2 matrix and leaves it as it is *)
Definition factorises_upper (sktrf : Z -> Z -> (Z -> C) -> (Z -> C) * (Z -> Z)) : Prop :=
  forall n ld A, Z.Even n -> 0 <= n <= ld -> factorised true n (full A ld) (fst (sktrf n ld A)) ld (snd (sktrf n ld A)).
Definition pfaffian_of_upper (skpfa : Z -> Z -> (Z -> C) -> C * (Z -> C)) : Prop :=
  forall n ld A, Z.Even n -> 0 <= n <= ld -> fst (skpfa n ld A) = pf (full A ld) (zrange 0 n) /\ (n = 2 -> at_ (snd (skpfa n ld A)) ld 0 1 = at_ A ld 0 1).

(** a trial: which electron goes where; what is tried, and what is kept *)
Definition proposed (c : Z -> Z) (t : trial) : Z -> Z :=
  match t with Hop osi msj => upd c msj osi | Pair osi msj osk msl => upd (upd c msj osi) msl osk end.
Definition kept (c : Z -> Z) (t : trial * bool) : Z -> Z := if snd t then proposed c (fst t) else c.
Fixpoint tried (c : Z -> Z) (l : list (trial * bool)) : list (Z -> Z) :=
  match l with [] => [] | t :: l => proposed c (fst t) :: tried (kept c t) l end.
Definition final (c : Z -> Z) (l : list (trial * bool)) : Z -> Z := fold_left kept l c.
Definition legal (norbs n mmax : Z) (t : trial) : Prop :=
  match t with
  | Hop osi msj => 0 <= osi < norbs /\ 0 <= msj < n
  | Pair osi msj osk msl => 2 <= mmax /\ 0 <= osi < norbs /\ 0 <= msj < n /\ 0 <= osk < norbs /\ 0 <= msl < n /\ msj <> msl
  end.
(** every configuration that is kept has a Pfaffian different from zero *)
Fixpoint kept_regular (nonzero : (Z -> Z) -> Prop) (c : Z -> Z) (l : list (trial * bool)) : Prop :=
  match l with [] => True | t :: l => nonzero (kept c t) /\ kept_regular nonzero (kept c t) l end.

(** the sampler's moves on its list of electrons: spin-up electrons first, then spin-down ones *)
Definition moved (Ne : Z) (eleIdx : Z -> Z) (mv : smove) : Z -> Z :=
  match mv with
  | SHop mi s rj => upd eleIdx (mi + s * Ne) rj
  | SExchange mi s ri rj mj => upd (upd eleIdx (mi + s * Ne) rj) (mj + (1 - s) * Ne) ri
  end.
Fixpoint visited (Ne : Z) (e : Z -> Z) (l : list (smove * bool)) : list (Z -> Z) :=
  match l with [] => [] | (mv, a) :: l => moved Ne e mv :: visited Ne (if a : bool then moved Ne e mv else e) l end.
Definition possible (Nsite Ne mmax : Z) (mv : smove) : Prop :=
  match mv with
  | SHop mi s rj => electron Ne mi s /\ 0 <= rj < Nsite
  | SExchange mi s ri rj mj => 2 <= mmax /\ electron Ne mi s /\ 0 <= mj < Ne /\ 0 <= ri < Nsite /\ 0 <= rj < Nsite
  end.
Fixpoint stays_regular (Ne : Z) (nonzero : (Z -> Z) -> Prop) (e : Z -> Z) (l : list (smove * bool)) : Prop :=
  match l with [] => nonzero e | (mv, a) :: l => nonzero e /\ stays_regular Ne nonzero (if a : bool then moved Ne e mv else e) l end.
(** the sign between what the updaters deliver and the Pfaffian of the amplitudes, the same for all configurations *)
Definition turned (Ne : Z) (z : C) : C := if Z.even Ne then Copp z else z.
