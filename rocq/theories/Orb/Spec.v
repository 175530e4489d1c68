(** What starting orbitals are meant to be. *)
From Coq Require Import ZArith List Bool Reals.
From Coquelicot Require Import Complex.
From Verif Require Import Base.ZLoop Base.RSum Pf.Pfaffian.
Import ListNotations.
Local Open Scope Z_scope.

(** the Slater determinant of the orbitals phi_1 .. phi_n on the spin-orbitals l, expanded along the first orbital: the sum over the
    elements z of l of +- phi_1(z) times the determinant of the others on l without z *)
Definition vacuum (l : list Z) : C := match l with [] => RtoC 1 | _ => RtoC 0 end.
Definition first_orbital (phi : Z -> C) (f : list Z -> C) (l : list Z) : C := psum l (fun z r => Cmult (phi z) (f r)).
Fixpoint determinant (phis : list (Z -> C)) : list Z -> C :=
  match phis with [] => vacuum | phi :: phis => first_orbital phi (determinant phis) end.

(** ** parameters are averages over classes of cells *)
From Verif Require Import Orb.Model.
Definition class (T : tables) (cells : list (Z * Z * C)) (k : Z) : list (Z * Z * C) := filter (fun c => Idx T (fst (fst c)) (snd (fst c)) =? k) cells.
Definition mean (T : tables) (cells : list (Z * Z * C)) : C :=
  Cdiv (csum cells (fun c => Cmult (snd c) (RtoC (IZR (Sgn T (fst (fst c)) (snd (fst c))))))) (RtoC (INR (length cells))).
(** indices are below n, or -1 for a cell without parameter *)
Definition legal_cells (n : Z) (T : tables) (cells : list (Z * Z * C)) : Prop := forall c, In c cells -> let k := Idx T (fst (fst c)) (snd (fst c)) in k = -1 \/ 0 <= k < n.
Definition offset (rand : Z -> R) (eps k : Z) : R := (rand k * powerRZ 10 (- eps))%R.

(** ** orbital files: every pair of spin-orbitals x < y once or more, with a class number below n and a sign 1 or -1 that both programs
    read alike (all signs given and anti-periodic boundaries, or no sign but 1) *)
Definition entry := (Z * Z * Z * option Z)%type.
Definition signs_ok (APFlag : bool) (l : list entry) : Prop :=
  (APFlag = true /\ forall e, In e l -> snd e = Some 1 \/ snd e = Some (-1)) \/ (forall e, In e l -> snd e = Some 1 \/ snd e = None).
Definition sign_value (s : option Z) : Z := match s with Some s => s | None => 1 end.
Definition general_entry (Ns : Z) (r : grow) : entry := let '(i, si, j, sj, k, s) := r in (i + si * Ns, j + sj * Ns, k, s).
Definition ap_entry (Ns : Z) (r : row) : entry := let '(i, j, k, s) := r in (i, j + Ns, k, s).
Definition p_entries (Ns NAP : Z) (r : row) : list entry := let '(i, j, k, s) := r in [(i, j, NAP + 2 * k, s); (i + Ns, j + Ns, NAP + 2 * k + 1, s)].
Definition ap_p_entries (Ns NAP : Z) (ap p : list row) : list entry := map (ap_entry Ns) ap ++ flat_map (p_entries Ns NAP) p.
Definition site (Ns i : Z) : Prop := 0 <= i < Ns.
Definition general_file (Ns n : Z) (rows : list grow) : Prop :=
  Z.of_nat (length rows) = Ns * (2 * Ns - 1) /\
  (forall i si j sj k s, In (i, si, j, sj, k, s) rows -> site Ns i /\ site Ns j /\ (si = 0 \/ si = 1) /\ (sj = 0 \/ sj = 1) /\ i + si * Ns < j + sj * Ns /\ 0 <= k < n) /\
  (forall x y, 0 <= x < y -> y < 2 * Ns -> exists k s, In (x, y, k, s) (map (general_entry Ns) rows)).
Definition ap_file (Ns n : Z) (rows : list row) : Prop :=
  Z.of_nat (length rows) = Ns * Ns /\
  (forall i j k s, In (i, j, k, s) rows -> site Ns i /\ site Ns j /\ 0 <= k < n) /\
  (forall i j, site Ns i -> site Ns j -> exists k s, In (i, j, k, s) rows).
Definition p_file (Ns n : Z) (rows : list row) : Prop :=
  2 * Z.of_nat (length rows) = Ns * (Ns - 1) /\
  (forall i j k s, In (i, j, k, s) rows -> 0 <= i < j /\ j < Ns /\ 0 <= k < n) /\
  (forall i j, 0 <= i < j -> j < Ns -> exists k s, In (i, j, k, s) rows).
(** the amplitudes have the symmetry that the file prescribes: c k for all members of class k, up to the signs *)
Definition adapted (F : Z -> Z -> C) (c : Z -> C) (l : list entry) : Prop :=
  forall x y k s, In (x, y, k, s) l -> F x y = Cmult (RtoC (IZR (sign_value s))) (c k).
(** the main program without momentum projection, with the tables it has read *)
From Verif Require Import Slater.Model Slater.Spec.
Definition unprojected (S : sizes) (Q : qptables) (M : tables) : Prop :=
  (forall r, 0 <= r < Nsite S -> image Q 0 0 r = r /\ sign Q 0 0 r = 1) /\ (forall x y, OrbitalIdx Q x y = Idx M x y) /\ (forall x y, OrbitalSgn Q x y = Sgn M x y).
(** a value that is not a number is never used below *)
Definition value (v : option C) : C := match v with Some v => v | None => RtoC 0 end.
(** the rand values are those of a generator of [0,1) *)
Definition unit_interval (rand : Z -> R) : Prop := forall k, (0 <= rand k < 1)%R.
Definition antisymmetric (n : Z) (F : Z -> Z -> C) : Prop := forall x y, 0 <= x < n -> 0 <= y < n -> F y x = Copp (F x y).

(** ** the determinants they stand for *)
From Verif Require Import Uhf.Spec Green.Spec Pf.Spec.
(** v 0, v 1, ... are orthonormal eigenvectors of A, eigenvalues in ascending order *)
Definition eigenorbitals (n : Z) (A : Z -> Z -> C) (w : Z -> R) (v : Z -> Z -> C) : Prop :=
  (forall k i, 0 <= k < n -> 0 <= i < n -> csum (zrange 0 n) (fun j => Cmult (A i j) (v k j)) = Cmult (RtoC (w k)) (v k i)) /\
  (forall k l, 0 <= k < n -> 0 <= l < n -> csum (zrange 0 n) (fun i => Cmult (Cconj (v k i)) (v l i)) = kron k l) /\
  (forall k l, 0 <= k <= l -> l < n -> (w k <= w l)%R).
(** an orbital of spin up or down, on spin-orbitals site + spin * Ns *)
Definition spin_up (Ns : Z) (v : Z -> C) (x : Z) : C := if x <? Ns then v x else RtoC 0.
Definition spin_down (Ns : Z) (v : Z -> C) (x : Z) : C := if x <? Ns then RtoC 0 else v (x - Ns).
(** u 0 up, d 0 down, u 1 up, d 1 down, ... *)
Definition doubly (Ns Ne : Z) (u d : Z -> Z -> C) : list (Z -> C) := flat_map (fun n => [spin_up Ns (u n); spin_down Ns (d n)]) (zrange 0 Ne).
