(** What a Hartree-Fock calculation is meant to deliver, for the Hamiltonian of Ham.Spec. *)
From Coq Require Import ZArith List Bool Reals Permutation.
From Coquelicot Require Import Complex.
From Verif Require Import Base.ZLoop Base.RSum Pf.Spec Green.Spec Ham.Model Ham.Spec Uhf.Model.
Import ListNotations.
Local Open Scope Z_scope.

(** expectation value of c+_a c_b and, by Wick's theorem, of c+_a c_b c+_c c_d in a determinant with G a b = <c+_a c_b> *)
Definition wick (G : matrix) (ops : list (Z * Z)) : C :=
  match ops with
  | [(a, b)] => G a b
  | [(a, b); (c, d)] => Cplus (Cmult (G a b) (G c d)) (Cmult (G a d) (Cminus (kron b c) (G c b)))
  | _ => RtoC 0
  end.
Definition mean_energy (O : observable) (G : matrix) : C := csum O (fun t => Cmult (fst t) (wick G (snd t))).
(** its part of second order in G *)
Definition wick2 (D : matrix) (ops : list (Z * Z)) : C :=
  match ops with [(a, b); (c, d)] => Cminus (Cmult (D a b) (D c d)) (Cmult (D a d) (D c b)) | _ => RtoC 0 end.
Definition second_order (O : observable) (D : matrix) : C := csum O (fun t => Cmult (fst t) (wick2 D (snd t))).

Definition plus (G D : matrix) : matrix := fun i j => Cplus (G i j) (D i j).
Definition scale (t : C) (D : matrix) : matrix := fun i j => Cmult t (D i j).
(** sum over all entries of n x n matrices *)
Definition pairing (n : Z) (A D : matrix) : C := csum (zrange 0 n) (fun i => csum (zrange 0 n) (fun j => Cmult (A i j) (D i j))).
Definition hermitian (n : Z) (A : matrix) : Prop := forall i j, 0 <= i < n -> 0 <= j < n -> A j i = Cconj (A i j).
Definition times_ (n : Z) (A B : matrix) : matrix := fun i j => csum (zrange 0 n) (fun k => Cmult (A i k) (B k j)).
Definition projector (n : Z) (G : matrix) : Prop := hermitian n G /\ forall i j, 0 <= i < n -> 0 <= j < n -> times_ n G G i j = G i j.
Definition trace (n : Z) (G : matrix) : C := csum (zrange 0 n) (fun i => G i i).

(** what zheev delivers: eigenvalues in ascending order and orthonormal eigenvectors, one after the other, of the Hermitian matrix
    whose upper triangle it is given *)
Definition upper_part (n : Z) (a : Z -> C) (i j : Z) : C :=
  if i <? j then a (i + j * n) else if j <? i then Cconj (a (j + i * n)) else RtoC (fst (a (i + i * n))).
Definition diagonalises (n : Z) (zheev : Z -> (Z -> C) -> (Z -> R) * (Z -> C)) : Prop := forall a,
  let w := fst (zheev n a) in let v := fun k i => snd (zheev n a) (k * n + i) in
  (forall k i, 0 <= k < n -> 0 <= i < n -> csum (zrange 0 n) (fun j => Cmult (upper_part n a i j) (v k j)) = Cmult (RtoC (w k)) (v k i)) /\
  (forall k l, 0 <= k < n -> 0 <= l < n -> csum (zrange 0 n) (fun i => Cmult (Cconj (v k i)) (v l i)) = kron k l) /\
  (forall k l, 0 <= k <= l -> l < n -> (w k <= w l)%R).

(** no interaction of a site with itself in the files of inter-site terms *)
Definition two_sites (H : terms) : Prop :=
  (forall k, 0 <= k < NInter H -> Inter H k 0 <> Inter H k 1) /\ (forall k, 0 <= k < NHund H -> Hund H k 0 <> Hund H k 1).
(** a Hamiltonian is Hermitian if its energies are real *)
Definition real_energies (n : Z) (O : observable) : Prop := forall G, hermitian n G -> snd (mean_energy O G) = 0%R.
(** ... which is so if every hopping and every four-operator term comes with its adjoint and every pair hopping with the opposite one *)
Definition transfers (H : terms) : list (Z * Z * Z * Z * C) :=
  map (fun k => (Transfer H k 0, Transfer H k 1, Transfer H k 2, Transfer H k 3, ParaTransfer H k)) (zrange 0 (NTransfer H)).
Definition four_terms (N : Z) (H : terms) : list (Z * Z * Z * Z * C) :=
  map (fun k => let c := InterAll H k in (c 0 + c 1 * N, c 2 + c 3 * N, c 4 + c 5 * N, c 6 + c 7 * N, ParaInterAll H k)) (zrange 0 (NInterAll H)).
Definition pair_terms (H : terms) : list (Z * Z * R) := map (fun k => (Pair H k 0, Pair H k 1, ParaPair H k)) (zrange 0 (NPair H)).
Definition files_hermitian (N : Z) (H : terms) : Prop :=
  Permutation (map (fun r => let '(i, s, j, t, v) := r in (j, t, i, s, Cconj v)) (transfers H)) (transfers H) /\
  Permutation (map (fun r => let '(a, b, c, d, v) := r in (d, c, b, a, Cconj v)) (four_terms N H)) (four_terms N H) /\
  Permutation (map (fun r => let '(i, j, v) := r in (j, i, v)) (pair_terms H)) (pair_terms H).
(** total strength of the interactions *)
Definition strength (O : observable) : R := rsum O (fun t => match snd t with [_; _] => Cmod (fst t) | _ => 0%R end).
Definition distance2 (n : Z) (A B : matrix) : R := rsum (zrange 0 n) (fun i => rsum (zrange 0 n) (fun j => (Cmod (Cminus (A i j) (B i j)) ^ 2)%R)).
