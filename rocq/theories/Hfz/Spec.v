(** The Hamiltonian of the manual for N sites, as coefficients with strings of c+_a c_b, and its local values with general spins. *)
From Coq Require Import ZArith List Bool Reals Permutation.
From Coquelicot Require Import Complex.
From Verif Require Import Base.ZLoop Base.RSum Slater.Model Samp.Model Green.Model Ham.Model Gfz.Model Gfz.Spec Hfz.Model.
From Verif Require Ham.Spec.
Import ListNotations.
Local Open Scope Z_scope.

(** spin-orbital = site + spin * N; annihilator second *)
Definition observable : Type := list (C * list (Z * Z)).
Section Terms.
Variable N : Z.
Definition num (rs : Z) : Z * Z := (rs, rs).
Variable H : terms.
(** n_i,up n_i,down *)
Definition f_intra (k : Z) : observable := let i := Intra H k in [(RtoC (ParaIntra H k), [num i; num (i + N)])].
(** n_i n_j with n_i = n_i,up + n_i,down *)
Definition f_inter (k : Z) : observable := let i := Inter H k 0 in let j := Inter H k 1 in
  [(RtoC (ParaInter H k), [num i; num j]); (RtoC (ParaInter H k), [num i; num (j + N)]);
   (RtoC (ParaInter H k), [num (i + N); num j]); (RtoC (ParaInter H k), [num (i + N); num (j + N)])].
(** - (n_i,up n_j,up + n_i,down n_j,down) *)
Definition f_hund (k : Z) : observable := let i := Hund H k 0 in let j := Hund H k 1 in
  [(Copp (RtoC (ParaHund H k)), [num i; num j]); (Copp (RtoC (ParaHund H k)), [num (i + N); num (j + N)])].
(** - c+_is c_jt *)
Definition f_transfer (k : Z) : observable :=
  [(Copp (ParaTransfer H k), [(Transfer H k 0 + Transfer H k 1 * N, Transfer H k 2 + Transfer H k 3 * N)])].
(** c+_i,up c_j,up c+_i,down c_j,down *)
Definition f_pair (k : Z) : observable := let i := Pair H k 0 in let j := Pair H k 1 in
  [(RtoC (ParaPair H k), [(i, j); (i + N, j + N)])].
(** c+_i,up c_j,up c+_j,down c_i,down + c+_i,down c_j,down c+_j,up c_i,up *)
Definition f_exchange (k : Z) : observable := let i := Exchange H k 0 in let j := Exchange H k 1 in
  [(RtoC (ParaExchange H k), [(i, j); (j + N, i + N)]); (RtoC (ParaExchange H k), [(i + N, j + N); (j, i)])].
(** c+_is c_jt c+_ku c_lv *)
Definition f_interall (k : Z) : observable := let c := InterAll H k in
  [(ParaInterAll H k, [(c 0 + c 1 * N, c 2 + c 3 * N); (c 4 + c 5 * N, c 6 + c 7 * N)])].
Definition fdiagonal : observable :=
  flat_map f_intra (zrange 0 (NIntra H)) ++ flat_map f_inter (zrange 0 (NInter H)) ++ flat_map f_hund (zrange 0 (NHund H)).
Definition fhopping : observable :=
  flat_map f_transfer (zrange 0 (NTransfer H)) ++ flat_map f_pair (zrange 0 (NPair H)) ++
  flat_map f_exchange (zrange 0 (NExchange H)) ++ flat_map f_interall (zrange 0 (NInterAll H)).
Definition fhamiltonian : observable := fdiagonal ++ fhopping.
(** S^z = sum over sites of (n_up - n_down) / 2 (output.rst:133) *)
Definition spin_z : observable := flat_map (fun r => [(RtoC (/ 2), [num r]); (Copp (RtoC (/ 2)), [num (r + N)])]) (zrange 0 N).

(** every site and spin in the definition files is one of the lattice; any spins *)
Definition fsite (r : Z) : Prop := 0 <= r < N.
Record fsites_ok : Prop := {
  fok_intra : forall k, 0 <= k < NIntra H -> fsite (Intra H k);
  fok_inter : forall k, 0 <= k < NInter H -> fsite (Inter H k 0) /\ fsite (Inter H k 1);
  fok_hund : forall k, 0 <= k < NHund H -> fsite (Hund H k 0) /\ fsite (Hund H k 1);
  fok_transfer : forall k, 0 <= k < NTransfer H -> site_spin N (Transfer H k 0) (Transfer H k 1) /\ site_spin N (Transfer H k 2) (Transfer H k 3);
  fok_pair : forall k, 0 <= k < NPair H -> fsite (Pair H k 0) /\ fsite (Pair H k 1);
  fok_exchange : forall k, 0 <= k < NExchange H -> fsite (Exchange H k 0) /\ fsite (Exchange H k 1);
  fok_interall : forall k, 0 <= k < NInterAll H -> let c := InterAll H k in
    site_spin N (c 0) (c 1) /\ site_spin N (c 2) (c 3) /\ site_spin N (c 4) (c 5) /\ site_spin N (c 6) (c 7)
}.
(** iterations of the loops *)
Definition fcount (l : Z) : Z :=
  if l =? 0 then NIntra H else if l =? 1 then NInter H else if l =? 2 then NHund H else if l =? 3 then NTransfer H
  else if l =? 4 then NPair H else if l =? 5 then NExchange H else NInterAll H.
End Terms.
(** <psi| O |x> / <psi|x> *)
Definition fvalue (V : fwave) (O : observable) (x : Z -> Z) : C := csum O (fun t => Cmult (fst t) (flocal V (snd t) x)).
(** in every loop each iteration is run once, by some thread *)
Definition fexecution (n : Z -> Z) (P : fsched) : Prop :=
  forall l, 0 <= l <= 6 -> Permutation (flat_map (fplan P l) (zrange 0 (fthreads P))) (zrange 0 (n l)).
