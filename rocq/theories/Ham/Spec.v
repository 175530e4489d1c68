(** The Hamiltonian of the manual (doc/en/source/expert.rst, "Hamiltonian for mVMC is denoted by") as a list of coefficients with
    strings of operators c+_a c_b, and its local values. *)
From Coq Require Import ZArith List Bool Reals Permutation.
From Coquelicot Require Import Complex.
From Verif Require Import Base.ZLoop Base.RSum Pf.Spec Slater.Model Slater.Spec Samp.Model Samp.Spec Green.Model Green.Spec Ham.Model.
Import ListNotations.
Local Open Scope Z_scope.

(** sum of coefficient times string of bilinears (annihilator second); spin-orbital = site + spin * sites *)
Definition observable : Type := list (C * list (Z * Z)).
Section Spec.
Variable V : wave.
Notation N := (sites V).
Definition number (rs : Z) : Z * Z := (rs, rs).
(** n_i,up n_i,down *)
Definition h_intra (H : terms) (k : Z) : observable := let i := Intra H k in
  [(RtoC (ParaIntra H k), [number i; number (i + N)])].
(** n_i n_j with n_i = n_i,up + n_i,down *)
Definition h_inter (H : terms) (k : Z) : observable := let i := Inter H k 0 in let j := Inter H k 1 in
  map (fun st : Z * Z => (RtoC (ParaInter H k), [number (i + fst st * N); number (j + snd st * N)])) [(0, 0); (0, 1); (1, 0); (1, 1)].
(** - (n_i,up n_j,up + n_i,down n_j,down) *)
Definition h_hund (H : terms) (k : Z) : observable := let i := Hund H k 0 in let j := Hund H k 1 in
  map (fun s => (Copp (RtoC (ParaHund H k)), [number (i + s * N); number (j + s * N)])) [0; 1].
(** - c+_is c_jt *)
Definition h_transfer (H : terms) (k : Z) : observable :=
  [(Copp (ParaTransfer H k), [(Transfer H k 0 + Transfer H k 1 * N, Transfer H k 2 + Transfer H k 3 * N)])].
(** c+_i,up c_j,up c+_i,down c_j,down *)
Definition h_pair (H : terms) (k : Z) : observable := let i := Pair H k 0 in let j := Pair H k 1 in
  [(RtoC (ParaPair H k), [(i, j); (i + N, j + N)])].
(** c+_i,up c_j,up c+_j,down c_i,down + c+_i,down c_j,down c+_j,up c_i,up *)
Definition h_exchange (H : terms) (k : Z) : observable := let i := Exchange H k 0 in let j := Exchange H k 1 in
  [(RtoC (ParaExchange H k), [(i, j); (j + N, i + N)]); (RtoC (ParaExchange H k), [(i + N, j + N); (j, i)])].
(** c+_is c_jt c+_ku c_lv *)
Definition h_interall (H : terms) (k : Z) : observable := let c := InterAll H k in
  [(ParaInterAll H k, [(c 0 + c 1 * N, c 2 + c 3 * N); (c 4 + c 5 * N, c 6 + c 7 * N)])].

(** the terms made of number operators, and the others *)
Definition diagonal (H : terms) : observable :=
  flat_map (h_intra H) (zrange 0 (NIntra H)) ++ flat_map (h_inter H) (zrange 0 (NInter H)) ++ flat_map (h_hund H) (zrange 0 (NHund H)).
Definition hopping (H : terms) : observable :=
  flat_map (h_transfer H) (zrange 0 (NTransfer H)) ++ flat_map (h_pair H) (zrange 0 (NPair H)) ++
  flat_map (h_exchange H) (zrange 0 (NExchange H)) ++ flat_map (h_interall H) (zrange 0 (NInterAll H)).
Definition hamiltonian (H : terms) : observable := diagonal H ++ hopping H.

(** <psi| O |x> / <psi|x> *)
Definition local_value (O : observable) (x : Z -> Z) : C := csum O (fun t => Cmult (fst t) (local V (snd t) x)).
(** operator products *)
Definition times (O O' : observable) : observable := flat_map (fun t => map (fun t' => (Cmult (fst t) (fst t'), snd t ++ snd t')) O') O.

(** ** hypotheses on the definition files *)
Definition site (r : Z) : Prop := 0 <= r < N.
Definition spin (s : Z) : Prop := 0 <= s <= 1.
Record sites_ok (H : terms) : Prop := {
  ok_intra : forall k, 0 <= k < NIntra H -> site (Intra H k);
  ok_inter : forall k, 0 <= k < NInter H -> site (Inter H k 0) /\ site (Inter H k 1);
  ok_hund : forall k, 0 <= k < NHund H -> site (Hund H k 0) /\ site (Hund H k 1);
  ok_transfer : forall k, 0 <= k < NTransfer H -> site (Transfer H k 0) /\ spin (Transfer H k 1) /\ site (Transfer H k 2) /\ spin (Transfer H k 3);
  ok_pair : forall k, 0 <= k < NPair H -> site (Pair H k 0) /\ site (Pair H k 1);
  ok_exchange : forall k, 0 <= k < NExchange H -> site (Exchange H k 0) /\ site (Exchange H k 1);
  ok_interall : forall k, 0 <= k < NInterAll H -> site (InterAll H k 0) /\ spin (InterAll H k 1) /\ site (InterAll H k 2) /\ spin (InterAll H k 3) /\
    site (InterAll H k 4) /\ spin (InterAll H k 5) /\ site (InterAll H k 6) /\ spin (InterAll H k 7)
}.
(** no bilinear changes a spin *)
Definition spins_kept (H : terms) : Prop :=
  (forall k, 0 <= k < NTransfer H -> Transfer H k 1 = Transfer H k 3) /\
  (forall k, 0 <= k < NInterAll H -> InterAll H k 1 = InterAll H k 3 /\ InterAll H k 5 = InterAll H k 7).

(** some term is a product of two bilinears other than number operators *)
Definition two_body (H : terms) : Prop := 0 < NPair H \/ 0 < NExchange H \/ 0 < NInterAll H.

(** ** executions: in every loop each iteration is run once, by some thread *)
Definition count (H : terms) (l : Z) : Z :=
  if l =? 0 then NIntra H else if l =? 1 then NInter H else if l =? 2 then NHund H else if l =? 3 then NTransfer H
  else if l =? 4 then NPair H else if l =? 5 then NExchange H else NInterAll H.
Definition execution (n : Z -> Z) (P : sched) : Prop :=
  forall l, 0 <= l <= 6 -> Permutation (flat_map (plan P l) (zrange 0 (threads P))) (zrange 0 (n l)).

(** the amplitude of a configuration vanishes as soon as the Pfaffian of one projection does (always so with one projection) *)
Definition no_partial_zero : Prop := forall y, (forall m, In m (labels V) -> 0 <= y m < N) -> pairs V y <> RtoC 0 ->
  forall o m s, in_range (vS V) o m s -> pfaffian (vS V) (vQ V) (vbeta V) (vsl V) y o m s <> RtoC 0.
(** the shared tables hold the walker and its matrices *)
Definition holds (K : setting) (w : walker) (sh : shared) : Prop :=
  hIdx sh = Samp.Model.eleIdx w /\ hCfg sh = Samp.Model.eleCfg w /\ hNum sh = Samp.Model.eleNum w /\ hInv sh = sInvM K /\ hPf sh = sPfM K.
End Spec.

(** ** bilinears that change a spin: by c+_a c_b c+_c c_d = delta_bc c+_a c_d + delta_cd c+_a c_b - c+_a c_d c+_c c_b they are
    expressed by bilinears that do not; the remaining ones change the numbers of up and down electrons *)
Definition local_two (V : wave) (a b c d : Z) (x : Z -> Z) : C :=
  let s := fun rs => rs / sites V in
  if (s a =? s b) && (s c =? s d) then local V [(a, b); (c, d)] x
  else if (s a =? s d) && (s c =? s b) then Cminus (if b =? c then local V [(a, d)] x else RtoC 0) (local V [(a, d); (c, b)] x)
  else RtoC 0.
(** strings of one or two bilinears *)
Definition local_any (V : wave) (ops : list (Z * Z)) (x : Z -> Z) : C :=
  match ops with
  | [(a, b)] => if a / sites V =? b / sites V then local V ops x else RtoC 0
  | [(a, b); (c, d)] => local_two V a b c d x
  | _ => local V ops x
  end.
Definition any_value (V : wave) (O : observable) (x : Z -> Z) : C := csum O (fun t => Cmult (fst t) (local_any V (snd t) x)).

(** ** number of doubly occupied sites *)
Definition doublons (V : wave) : observable := map (fun r => (RtoC 1, [number r; number (r + sites V)])) (zrange 0 (sites V)).
