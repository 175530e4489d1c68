(** What the files of the Hamiltonian state (doc/en/source/expert.rst): one term per line. *)
From Coq Require Import ZArith List Bool Reals.
From Coquelicot Require Import Complex.
From Verif Require Import Base.ZLoop Pf.Spec Slater.Model Green.Spec Ham.Model Ham.Spec Trm.Model.
Import ListNotations.
Local Open Scope Z_scope.

(** a row is n integers and m real numbers; a file is complete when every line has all of them *)
Definition row : Type := (list Z * list R)%type.
Definition value (v : num) : R := match v with Int z => IZR z | Flt r => r end.
Definition line_is (n m : nat) (l : list num) (r : row) : Prop :=
  length (fst r) = n /\ length (snd r) = m /\ exists ds, l = map Int (fst r) ++ ds /\ map value ds = snd r.
Definition complete (n m : nat) (lines : list (list num)) (rows : list row) : Prop := Forall2 (line_is n m) lines rows.

(** what becomes of a file when K rows are announced and ok tells the admissible ones *)
Inductive verdict := Accept | Reject | Overrun.
Definition judged (K : Z) (ok : row -> bool) (rows : list row) : verdict :=
  if forallb ok (firstn (Z.to_nat K) rows) then
    if Z.of_nat (length rows) =? K then Accept else if Z.of_nat (length rows) <? K then Reject else Overrun
  else Reject.
Definition agrees {A} (v : verdict) (o : outcome A) : Prop :=
  match v, o with Accept, Done _ => True | Reject, Refused => True | Overrun, Outside => True | _, _ => False end.

(** sites and spins in range *)
Definition in_range (N i : Z) : bool := (0 <=? i) && (i <? N).
Definition z (r : row) (c : nat) : Z := nth c (fst r) 0.
Definition x (r : row) (c : nat) : R := nth c (snd r) 0%R.
Definition ok_sites (N : Z) (columns : list nat) (r : row) : bool := forallb (fun c => in_range N (z r c)) columns.
Definition ok_spins (columns : list nat) (r : row) : Prop := forall c, In c columns -> z r c = 0 \/ z r c = 1.

(** ** the term of a row *)
Section Terms.
Variable N : Z.
Definition t_intra (r : row) : observable := [(RtoC (x r 0), [(z r 0, z r 0); (z r 0 + N, z r 0 + N)])].
Definition t_inter (r : row) : observable :=
  flat_map (fun s => map (fun t => (RtoC (x r 0), [(z r 0 + s * N, z r 0 + s * N); (z r 1 + t * N, z r 1 + t * N)])) [0; 1]) [0; 1].
Definition t_hund (r : row) : observable := map (fun s => (RtoC (- x r 0)%R, [(z r 0 + s * N, z r 0 + s * N); (z r 1 + s * N, z r 1 + s * N)])) [0; 1].
Definition t_transfer (r : row) : observable := [((- x r 0, - x r 1)%R, [(z r 0 + z r 1 * N, z r 2 + z r 3 * N)])].
(** both directions *)
Definition t_pair (r : row) : observable := [(RtoC (x r 0), [(z r 0, z r 1); (z r 0 + N, z r 1 + N)]); (RtoC (x r 0), [(z r 1, z r 0); (z r 1 + N, z r 0 + N)])].
Definition t_exchange (r : row) : observable := [(RtoC (x r 0), [(z r 0, z r 1); (z r 1 + N, z r 0 + N)]); (RtoC (x r 0), [(z r 0 + N, z r 1 + N); (z r 1, z r 0)])].
Definition t_interall (r : row) : observable := [((x r 0, x r 1), [(z r 0 + z r 1 * N, z r 2 + z r 3 * N); (z r 4 + z r 5 * N, z r 6 + z r 7 * N)])].
End Terms.
Record contents := Contents { r_trans : list row; r_intra : list row; r_inter : list row; r_hund : list row; r_pair : list row; r_exch : list row; r_all : list row }.
Definition stated (N : Z) (X : contents) : observable :=
  (flat_map (t_intra N) (r_intra X) ++ flat_map (t_inter N) (r_inter X) ++ flat_map (t_hund N) (r_hund X)) ++
  flat_map (t_transfer N) (r_trans X) ++ flat_map (t_pair N) (r_pair X) ++ flat_map (t_exchange N) (r_exch X) ++ flat_map (t_interall N) (r_all X).
Definition all_complete (F : files) (X : contents) : Prop :=
  complete 4 2 (l_trans F) (r_trans X) /\ complete 1 1 (l_intra F) (r_intra X) /\ complete 2 1 (l_inter F) (r_inter X) /\ complete 2 1 (l_hund F) (r_hund X) /\
  complete 2 1 (l_pair F) (r_pair X) /\ complete 2 1 (l_exch F) (r_exch X) /\ complete 8 2 (l_all F) (r_all X).
(** as many rows as announced *)
Definition counted (F : files) (X : contents) : Prop :=
  Z.of_nat (length (r_trans X)) = n_trans F /\ Z.of_nat (length (r_intra X)) = n_intra F /\ Z.of_nat (length (r_inter X)) = n_inter F /\ Z.of_nat (length (r_hund X)) = n_hund F /\
  Z.of_nat (length (r_pair X)) = n_pair F /\ Z.of_nat (length (r_exch X)) = n_exch F /\ Z.of_nat (length (r_all X)) = n_all F.
(** all sites exist; without general orbitals (TwoSz other than -1) the four-operator terms keep the spins *)
Definition good_trans (N : Z) : row -> bool := ok_sites N [0; 2]%nat.
Definition good_one (N : Z) : row -> bool := ok_sites N [0]%nat.
Definition good_two (N : Z) : row -> bool := ok_sites N [0; 1]%nat.
Definition good_all (TwoSz N : Z) (r : row) : bool := ok_sites N [0; 2; 4; 6]%nat r && ((TwoSz =? -1) || ((z r 1 =? z r 3) && (z r 5 =? z r 7))).
Definition good (TwoSz N : Z) (X : contents) : Prop :=
  (forall r, In r (r_trans X) -> good_trans N r = true) /\ (forall r, In r (r_intra X) -> good_one N r = true) /\
  (forall r, In r (r_inter X ++ r_hund X ++ r_pair X ++ r_exch X) -> good_two N r = true) /\ (forall r, In r (r_all X) -> good_all TwoSz N r = true).
Definition spins_good (X : contents) : Prop :=
  (forall r, In r (r_trans X) -> ok_spins [1; 3]%nat r) /\ (forall r, In r (r_all X) -> ok_spins [1; 3; 5; 7]%nat r).
(** a file whose header announces no rows has none *)
Definition used (K : Z) (rows : list row) : list row := if K =? 0 then [] else rows.
Definition in_effect (F : files) (X : contents) : contents :=
  Contents (used (n_trans F) (r_trans X)) (used (n_intra F) (r_intra X)) (used (n_inter F) (r_inter X)) (used (n_hund F) (r_hund X)) (used (n_pair F) (r_pair X))
    (used (n_exch F) (r_exch X)) (used (n_all F) (r_all X)).
Definition counts_ok (F : files) : Prop := 0 <= n_trans F /\ 0 <= n_intra F /\ 0 <= n_inter F /\ 0 <= n_hund F /\ 0 <= n_pair F /\ 0 <= n_exch F /\ 0 <= n_all F.
