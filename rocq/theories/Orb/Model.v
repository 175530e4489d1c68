(** The starting pair orbitals that the Hartree-Fock program writes (src/ComplexUHF/output.c) and their way into the tables of the main
    program (src/ComplexUHF/readdef.c, src/mVMC/readdef.c).  double complex is C, exact; a division by zero gives None.
    The rows of the definition files are what sscanf delivers; a missing sign is None. *)
From Coq Require Import ZArith List Bool Reals.
From Coquelicot Require Import Complex.
From Verif Require Import Base.ZLoop Base.RSum Uhf.Model.
Import ListNotations.
Local Open Scope Z_scope.

(** ** definition files of the orbitals *)
Record tables := Tables { Idx : Z -> Z -> Z; Sgn : Z -> Z -> Z }.
Definition set_cell (a b k s : Z) (t : tables) : tables :=
  Tables (fun x y => if (x =? a) && (y =? b) then k else Idx t x y) (fun x y => if (x =? a) && (y =? b) then s else Sgn t x y).
Definition set_both (a b k s : Z) (t : tables) : tables := set_cell b a k (- s) (set_cell a b k s t).
(** i j index sign / i spin j spin index sign *)
Definition row := (Z * Z * Z * option Z)%type.
Definition grow := (Z * Z * Z * Z * Z * option Z)%type.
(** ComplexUHF/readdef.c:1031-1044 and mVMC/readdef.c:1532-1563 *)
Definition check_site (i n : Z) : bool := negb ((n <=? i) || (i <? 0)).
Definition check_pair_site (i j n : Z) : bool := check_site i n && check_site j n.
Definition with_default (d : Z) (s : option Z) : Z := match s with Some s => s | None => d end.

Section Hartree_Fock_reader.
Variable Ns : Z.
(** ComplexUHF/readdef.c:415-430; the arrays are allocated with zeros (xsetmem_def.c:48-49) *)
Definition uhf_fresh (general : bool) : tables :=
  Tables (fun x y => if general || ((x <? Ns) && (y <? Ns)) then -1 else 0) (fun _ _ => 0).
(** ComplexUHF/readdef.c:598-624 (rows after the Ns*Ns-th are not read) *)
Definition uhf_ap (rows : list row) : option tables :=
  let rows := firstn (Z.to_nat (Ns * Ns)) rows in
  if forallb (fun r : row => let '(i, j, _, _) := r in check_pair_site i j Ns) rows && (Z.of_nat (length rows) =? Ns * Ns)
  then Some (fold_left (fun t (r : row) => let '(i, j, k, s) := r in set_cell (i + Ns * 0) (j + Ns * 1) k (with_default 1 s) t) rows (uhf_fresh false))
  else None.
(** ComplexUHF/readdef.c:625-651 *)
Definition uhf_ap_general (rows : list row) (t : tables) : option tables :=
  let rows := firstn (Z.to_nat (Ns * Ns)) rows in
  if forallb (fun r : row => let '(i, j, _, _) := r in check_pair_site i j Ns) rows
  then Some (fold_left (fun t (r : row) => let '(i, j, k, s) := r in set_both (i + 0 * Ns) (j + 1 * Ns) k (with_default 1 s) t) rows t)
  else None.
(** ComplexUHF/readdef.c:654-685; idx counts two per row *)
Definition uhf_p (NOrbitalAP : Z) (rows : list row) (t : tables) : option tables :=
  let rows := firstn (Z.to_nat (Ns * (Ns - 1) / 2)) rows in
  if forallb (fun r : row => let '(i, j, _, _) := r in check_pair_site i j Ns) rows
  then Some (fold_left (fun t (r : row) => let '(i, j, k, s) := r in
    loop 0 2 (fun sp t => set_both (i + sp * Ns) (j + sp * Ns) (NOrbitalAP + 2 * k + sp) (with_default 1 s) t) t) rows t)
  else None.
(** ComplexUHF/readdef.c:687-713; no check of the sites *)
Definition uhf_general (rows : list grow) : option tables :=
  let rows := firstn (Z.to_nat (Ns * (2 * Ns - 1))) rows in
  if Z.of_nat (length rows) =? Ns * (2 * Ns - 1)
  then Some (fold_left (fun t (r : grow) => let '(i, si, j, sj, k, s) := r in set_cell (i + Ns * si) (j + Ns * sj) k (with_default 1 s) t) rows (uhf_fresh true))
  else None.
Definition uhf_ap_p (NOrbitalAP : Z) (ap p : list row) : option tables :=
  match uhf_ap_general ap (uhf_fresh true) with Some t => uhf_p NOrbitalAP p t | None => None end.
End Hartree_Fock_reader.

Section Main_reader.
Variables (Ns : Z) (APFlag : bool).
(** a missing sign repeats the one before (fijSign, first 1) *)
Definition sticky {A} (put : A -> Z -> tables -> tables) (sgn_of : A -> option Z) (rows : list A) (t : tables) : tables :=
  fst (fold_left (fun (st : tables * Z) r => let '(t, last) := st in let s := with_default last (sgn_of r) in (put r s t, s)) rows (t, 1)).
(** setmemory.c:156-171 *)
Definition main_fresh : tables := Tables (fun _ _ => 0) (fun _ _ => 0).
Definition reset (inside : Z -> Z -> bool) (t : tables) : tables :=
  if APFlag then t else Tables (Idx t) (fun x y => if inside x y then 1 else if inside y x then -1 else Sgn t x y).
Definition row_sign (r : row) : option Z := let '(_, _, _, s) := r in s.
(** mVMC/readdef.c:2476-2496 and 2526-2532 (the optimisation flags that follow the rows are not modelled); with APFlag = 0 all signs become 1 *)
Definition main_ap (rows : list row) : option tables :=
  let rows := firstn (Z.to_nat (Ns * Ns)) rows in
  if forallb (fun r : row => let '(i, j, _, _) := r in check_pair_site i j Ns) rows && (Z.of_nat (length rows) =? Ns * Ns)
  then let t := sticky (fun (r : row) s => let '(i, j, k, _) := r in set_cell i j k s) row_sign rows main_fresh in
       Some (if APFlag then t else Tables (Idx t) (fun x y => if check_pair_site x y Ns then 1 else Sgn t x y))
  else None.
(** mVMC/readdef.c:2497-2532 *)
Definition main_ap_general (rows : list row) (t : tables) : option tables :=
  let rows := firstn (Z.to_nat (Ns * Ns)) rows in
  if forallb (fun r : row => let '(i, j, _, _) := r in check_pair_site i j Ns) rows && (Z.of_nat (length rows) =? Ns * Ns) &&
     forallb (fun r : row => let '(i, j, _, _) := r in i + 0 * Ns <? j + 1 * Ns) rows
  then Some (reset (fun x y => check_site x Ns && (Ns <=? y) && (y <? 2 * Ns))
    (sticky (fun (r : row) s => let '(i, j, k, _) := r in set_both (i + 0 * Ns) (j + 1 * Ns) k s) row_sign rows t))
  else None.
(** mVMC/readdef.c:2583-2639 *)
Definition main_p (NArrayAP : Z) (rows : list row) (t : tables) : option tables :=
  let rows := firstn (Z.to_nat (Ns * (Ns - 1) / 2)) rows in
  if forallb (fun r : row => let '(i, j, _, _) := r in check_pair_site i j Ns) rows && (2 * Z.of_nat (length rows) =? Ns * (Ns - 1)) &&
     forallb (fun r : row => let '(i, j, _, _) := r in i <? j) rows
  then Some (reset (fun x y => ((0 <=? x) && (x <? y) && (y <? Ns)) || ((Ns <=? x) && (x <? y) && (y <? 2 * Ns)))
    (sticky (fun (r : row) s t => let '(i, j, k, _) := r in loop 0 2 (fun sp t => set_both (i + sp * Ns) (j + sp * Ns) (NArrayAP + 2 * k + sp) s t) t) row_sign rows t))
  else None.
(** mVMC/readdef.c:2535-2581 *)
Definition main_general (rows : list grow) : option tables :=
  let rows := firstn (Z.to_nat (2 * Ns * Ns - Ns)) rows in
  if forallb (fun r : grow => let '(i, si, j, sj, _, _) := r in check_pair_site i j Ns && (i + si * Ns <? j + sj * Ns)) rows && (Z.of_nat (length rows) =? 2 * Ns * Ns - Ns)
  then Some (reset (fun x y => (0 <=? x) && (x <? y) && (y <? 2 * Ns))
    (sticky (fun (r : grow) s => let '(i, si, j, sj, k, _) := r in set_both (i + si * Ns) (j + sj * Ns) k s) (fun r => snd r) rows main_fresh))
  else None.
Definition main_ap_p (NArrayAP : Z) (ap p : list row) : option tables :=
  match main_ap_general ap main_fresh with Some t => main_p NArrayAP p t | None => None end.
End Main_reader.

(** ** amplitudes of pairs *)
(** output.c:202-219: conj (R_SLT i n) is the n-th orbital; n runs in steps of two *)
Definition pair_general (Ne : Z) (R_SLT : matrix) : matrix := fun i j =>
  loop 0 Ne (fun m F => let n := 2 * m in
    Cplus F (Cminus (Cmult (Cconj (R_SLT i n)) (Cconj (R_SLT j (n + 1)))) (Cmult (Cconj (R_SLT i (n + 1))) (Cconj (R_SLT j n))))) (RtoC 0).
(** output.c:143-187: the two diagonal blocks of the mean field are diagonalised on their own *)
Definition pair_antiparallel (Ns Ne : Z) (zheev : Z -> (Z -> C) -> (Z -> R) * (Z -> C)) (Ham : matrix) : matrix :=
  let up := snd (zheevall zheev Ns (fun i j => Ham i j)) in
  let down := snd (zheevall zheev Ns (fun i j => Ham (i + Ns) (j + Ns))) in
  fun i j => loop 0 Ne (fun n tmp => Cplus tmp (Cmult (up n i) (down n j))) (RtoC 0).

(** ** parameters *)
Section Output.
Variables (NOrbitalIdx : Z) (T : tables) (rand : Z -> R) (eps_int_slater : Z).
(** one cell (row and column in the tables, amplitude); an index outside the arrays is None *)
Definition collect_cell (c : Z * Z * C) (st : option ((Z -> C) * (Z -> Z))) : option ((Z -> C) * (Z -> Z)) :=
  let '(x, y, F) := c in
  match st with
  | None => None
  | Some (P, n) =>
    let k := Idx T x y in
    if k =? -1 then Some (P, n)
    else if (0 <=? k) && (k <? NOrbitalIdx) then Some (upd P k (Cplus (P k) (Cmult F (RtoC (IZR (Sgn T x y))))), upd n k (n k + 1))
    else None
  end.
Definition collect (cells : list (Z * Z * C)) : option ((Z -> C) * (Z -> Z)) :=
  fold_left (fun st c => collect_cell c st) cells (Some (fun _ => RtoC 0, fun _ => 0)).
(** ParamOrbital[i] /= CountOrbital[i] and the random offset; rand i is the number drawn for parameter i, in [0,1) *)
Definition finish (P : Z -> C) (n : Z -> Z) (i : Z) : option C :=
  if n i =? 0 then None else Some (Cplus (Cdiv (P i) (RtoC (IZR (n i)))) (RtoC (rand i * powerRZ 10 (- eps_int_slater))%R)).
Variable Ns : Z.
(** output.c:245-281; F has one index per site *)
Definition cells_ap2 (F : matrix) : list (Z * Z * C) :=
  flat_map (fun i => map (fun j => (i + 0 * Ns, j + 1 * Ns, F i j)) (zrange 0 Ns)) (zrange 0 Ns).
(** output.c:283-317 *)
Definition cells_ap (F : matrix) : list (Z * Z * C) :=
  flat_map (fun i => map (fun j => (i + 0 * Ns, j + 1 * Ns, F (i + 0 * Ns) (j + 1 * Ns))) (zrange 0 Ns)) (zrange 0 Ns).
(** output.c:319-369 *)
Definition cells_p (F : matrix) : list (Z * Z * C) :=
  flat_map (fun i => flat_map (fun j => [(i + 0 * Ns, j + 0 * Ns, F (i + 0 * Ns) (j + 0 * Ns)); (i + 1 * Ns, j + 1 * Ns, F (i + 1 * Ns) (j + 1 * Ns))]) (zrange (i + 1) Ns)) (zrange 0 Ns).
(** output.c:371-406 *)
Definition cells_general (F : matrix) : list (Z * Z * C) :=
  flat_map (fun si => flat_map (fun sj => flat_map (fun i => map (fun j => (i + si * Ns, j + sj * Ns, F (i + si * Ns) (j + sj * Ns))) (zrange 0 Ns)) (zrange 0 Ns)) (zrange 0 2)) (zrange 0 2).
(** the numbers written: lines [lo, hi) of the averages; OutputParallel moves them to the front before it writes them *)
Definition written (lo hi : Z) (cells : list (Z * Z * C)) : option (list (option C)) :=
  match collect cells with None => None | Some (P, n) => Some (map (finish P n) (zrange lo hi)) end.
End Output.
Definition output_antiparallel_2 NOrbitalIdx T rand eps Ns NOrbitalAP F := written NOrbitalIdx T rand eps 0 NOrbitalAP (cells_ap2 Ns F).
Definition output_antiparallel NOrbitalIdx T rand eps Ns NOrbitalAP F := written NOrbitalIdx T rand eps 0 NOrbitalAP (cells_ap Ns F).
Definition output_parallel NOrbitalIdx T rand eps Ns NOrbitalAP NOrbitalP F := written NOrbitalIdx T rand eps NOrbitalAP (NOrbitalAP + NOrbitalP) (cells_p Ns F).
Definition output_general NOrbitalIdx T rand eps Ns F := written NOrbitalIdx T rand eps 0 NOrbitalIdx (cells_general Ns F).

(** mVMC/readdef.c:1406-1449: the parameters are read back; a file whose number of lines is not the number of orbitals is refused.
    The files hold the line number and the value with ten digits; here the value itself.  None in a line is not a number. *)
Definition read_lines (lines : list (option C)) (offset : Z) (Slater : Z -> option C) : Z -> option C :=
  loop 0 (Z.of_nat (length lines)) (fun idx Sl => upd Sl (offset + idx) (nth (Z.to_nat idx) lines None)) Slater.

(** output.c:78-84: the gap between occupied and empty levels; the array has 2 * Ns elements (xsetmem_large.c:30), None is a read outside it *)
Definition read_eigen (Ns : Z) (EigenValues : Z -> R) (k : Z) : option R := if (0 <=? k) && (k <? 2 * Ns) then Some (EigenValues k) else None.
Definition output_gap (Ns Nsize : Z) (EigenValues : Z -> R) : option R :=
  match read_eigen Ns EigenValues (Nsize - 1), read_eigen Ns EigenValues Nsize with Some tmp, Some e => Some (e - tmp)%R | _, _ => None end.
