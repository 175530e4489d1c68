(** The files of the Hamiltonian as read by the main program (src/mVMC/readdef.c) and by the Hartree-Fock program
    (src/ComplexUHF/readdef.c).  A line, or the rest of a file, is the list of its numbers; the headers and their counts are read before.
    Numbers are exact.  A %d in front of a number that is not an integer is the outcome Stray and not followed further; words do not occur. *)
From Coq Require Import ZArith List Bool Reals.
From Coquelicot Require Import Complex.
From Verif Require Import Base.ZLoop Base.Checked Ham.Model.
Import ListNotations.
Local Open Scope Z_scope.

Inductive num := Int (z : Z) | Flt (r : R).
(** Refused: an error is reported and the program ends; Outside: an access outside the array; Unfinished: no fuel *)
Inductive outcome (A : Type) := Done (a : A) | Refused | Outside | Stray | Unfinished.
Arguments Done {A} a. Arguments Refused {A}. Arguments Outside {A}. Arguments Stray {A}. Arguments Unfinished {A}.

(** ** scanf: n times %d, then m times %lf; stops where the numbers end *)
Fixpoint ints (n : nat) (s : list num) : option (list Z * list num) :=
  match n, s with
  | O, _ => Some ([], s)
  | _, [] => Some ([], [])
  | S n, Int z :: s => match ints n s with Some (l, r) => Some (z :: l, r) | None => None end
  | S _, Flt _ :: _ => None
  end.
Fixpoint reals (m : nat) (s : list num) : list R * list num :=
  match m, s with
  | O, _ => ([], s)
  | _, [] => ([], [])
  | S m, Int z :: s => let (l, r) := reals m s in (IZR z :: l, r)
  | S m, Flt x :: s => let (l, r) := reals m s in (x :: l, r)
  end.
Definition convert (n m : nat) (s : list num) : option (list Z * list R * list num) :=
  match ints n s with None => None | Some (x, r) => let (d, r) := reals m r in Some (x, d, r) end.
(** the variables that are not reached keep their values *)
Definition over {A} (new old : list A) : list A := new ++ skipn (length new) old.
Definition at_ (x : list Z) (c : nat) : Z := nth c x 0.
Definition real (d : list R) (c : nat) : R := nth c d 0%R.

(** ** tables: rows of integers and one value each *)
Definition table (A : Type) : Type := (Z -> Z -> Z) * (Z -> A).
Definition set_row {A} (k : Z) (x : list Z) (t : table A) : table A :=
  (fun i c => if (i =? k) && inb (Z.of_nat (length x)) c then nth (Z.to_nat c) x 0 else fst t i c, snd t).
Definition set_val {A} (k : Z) (v : A) (t : table A) : table A := (fst t, upd (snd t) k v).

(** readdef.c:1532-1592 *)
Definition check_site (i n : Z) : bool := negb ((n <=? i) || (i <? 0)).
Definition check_pair_site (i j n : Z) : bool := check_site i n && check_site j n.
Definition check_quad_site (i j k l n : Z) : bool := check_pair_site i j n && check_pair_site k l n.

(** ** the main program: fgets, sscanf into variables that live through the loop, then the copies into the arrays *)
Section Main.
Context {A : Type}.
Fixpoint main_rows (n m : nat) (step : Z -> list Z -> list R -> table A -> outcome (table A)) (enough : Z -> bool)
    (lines : list (list num)) (idx : Z) (x : list Z) (d : list R) (t : table A) : outcome (table A) :=
  match lines with
  | [] => if enough idx then Done t else Refused
  | l :: lines =>
    match convert n m l with
    | None => Stray
    | Some (x', d', _) =>
      let x := over x' x in let d := over d' d in
      match step idx x d t with Done t => main_rows n m step enough lines (idx + 1) x d t | o => o end
    end
  end.
End Main.
(** readdef.c:1973-1997 *)
Definition get_transfer_info (Nsite NArray : Z) (lines : list (list num)) (t : table C) : outcome (table C) :=
  if NArray =? 0 then Done t else
  main_rows 4 2 (fun idx x d t =>
    if inb NArray idx then
      let t := set_row idx [at_ x 0; at_ x 1; at_ x 2; at_ x 3] t in
      if check_pair_site (at_ x 0) (at_ x 2) Nsite then Done (set_val idx (real d 0, real d 1) t) else Refused
    else Outside) (fun idx => idx =? NArray) lines 0 [0; 0; 0; 0] [0%R; 0%R] t.
(** readdef.c:2017-2036 *)
Definition get_info_coulomb_intra (Nsite NArray : Z) (lines : list (list num)) (t : table R) : outcome (table R) :=
  if NArray =? 0 then Done t else
  main_rows 1 1 (fun idx x d t =>
    if inb NArray idx then
      let t := set_row idx [at_ x 0] t in
      if check_site (at_ x 0) Nsite then Done (set_val idx (real d 0) t) else Refused
    else Outside) (fun idx => idx =? NArray) lines 0 [0] [0%R] t.
(** readdef.c:2038-2061; NArray is twice the number in the header (readdef.c:697) *)
Definition read_pair_hop_value (Nsite NArray : Z) (lines : list (list num)) (t : table R) : outcome (table R) :=
  if NArray =? 0 then Done t else
  main_rows 2 1 (fun idx x d t =>
    if inb NArray (2 * idx) then
      let t := set_val (2 * idx) (real d 0) (set_row (2 * idx) [at_ x 0; at_ x 1] t) in
      if check_pair_site (at_ x 0) (at_ x 1) Nsite then
        if inb NArray (2 * idx + 1) then Done (set_val (2 * idx + 1) (real d 0) (set_row (2 * idx + 1) [at_ x 1; at_ x 0] t)) else Outside
      else Refused
    else Outside) (fun idx => 2 * idx =? NArray) lines 0 [0; 0] [0%R] t.
(** readdef.c:2063-2083 *)
Definition read_pair_d_value (Nsite NArray : Z) (lines : list (list num)) (t : table R) : outcome (table R) :=
  if NArray =? 0 then Done t else
  main_rows 2 1 (fun idx x d t =>
    if inb NArray idx then
      let t := set_row idx [at_ x 0; at_ x 1] t in
      if check_pair_site (at_ x 0) (at_ x 1) Nsite then Done (set_val idx (real d 0) t) else Refused
    else Outside) (fun idx => idx =? NArray) lines 0 [0; 0] [0%R] t.
(** readdef.c:2420-2460 *)
Definition get_info_inter_all (TwoSz Nsite NArray : Z) (lines : list (list num)) (t : table C) : outcome (table C) :=
  if NArray =? 0 then Done t else
  main_rows 8 2 (fun idx x d t =>
    if inb NArray idx then
      let t := set_row idx [at_ x 0; at_ x 1; at_ x 2; at_ x 3; at_ x 4; at_ x 5; at_ x 6; at_ x 7] t in
      if check_quad_site (at_ x 0) (at_ x 2) (at_ x 4) (at_ x 6) Nsite then
        let t := set_val idx (real d 0, real d 1) t in
        if negb (TwoSz =? -1) && negb ((at_ x 1 =? at_ x 3) && (at_ x 5 =? at_ x 7)) then Refused else Done t
      else Refused
    else Outside) (fun idx => idx =? NArray) lines 0 [0; 0; 0; 0; 0; 0; 0; 0] [0%R; 0%R] t.
(** readdef.c:2354-2383; no values *)
Definition get_info_two_body_g (Nsite NArray : Z) (lines : list (list num)) (t : table unit) : outcome (table unit) :=
  if NArray =? 0 then Done t else
  main_rows 8 0 (fun idx x d t =>
    if inb NArray idx then
      let t := set_row idx [at_ x 0; at_ x 1; at_ x 2; at_ x 3; at_ x 4; at_ x 5; at_ x 6; at_ x 7] t in
      if check_quad_site (at_ x 0) (at_ x 2) (at_ x 4) (at_ x 6) Nsite then Done t else Refused
    else Outside) (fun idx => idx =? NArray) lines 0 [0; 0; 0; 0; 0; 0; 0; 0] [] t.
(** readdef.c:1999-2015; the value of a site is kept in the row of the site *)
Definition get_loc_spin_info (Nsite : Z) (lines : list (list num)) (t : table Z) : outcome (table Z) :=
  main_rows 2 0 (fun idx x d t =>
    if inb Nsite (at_ x 0) then
      let t := set_val (at_ x 0) (at_ x 1) t in
      if check_site (at_ x 0) Nsite then Done t else Refused
    else Outside) (fun idx => idx =? Nsite) lines 0 [0; 0] [] t.

(** ** the Hartree-Fock program: numbers are scanned into the rows themselves *)
(** readdef.c:468-488 of ComplexUHF; dReValue is not initialised (re), dImValue is 0 for every line *)
Fixpoint uhf_transfer_rows (N : Z) (lines : list (list num)) (idx : Z) (re : R) (t : table C) : outcome (table C) :=
  match lines with
  | [] => if idx =? N then Done t else Refused
  | l :: lines =>
    if inb N idx then
      match convert 4 2 l with
      | None => Stray
      | Some (x, d, _) => let d := over d [re; 0%R] in uhf_transfer_rows N lines (idx + 1) (real d 0) (set_val idx (real d 0, real d 1) (set_row idx x t))
      end
    else Outside
  end.
Definition uhf_transfer (N : Z) (lines : list (list num)) (re : R) (t : table C) : outcome (table C) :=
  if 0 <? N then uhf_transfer_rows N lines 0 re t else Done t.
(** readdef.c:490-524 of ComplexUHF: CoulombIntra (one site) and CoulombInter (two) *)
Fixpoint uhf_line_rows (n : nat) (N : Z) (lines : list (list num)) (idx : Z) (t : table R) : outcome (table R) :=
  match lines with
  | [] => if idx =? N then Done t else Refused
  | l :: lines =>
    if inb N idx then
      match convert n 1 l with
      | None => Stray
      | Some (x, d, _) => let t := set_row idx x t in uhf_line_rows n N lines (idx + 1) (match d with [] => t | v :: _ => set_val idx v t end)
      end
    else Outside
  end.
Definition uhf_lines (n : nat) (N : Z) (lines : list (list num)) (t : table R) : outcome (table R) :=
  if 0 <? N then uhf_line_rows n N lines 0 t else Done t.
(** readdef.c:526-596 of ComplexUHF: fscanf over the whole file.  Returned with the table: the rows whose address was computed, which reads
    the pointer of the row. *)
Section Stream.
Context {A : Type}.
Fixpoint uhf_stream (n m : nat) (step : Z -> list Z -> list R -> table A -> outcome (table A)) (row : Z -> Z) (enough : Z -> bool) (fuel : nat)
    (s : list num) (idx : Z) (t : table A) : outcome (table A * list Z) :=
  match s with
  | [] => if enough idx then Done (t, [row idx]) else Refused
  | _ =>
    match fuel with
    | O => Unfinished
    | S fuel =>
      match convert n m s with
      | None => Stray
      | Some (x, d, rest) =>
        match step idx x d t with
        | Done t => match uhf_stream n m step row enough fuel rest (idx + 1) t with Done (t, ptr) => Done (t, row idx :: ptr) | o => o end
        | Refused => Refused | Outside => Outside | Stray => Stray | Unfinished => Unfinished
        end
      end
    end
  end.
End Stream.
(** Hund and Exchange *)
Definition uhf_pairs (N : Z) (s : list num) (t : table R) : outcome (table R * list Z) :=
  if 0 <? N then
    uhf_stream 2 1 (fun idx x d t => if inb N idx then let t := set_row idx x t in Done (match d with [] => t | v :: _ => set_val idx v t end) else Outside)
      (fun idx => idx) (fun idx => idx =? N) (length s) s 0 t
  else Done (t, []).
(** PairHop *)
Definition uhf_pair_hop (N : Z) (s : list num) (t : table R) : outcome (table R * list Z) :=
  if 0 <? N then
    uhf_stream 2 1 (fun idx x d t =>
        if inb N (2 * idx) then
          let t := set_row (2 * idx) x t in
          let t := match d with [] => t | v :: _ => set_val (2 * idx) v t end in
          if inb N (2 * idx + 1) then Done (set_val (2 * idx + 1) (snd t (2 * idx)) (set_row (2 * idx + 1) [fst t (2 * idx) 1; fst t (2 * idx) 0] t)) else Outside
        else Outside)
      (fun idx => 2 * idx) (fun idx => idx =? N / 2) (length s) s 0 t
  else Done (t, []).
(** InterAll; dReValue and dImValue are those of the line before, at first not initialised or left by Transfer (reim) *)
Definition uhf_inter_all (N : Z) (s : list num) (reim : R * R) (t : table C) : outcome (table C * list Z) :=
  if 0 <? N then
    uhf_stream 8 2 (fun idx x d t => if inb N idx then
        let before := if idx =? 0 then reim else snd t (idx - 1) in
        let d := over d [fst before; snd before] in Done (set_val idx (real d 0, real d 1) (set_row idx x t)) else Outside)
      (fun idx => idx) (fun idx => idx =? N) (length s) s 0 t
  else Done (t, []).

(** ** all files of the Hamiltonian, with the counts of their headers; a file that is refused does not keep the others from being read *)
Definition also {A B} (a : outcome A) (b : outcome B) : outcome (A * B) :=
  match a, b with
  | Done x, Done y => Done (x, y)
  | Outside, _ => Outside | Stray, _ => Stray | Unfinished, _ => Unfinished
  | _, Outside => Outside | _, Stray => Stray | _, Unfinished => Unfinished
  | _, _ => Refused
  end.
Record files := Files { n_trans : Z; l_trans : list (list num); n_intra : Z; l_intra : list (list num); n_inter : Z; l_inter : list (list num);
  n_hund : Z; l_hund : list (list num); n_pair : Z; l_pair : list (list num); n_exch : Z; l_exch : list (list num); n_all : Z; l_all : list (list num) }.
Definition to_terms (F : files) (r : table C * table R * table R * table R * table R * table R * table C) : terms :=
  let '(tr, ia, ie, hu, pa, ex, al) := r in
  Terms (n_intra F) (fun k => fst ia k 0) (snd ia) (n_inter F) (fst ie) (snd ie) (n_hund F) (fst hu) (snd hu) (n_trans F) (fst tr) (snd tr)
    (2 * n_pair F) (fst pa) (snd pa) (n_exch F) (fst ex) (snd ex) (n_all F) (fst al) (snd al).
Definition map_done {A B} (f : A -> B) (o : outcome A) : outcome B :=
  match o with Done a => Done (f a) | Refused => Refused | Outside => Outside | Stray => Stray | Unfinished => Unfinished end.
(** the arrays contain anything before (tr0 ..) *)
Record before := Before { b_c : table C; b_r : table R; b_re : R; b_reim : R * R }.
(** readdef.c:861-906, 1012-1015: one file after the other; an error ends the program after the last *)
Definition main_hamiltonian (Nsite TwoSz : Z) (F : files) (B : before) : outcome terms :=
  map_done (to_terms F) (also (also (also (also (also (also
    (get_transfer_info Nsite (n_trans F) (l_trans F) (b_c B))
    (get_info_coulomb_intra Nsite (n_intra F) (l_intra F) (b_r B)))
    (read_pair_d_value Nsite (n_inter F) (l_inter F) (b_r B)))
    (read_pair_d_value Nsite (n_hund F) (l_hund F) (b_r B)))
    (read_pair_hop_value Nsite (2 * n_pair F) (l_pair F) (b_r B)))
    (read_pair_d_value Nsite (n_exch F) (l_exch F) (b_r B)))
    (get_info_inter_all TwoSz Nsite (n_all F) (l_all F) (b_c B))).
(** ComplexUHF/readdef.c:432-596 *)
Definition uhf_hamiltonian (F : files) (B : before) : outcome terms :=
  map_done (to_terms F) (also (also (also (also (also (also
    (uhf_transfer (n_trans F) (l_trans F) (b_re B) (b_c B))
    (uhf_lines 1 (n_intra F) (l_intra F) (b_r B)))
    (uhf_lines 2 (n_inter F) (l_inter F) (b_r B)))
    (map_done fst (uhf_pairs (n_hund F) (concat (l_hund F)) (b_r B))))
    (map_done fst (uhf_pair_hop (2 * n_pair F) (concat (l_pair F)) (b_r B))))
    (map_done fst (uhf_pairs (n_exch F) (concat (l_exch F)) (b_r B))))
    (map_done fst (uhf_inter_all (n_all F) (concat (l_all F)) (b_reim B) (b_c B)))).

(** common/setmemory.c:49-59: the pointers that the allocation of an N x M table writes; there are N of them *)
Definition i_2d_allocate_writes (N : Z) : list Z := 0 :: zrange 0 N.
