(** Property theorems about the readers of the name list and of the Green function requests. *)
From Coq Require Import ZArith List String Ascii.
From Verif Require Import Base.ZLoop Def.Model Def.Spec Def.ProofsNum Def.ProofsNames Def.Cases.
Import ListNotations.
Local Open Scope Z_scope.

(** C40: the rows 0..n-1 hold each operator needed exactly once, and the row numbers kept for the two-body operators are those of their factors *)
Theorem C40_numbering Ns ca caca n a c : (forall o, needed ca caca o -> op_ok Ns o) -> read_green Ns ca caca = (n, a, c) ->
  (forall i, 0 <= i < n -> exists o, a i = Some o /\ needed ca caca o) /\
  (forall i j o, 0 <= i < n -> 0 <= j < n -> a i = Some o -> a j = Some o -> i = j) /\
  (forall o, needed ca caca o -> exists i, 0 <= i < n /\ a i = Some o) /\
  (forall k p, nth_error caca k = Some p -> exists i j, c (Z.of_nat k) = (i, j) /\ 0 <= i < n /\ 0 <= j < n /\ a i = Some (fst p) /\ a j = Some (dagger (snd p))).
Proof. exact (green Ns ca caca n a c). Qed.
Print Assumptions C40_numbering.
Example C40_case : (forall o, needed ca caca o -> op_ok 2 o) /\ let '(n, a, c) := read_green 2 ca caca in
  n = 4 /\ map a (zrange 0 4) = [Some c00; Some c01; Some d11; Some c10] /\ map c (zrange 0 2) = [(0, 2); (1, 3)].
Proof. exact (conj request_ok request_read). Qed.

(** without two-body operators of this kind the rows are the lines of the file, if no line occurs twice *)
Theorem C40_direct Ns ca : (forall o, In o ca -> op_ok Ns o) -> NoDup ca ->
  exists a, read_green_direct Ns ca = Some (Z.of_nat (List.length ca), a) /\ forall k o, nth_error ca k = Some o -> a (Z.of_nat k) = Some o.
Proof. exact (direct Ns ca). Qed.
Print Assumptions C40_direct.
Example C40_direct_case : (forall o, In o [c00; c01] -> op_ok 2 o) /\ NoDup [c00; c01].
Proof. exact direct_ok. Qed.
(** a repeated line makes the reader write beyond the table *)
Theorem C40_repeated_refuted : exists Ns ca, (forall o, In o ca -> op_ok Ns o) /\ read_green_direct Ns ca = None.
Proof. exists 2, [c00; c00]. split; [|exact direct_twice]. intros o [<-|[<-|[]]]; cbn; repeat split; discriminate. Qed.
Print Assumptions C40_repeated_refuted.

(** C41: an accepted list has only known keywords, each on one line *)
Theorem C41_accepted file T : (forall c, In c file -> c <> zero) -> Forall (fun l => (List.length l <= 254)%nat) (lines file) -> get_file_name file = Ok T ->
  (forall l w, In l (lines file) -> first_word l w -> hd_error w <> Some "#"%char -> exists k, is_keyword k w) /\
  (forall i j l l' w w' k, nth_error (lines file) i = Some l -> nth_error (lines file) j = Some l' -> first_word l w -> first_word l' w' ->
     hd_error w <> Some "#"%char -> hd_error w' <> Some "#"%char -> is_keyword k w -> is_keyword k w' -> i = j).
Proof. exact (accepts_only file T). Qed.
Print Assumptions C41_accepted.
(** a list of comments, empty lines and pairs of words is accepted exactly if every keyword is known and none repeated, otherwise rejected; the table holds the names given *)
Theorem C41_names file entries : well_formed file entries ->
  ((exists T, get_file_name file = Ok T) <-> acceptable entries) /\ (~ acceptable entries -> get_file_name file = Rejected) /\
  (forall T, get_file_name file = Ok T -> (forall w f k, In (Some (w, f)) entries -> is_keyword k w -> T k = f) /\
     (forall k, (forall w f, In (Some (w, f)) entries -> ~ is_keyword k w) -> T k = [])).
Proof. exact (name_list file entries). Qed.
Print Assumptions C41_names.
Example C41_case : well_formed good good_entries /\ shown (get_file_name good) = Some (of "a.def", of "b.def").
Proof. exact (conj good_well_formed good_read). Qed.
(** reading ends for every file *)
Theorem C41_ends file : get_file_name file <> OutOfFuel.
Proof. exact (terminates _ file None None _ (Nat.lt_succ_diag_r _)). Qed.
Print Assumptions C41_ends.

(** a keyword without a file name is accepted with the file name of the line before *)
Theorem C41_missing_name_refuted : exists file T, lines file = [of "ModPara a.def"; of "LocSpin"] /\ get_file_name file = Ok T /\ T 1 = of "a.def".
Proof. exists missing. assert (H := missing_read). destruct (get_file_name missing) as [T| | | |]; cbn in H; try discriminate. exists T. split; [reflexivity|]. split; [reflexivity|]. now injection H. Qed.
Print Assumptions C41_missing_name_refuted.
(** a line of blanks makes a correct list unacceptable, or is compared although nothing has been read *)
Theorem C41_blank_line_refuted : get_file_name (of "ModPara a.def" ++ [newline] ++ of " " ++ [newline]) = Rejected /\
  get_file_name (of " " ++ [newline] ++ of "ModPara a.def" ++ [newline]) = Uninitialised.
Proof. exact (conj blanks_read blank_first_read). Qed.
Print Assumptions C41_blank_line_refuted.
(** a word of 200 characters overflows the keyword buffer; the rest of a comment longer than the line buffer is taken for an entry *)
Theorem C41_long_line_refuted : (exists file, lines file = [repeat "a"%char 200 ++ of " x"] /\ get_file_name file = Overflow) /\
  (exists file T l, lines file = [of "# " ++ l] /\ get_file_name file = Ok T /\ T 0 = of "x").
Proof.
  split; [exists long_word; split; [vm_compute; reflexivity|exact long_word_read]|]. exists long_comment. assert (H := long_comment_read). destruct (get_file_name long_comment) as [T| | | |]; cbn in H; try discriminate.
  exists T, (repeat "-"%char 253 ++ of "ModPara x"). split; [vm_compute; reflexivity|]. split; [reflexivity|]. now injection H.
Qed.
Print Assumptions C41_long_line_refuted.
