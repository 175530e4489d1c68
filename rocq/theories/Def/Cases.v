(** Concrete name lists and request files. *)
From Coq Require Import ZArith List Bool Lia String Ascii.
From Verif Require Import Base.ZLoop Def.Model Def.Spec Def.ProofsNum Def.ProofsNames.
Import ListNotations.
Local Open Scope Z_scope.

Definition nl : str := [newline].
(** a comment, a keyword in lower case, an empty line, a keyword preceded by a blank *)
Definition good : str := of "# list" ++ nl ++ of "modpara a.def" ++ nl ++ nl ++ of " LocSpin b.def x" ++ nl.
Definition good_entries : list (option (str * str)) := [None; Some (of "modpara", of "a.def"); None; Some (of "LocSpin", of "b.def")].
Lemma word_dec w : w <> [] -> forallb (fun c => negb (isspace c) && negb (Ascii.eqb c zero)) w = true -> is_word w.
Proof.
  intros H F. split; [exact H|]. intros c Hc. rewrite forallb_forall in F. specialize (F c Hc). apply andb_prop in F. destruct F as [F1 F2]. apply negb_true_iff in F1, F2. split; [exact F1|now apply Ascii.eqb_neq].
Qed.
Lemma blank_dec w : forallb isspace w = true -> blank w.
Proof. intros F c Hc. rewrite forallb_forall in F. now apply F. Qed.
Ltac word := apply word_dec; [discriminate|reflexivity].
Lemma good_well_formed : well_formed good good_entries.
Proof.
  split; [|repeat constructor]. unfold good_entries. change (lines good) with [of "# list"; of "modpara a.def"; []; of " LocSpin b.def x"].
  constructor; [|constructor; [|constructor; [|constructor; [|constructor]]]].
  - apply says_nothing. right. exists (of "#"). split; [|split; [reflexivity|cbn; lia]]. exists [], (of " list"). split; [reflexivity|]. split; [word|]. split; [intros c []|right; now exists " "%char, (of "list")].
  - apply says_pair; [|discriminate|cbn; lia|cbn; lia]. exists [], (of " "), []. split; [reflexivity|]. split; [word|]. split; [word|]. split; [now apply blank_dec|]. split; [now apply blank_dec|]. split; [discriminate|now left].
  - apply says_nothing. now left.
  - apply says_pair; [|discriminate|cbn; lia|cbn; lia]. exists (of " "), (of " "), (of " x"). split; [reflexivity|]. split; [word|]. split; [word|]. split; [now apply blank_dec|]. split; [now apply blank_dec|]. split; [discriminate|right; now exists " "%char, (of "x")].
Qed.
Definition shown (r : reading) : option (str * str) := match r with Ok T => Some (T 0, T 1) | _ => None end.
Lemma good_read : shown (get_file_name good) = Some (of "a.def", of "b.def").
Proof. vm_compute. reflexivity. Qed.

(** a line with a keyword only takes the file name of the line before *)
Definition missing : str := of "ModPara a.def" ++ nl ++ of "LocSpin" ++ nl.
Lemma missing_read : shown (get_file_name missing) = Some (of "a.def", of "a.def").
Proof. vm_compute. reflexivity. Qed.
(** a line of blanks repeats the line before and is reported as a repeated keyword *)
Definition blanks : str := of "ModPara a.def" ++ nl ++ of " " ++ nl.
Lemma blanks_read : get_file_name blanks = Rejected.
Proof. vm_compute. reflexivity. Qed.
(** a first line of blanks *)
Definition blank_first : str := of " " ++ nl ++ of "ModPara a.def" ++ nl.
Lemma blank_first_read : get_file_name blank_first = Uninitialised.
Proof. vm_compute. reflexivity. Qed.
(** the rest of a long comment is read as an entry *)
Definition long_comment : str := of "# " ++ repeat "-"%char 253 ++ of "ModPara x" ++ nl.
Lemma long_comment_read : shown (get_file_name long_comment) = Some (of "x", []).
Proof. vm_compute. reflexivity. Qed.
(** a word of 200 characters *)
Definition long_word : str := repeat "a"%char 200 ++ of " x" ++ nl.
Lemma long_word_read : get_file_name long_word = Overflow.
Proof. vm_compute. reflexivity. Qed.

(** ** requests on two sites *)
Definition c00 : op := (0, 0, 0, 0).
Definition c01 : op := (0, 0, 1, 0).
Definition c10 : op := (1, 0, 0, 0).
Definition d11 : op := (1, 1, 1, 1).
Definition ca : list op := [c00; c01; c00].
Definition caca : list op2 := [(c00, d11); (c01, c01)].
Lemma request_ok : forall o, needed ca caca o -> op_ok 2 o.
Proof.
  intros o [H|(p & H & H')].
  - cbn in H. destruct H as [<-|[<-|[<-|[]]]]; cbn; lia.
  - cbn in H. destruct H as [<-|[<-|[]]]; cbn in H'; destruct H' as [-> | ->]; cbn; lia.
Qed.
Lemma request_read : let '(n, a, c) := read_green 2 ca caca in
  n = 4 /\ map a (zrange 0 4) = [Some c00; Some c01; Some d11; Some c10] /\ map c (zrange 0 2) = [(0, 2); (1, 3)].
Proof. vm_compute. repeat split. Qed.
Lemma direct_ok : (forall o, In o [c00; c01] -> op_ok 2 o) /\ NoDup [c00; c01].
Proof. split; [intros o [<-|[<-|[]]]; cbn; lia|]. repeat constructor; cbn; intuition discriminate. Qed.
Lemma direct_twice : read_green_direct 2 [c00; c00] = None.
Proof. vm_compute. reflexivity. Qed.
