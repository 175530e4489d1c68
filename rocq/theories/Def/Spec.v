(** What a name list and a list of Green function requests mean. *)
From Coq Require Import ZArith List Bool String Ascii.
From Verif Require Import Def.Model.
Import ListNotations.

(** ** text *)
Definition cons_head {A} (x : A) (l : list (list A)) : list (list A) := match l with [] => [[x]] | y :: l => (x :: y) :: l end.
(** lines of a file, without their newlines *)
Fixpoint lines (s : str) : list str :=
  match s with
  | [] => []
  | c :: s => if Ascii.eqb c newline then [] :: lines s else cons_head c (lines s)
  end.
(** words of a line *)
Definition is_word (w : str) : Prop := w <> [] /\ forall c, In c w -> isspace c = false /\ c <> zero.
Definition blank (w : str) : Prop := forall c, In c w -> isspace c = true.
(** the line consists of blanks, a word, blanks, a word, then anything separated from it *)
Definition two_words (l a b : str) : Prop :=
  exists s1 s2 s3, l = s1 ++ a ++ s2 ++ b ++ s3 /\ is_word a /\ is_word b /\ blank s1 /\ blank s2 /\ s2 <> [] /\
    (s3 = [] \/ exists c r, s3 = c :: r /\ isspace c = true).
Definition first_word (l a : str) : Prop :=
  exists s1 s3, l = s1 ++ a ++ s3 /\ is_word a /\ blank s1 /\ (s3 = [] \/ exists c r, s3 = c :: r /\ isspace c = true).
Definition is_comment (l : str) : Prop := exists a, first_word l a /\ hd_error a = Some "#"%char /\ (List.length a < 200)%nat.
(** what a line says: nothing (empty or comment) or an assignment *)
Inductive says : str -> option (str * str) -> Prop :=
| says_nothing l : l = [] \/ is_comment l -> says l None
| says_pair l a b : two_words l a b -> hd_error a <> Some "#"%char -> (List.length a < 200)%nat -> (List.length b < 200)%nat -> says l (Some (a, b)).
(** every line fits in the buffer and is empty, a comment, or starts with two words of fewer than 200 characters *)
Definition well_formed (file : str) (entries : list (option (str * str))) : Prop :=
  Forall2 says (lines file) entries /\ Forall (fun l => (List.length l <= 254)%nat) (lines file).
Definition same_word (a b : str) : Prop := map tolower a = map tolower b.
Definition is_keyword (k : Z) (w : str) : Prop := (0 <= k)%Z /\ exists v, nth_error keywords (Z.to_nat k) = Some v /\ same_word v w.
(** every keyword is known and none occurs twice *)
Definition acceptable (entries : list (option (str * str))) : Prop :=
  (forall w f, In (Some (w, f)) entries -> exists k, is_keyword k w) /\
  (forall i j w f w' f' k, nth_error entries i = Some (Some (w, f)) -> nth_error entries j = Some (Some (w', f')) ->
     is_keyword k w -> is_keyword k w' -> i = j).

(** ** requests *)
Local Open Scope Z_scope.
(** sites below Ns, spins 0 or 1 *)
Definition op_ok (Ns : Z) (o : op) : Prop := let '(x0, x1, x2, x3) := o in 0 <= x0 < Ns /\ 0 <= x2 < Ns /\ 0 <= x1 < 2 /\ 0 <= x3 < 2.
Definition dagger (o : op) : op := let '(x0, x1, x2, x3) := o in (x2, x3, x0, x1).
(** the one-body operators needed *)
Definition needed (ca : list op) (caca : list op2) (o : op) : Prop := In o ca \/ exists p, In p caca /\ (o = fst p \/ o = dagger (snd p)).
