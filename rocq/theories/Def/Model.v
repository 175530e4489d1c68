(** Input definitions: the name list of files (src/mVMC/readdef.c GetFileName, CheckKW, CheckWords) and the numbering of the one-body Green functions
    (CountOneBodyGForLanczos, GetInfoOneBodyG, GetInfoTwoBodyGEx).  Text is a list of characters without NUL; bytes above 127 are left alone by tolower. *)
From Coq Require Import ZArith List Bool String Ascii.
From Verif Require Import Base.ZLoop.
Import ListNotations.

Definition str := list ascii.
Definition of (s : string) : str := list_ascii_of_string s.
Definition code (c : ascii) : Z := Z.of_nat (nat_of_ascii c).
(** include/readdef.h:33-58 cKWListOfFileNameList *)
Definition keywords : list str := map of
  ["ModPara"; "LocSpin"; "Trans"; "CoulombIntra"; "CoulombInter"; "Hund"; "PairHop"; "Exchange"; "Gutzwiller"; "Jastrow"; "DH2"; "DH4";
   "ChargeRBM_HiddenLayer"; "ChargeRBM_PhysLayer"; "ChargeRBM_PhysHidden"; "SpinRBM_HiddenLayer"; "SpinRBM_PhysLayer"; "SpinRBM_PhysHidden";
   "GeneralRBM_HiddenLayer"; "GeneralRBM_PhysLayer"; "GeneralRBM_PhysHidden"; "Orbital"; "OrbitalAntiParallel"; "OrbitalParallel"; "OrbitalGeneral";
   "TransSym"; "InGutzwiller"; "InJastrow"; "InDH2"; "InDH4"; "InChargeRBM_HiddenLayer"; "InChargeRBM_PhysLayer"; "InChargeRBM_PhysHidden";
   "InSpinRBM_HiddenLayer"; "InSpinRBM_PhysLayer"; "InSpinRBM_PhysHidden"; "InGeneralRBM_HiddenLayer"; "InGeneralRBM_PhysLayer"; "InGeneralRBM_PhysHidden";
   "InOrbital"; "InOrbitalAntiParallel"; "InOrbitalParallel"; "InOrbitalGeneral"; "OneBodyG"; "TwoBodyG"; "TwoBodyGEx"; "InterAll"; "OptTrans"; "InOptTrans";
   "BF"; "BFRange"]%string.
Definition D_CharTmpReadDef : nat := 200. (* include/readdef.h:24 *)

(** ** C library *)
Definition tolower (c : ascii) : ascii := let n := nat_of_ascii c in if (65 <=? n)%nat && (n <=? 90)%nat then ascii_of_nat (n + 32) else c.
(** strncmp; a string ends with NUL (code 0) *)
Fixpoint strncmp (a b : str) (n : nat) : Z :=
  match n with
  | O => 0
  | S n => match a, b with
           | [], [] => 0
           | [], y :: _ => (0 - code y)%Z
           | x :: _, [] => (code x - 0)%Z
           | x :: a, y :: b => if Ascii.eqb x y then strncmp a b n else (code x - code y)%Z
           end
  end.
Fixpoint strcmp (a b : str) : Z :=
  match a, b with
  | [], [] => 0
  | [], y :: _ => (0 - code y)%Z
  | x :: _, [] => (code x - 0)%Z
  | x :: a, y :: b => if Ascii.eqb x y then strcmp a b else (code x - code y)%Z
  end.
Definition newline : ascii := ascii_of_nat 10.
Definition isspace (c : ascii) : bool := let n := nat_of_ascii c in (n =? 32)%nat || ((9 <=? n)%nat && (n <=? 13)%nat).
(** fgets(buf, n+1, fp): at most n characters, up to and including a newline; the rest of the file *)
Fixpoint fgets (n : nat) (s : str) : str * str :=
  match n, s with
  | O, _ => ([], s)
  | _, [] => ([], [])
  | S n, c :: s => if Ascii.eqb c newline then ([c], s) else let (l, r) := fgets n s in (c :: l, r)
  end.
Fixpoint skip (s : str) : str := match s with c :: r => if isspace c then skip r else s | [] => [] end.
Fixpoint token (s : str) : str * str :=
  match s with
  | [] => ([], [])
  | c :: r => if isspace c then ([], s) else let (t, r') := token r in (c :: t, r')
  end.
(** sscanf(line, "%s %s\n", a, b): the words assigned to a and to b; None leaves the variable as it is *)
Definition sscanf2 (line : str) : option str * option str :=
  let (a, r) := token (skip line) in
  match a with
  | [] => (None, None)
  | _ => let (b, _) := token (skip r) in (Some a, match b with [] => None | _ => Some b end)
  end.

(** ** readdef.c:1496-1519 CheckWords *)
Definition check_words (ctmp cKeyWord : str) : Z :=
  let cKW_small := map tolower cKeyWord in
  let ctmp_small := map tolower ctmp in
  let n := List.length ctmp in
  let n := if (n <? List.length cKW_small)%nat then List.length cKW_small else n in
  strncmp ctmp_small cKW_small n.
(** readdef.c:1607-1625 CheckKW: (iret, index); the last match counts *)
Definition check_kw (cKW : str) (cKWList : list str) : Z * Z :=
  snd (fold_left (fun (st : Z * (Z * Z)) w =>
    let '(i, (iret, idx)) := st in
    (i + 1, if (strcmp cKW [] =? 0) then (iret, idx) else if check_words cKW w =? 0 then (0, i) else (iret, idx)))%Z cKWList (0, (-1, -1)))%Z.

(** ** readdef.c:1699-1748 GetFileName *)
Inductive reading := Ok (table : Z -> str) | Rejected | Uninitialised | Overflow | OutOfFuel.
Definition pick (old new : option str) : option str := match new with Some _ => new | None => old end.
Definition hash : str := of "#".
Fixpoint read_lines (fuel : nat) (file : str) (kw name : option str) (table : Z -> str) : reading :=
  match fuel with
  | O => OutOfFuel
  | S fuel =>
    match file with
    | [] => Ok table
    | _ =>
      let (line, rest) := fgets 255 file in
      let '(a, b) := sscanf2 line in
      if match a with Some t => (D_CharTmpReadDef <=? List.length t)%nat | None => false end then Overflow
      else
      let kw := pick kw a in let name := pick name b in
      let first_is_newline := match line with c :: _ => Ascii.eqb c newline | [] => false end in
      match kw with
      | None => (* whatever the comparison with "#" gives, an empty line is skipped *)
          if first_is_newline then read_lines fuel rest kw name table else Uninitialised
      | Some k =>
          if (strncmp k hash 1 =? 0)%Z || first_is_newline then read_lines fuel rest kw name table
          else match name with
          | None => Uninitialised
          | Some f =>
              if negb (negb (strcmp k [] =? 0)%Z && negb (strcmp f [] =? 0)%Z) then read_lines fuel rest kw name table
              else if (strcmp k [] * strcmp f [] =? 0)%Z then Rejected
              else
                let '(iret, idx) := check_kw k keywords in
                if negb (iret =? 0)%Z then Rejected
                else if negb (strcmp (table idx) [] =? 0)%Z then Rejected
                else if (D_CharTmpReadDef <=? List.length f)%nat then Overflow
                else read_lines fuel rest kw name (upd table idx f)
          end
      end
    end
  end.
Definition get_file_name (file : str) : reading := read_lines (S (List.length file)) file None None (fun _ => []).

(** ** numbering of one-body operators *)
Local Open Scope Z_scope.
(** a one-body operator c^dagger_{x0,x1} c_{x2,x3} *)
Definition op := (Z * Z * Z * Z)%type.
(** a two-body operator given by two one-body operators, as in the file *)
Definition op2 := (op * op)%type.
Definition upd2 {A} (f : Z -> Z -> A) (i j : Z) (v : A) : Z -> Z -> A := upd f i (upd (f i) j v).
Section Numbering.
Variable Ns : Z.
Definition isite (x s : Z) : Z := x + s * Ns.
(** "if (iFlgOneBodyG[isite1][isite2] == -1) { ... = icount; icount++; }" *)
Definition number_one (o : op) (st : (Z -> Z -> Z) * Z) : (Z -> Z -> Z) * Z :=
  let '(x0, x1, x2, x3) := o in let (flg, icount) := st in
  let isite1 := isite x0 x1 in let isite2 := isite x2 x3 in
  if flg isite1 isite2 =? -1 then (upd2 flg isite1 isite2 icount, icount + 1) else st.
(** readdef.c:249-318 CountOneBodyGForLanczos; the malloc'ed table is filled with -1 first *)
Definition count_one_body (ca : list op) (caca : list op2) : (Z -> Z -> Z) * Z :=
  let st := (fun _ _ => -1, 0) in
  let st := fold_left (fun st o => number_one o st) ca st in
  fold_left (fun st o =>
    let '((x0, x1, x2, x3), (x4, x5, x6, x7)) := o in
    let st := number_one (x0, x1, x2, x3) st in
    number_one (x6, x7, x4, x5) st) caca st.
(** readdef.c:2267-2302 GetInfoOneBodyG with IndirectGFOn: CisAjsIdx *)
Definition fill_one (flg : Z -> Z -> Z) (ca : list op) (CisAjsIdx : Z -> option op) : Z -> option op :=
  fold_left (fun a o => let '(x0, x1, x2, x3) := o in upd a (flg (isite x0 x1) (isite x2 x3)) (Some o)) ca CisAjsIdx.
(** readdef.c:2305-2351 GetInfoTwoBodyGEx: CisAjsIdx and CisAjsCktAltIdx *)
Definition fill_two (flg : Z -> Z -> Z) (caca : list op2) (CisAjsIdx : Z -> option op) : (Z -> option op) * (Z -> Z * Z) :=
  snd (fold_left (fun (st : Z * ((Z -> option op) * (Z -> Z * Z))) o =>
    let '(idx, (a, c)) := st in
    let '((x0, x1, x2, x3), (x4, x5, x6, x7)) := o in
    let n1 := flg (isite x0 x1) (isite x2 x3) in
    let a := upd a n1 (Some (x0, x1, x2, x3)) in
    let n2 := flg (isite x6 x7) (isite x4 x5) in
    let a := upd a n2 (Some (x6, x7, x4, x5)) in
    (idx + 1, (a, upd c idx (n1, n2)))) caca (0, (CisAjsIdx, fun _ => (0, 0)))).
(** readdef.c:583, 1046, 1051: both passes; the array of malloc'ed rows holds nothing before *)
Definition read_green (ca : list op) (caca : list op2) : Z * (Z -> option op) * (Z -> Z * Z) :=
  let (flg, n) := count_one_body ca caca in
  let a := fill_one flg ca (fun _ => None) in
  let (a, c) := fill_two flg caca a in
  (n, a, c).
(** readdef.c:583 and 1046 without exchange-type two-body operators (NTwoBodyGEx = 0) but NLanczosMode > 1: the number of rows is the count of
    different operators, the rows are written in file order without consulting it; None: a row beyond the table is written *)
Definition read_green_direct (ca : list op) : option (Z * (Z -> option op)) :=
  let (_, n) := count_one_body ca [] in
  let '(idx, a, ok) := fold_left (fun (st : Z * (Z -> option op) * bool) o => let '(idx, a, ok) := st in (idx + 1, upd a idx (Some o), ok && (idx <? n))) ca (0, fun _ => None, true) in
  if ok then Some (n, a) else None.
End Numbering.
