(** Parameter files: averages written at the end of the optimisation, readers of initial values.
    Numbers are complex or real numbers; the text of a number ("%.18e") is identified with the number. *)
From Coq Require Import ZArith List Bool String Reals.
From Coquelicot Require Import Coquelicot.
From Verif Require Import Base.ZLoop Mem.Model.
Import ListNotations.
Local Open Scope Z_scope.

Section WithSizes.
Variable S : sizes.

(** ** avevar.c:82-92 StoreOptData; SROptData is malloc'ed (setmemory.c:424): None = never written *)
Definition data := Z -> option C.
Definition store_opt_data (Etot Etot2 : C) (Para : Z -> C) (sample : Z) (SROptData : data) : data :=
  let n := 2 + NPara S in
  let d := upd SROptData (n * sample + 0) (Some Etot) in
  let d := upd d (n * sample + 1) (Some Etot2) in
  loop 0 (NPara S) (fun i d => upd d (n * sample + (i + 2)) (Some (Para i))) d.
(** vmcmain.c:339 and 511-513; the energies and parameters after each step are given by E, E2 and P *)
Definition opt_steps (NSROptItrStep NSROptItrSmp : Z) (E E2 : Z -> C) (P : Z -> Z -> C) : data :=
  loop 0 NSROptItrStep (fun step d =>
    if NSROptItrStep - NSROptItrSmp <=? step
    then store_opt_data (E step) (E2 step) (P step) (step - (NSROptItrStep - NSROptItrSmp)) d else d) (fun _ => None).

Section Output.
Variables (NSROptItrSmp : Z) (SROptData : data).
(** ** avevar.c:34-54 CalcAveVar; None = an entry never written is used *)
Definition calc_ave_var (i n : Z) : option (C * R) :=
  let sum := loop 0 NSROptItrSmp (fun sample ave =>
    match ave, SROptData (i + n * sample) with Some a, Some x => Some (a + x)%C | _, _ => None end) (Some (RtoC 0)) in
  match sum with
  | None => None
  | Some s =>
      let ave := (s / RtoC (IZR NSROptItrSmp))%C in
      let var := loop 0 NSROptItrSmp (fun sample var =>
        match var, SROptData (i + n * sample) with Some v, Some x => Some (v + Re ((x - ave) * Cconj (x - ave))%C)%R | _, _ => None end) (Some 0%R) in
      match var with None => None | Some v => Some (ave, sqrt (v / (IZR NSROptItrSmp - 1))) end
  end.
(** files: the numbers of *_opt.dat; per family the suffix, the number in the header, the lines *)
Definition line : Type := Z * R * R.
Definition ofile : Type := string * (Z * list line).
Definition out : Type := list R * list ofile.
(** ** avevar.c:66-80 Child_OutputOptData *)
Definition child (suffix : string) (Nidx_head Nidx count_i n : Z) (o : option out) : option out :=
  let r := loop 0 Nidx (fun i st =>
    match st, calc_ave_var (count_i + i) n with
    | Some (all, body), Some (ave, var) => Some ((all ++ [Re ave; Im ave; var])%list, (body ++ [(i, Re ave, Im ave)])%list)
    | _, _ => None
    end) (match o with Some (all, _) => Some (all, []) | None => None end) in
  match o, r with
  | Some (_, files), Some (all, body) => Some (all, (files ++ [(suffix, (Nidx_head, body))])%list)
  | _, _ => None
  end.
(** "if(N != 0) { Child_OutputOptData(fp, fileName, ..., head, len, count_i, n); count_i += len; }" *)
Definition family (suffix : string) (head len n : Z) (st : Z * option out) : Z * option out :=
  if head =? 0 then st else (fst st + len, child suffix head len (fst st) n (snd st)).
(** ** avevar.c:94-261 OutputOptData *)
Definition output_opt_data : option out :=
  let n := 2 + NPara S in
  if NSROptItrSmp =? 1 then
    match loop 0 n (fun i st => match st, SROptData i with Some all, Some x => Some (all ++ [Re x; 0%R])%list | _, _ => None end) (Some []) with
    | None => None | Some all => Some (all, []) end
  else
    let o := loop 0 2 (fun i st => match st, calc_ave_var i n with Some all, Some (ave, var) => Some (all ++ [Re ave; Im ave; var])%list | _, _ => None end) (Some []) in
    let st := (2, match o with Some all => Some (all, []) | None => None end) in
    let st := family "gutzwiller" (NGutzwillerIdx S) (NGutzwillerIdx S) n st in
    let st := family "jastrow" (NJastrowIdx S) (NJastrowIdx S) n st in
    let st := family "doublonHolon2site" (NDoublonHolon2siteIdx S) (NDoublonHolon2siteIdx S * 2 * 3) n st in
    let st := family "doublonHolon4site" (NDoublonHolon4siteIdx S) (NDoublonHolon4siteIdx S * 2 * 5) n st in
    let st := family "chargeRBM_physlayer" (NChargeRBM_PhysLayerIdx S) (NChargeRBM_PhysLayerIdx S) n st in
    let st := family "spinRBM_physlayer" (NSpinRBM_PhysLayerIdx S) (NSpinRBM_PhysLayerIdx S) n st in
    let st := family "generalRBM_physlayer" (NGeneralRBM_PhysLayerIdx S) (NGeneralRBM_PhysLayerIdx S) n st in
    let st := family "chargeRBM_hiddenlayer" (NChargeRBM_HiddenLayerIdx S) (NChargeRBM_HiddenLayerIdx S) n st in
    let st := family "spinRBM_hiddenlayer" (NSpinRBM_HiddenLayerIdx S) (NSpinRBM_HiddenLayerIdx S) n st in
    let st := family "generalRBM_hiddenlayer" (NGeneralRBM_HiddenLayerIdx S) (NGeneralRBM_HiddenLayerIdx S) n st in
    let st := family "chargeRBM_physhidden" (NChargeRBM_PhysHiddenIdx S) (NChargeRBM_PhysHiddenIdx S) n st in
    let st := family "spinRBM_physhidden" (NSpinRBM_PhysHiddenIdx S) (NSpinRBM_PhysHiddenIdx S) n st in
    let st := family "generalRBM_physhidden" (NGeneralRBM_PhysHiddenIdx S) (NGeneralRBM_PhysHiddenIdx S) n st in
    let st :=
      if NSlater S =? 0 then st
      else if iFlgOrbitalGeneral S =? 0 then (fst st + NSlater S, child "orbital" (NSlater S) (NSlater S) (fst st) n (snd st))
      else if negb (iNOrbitalParallel S =? 0) then
        let st := (fst st + iNOrbitalAntiParallel S, child "orbitalAntiParallel" (iNOrbitalAntiParallel S) (iNOrbitalAntiParallel S) (fst st) n (snd st)) in
        (fst st + 2 * iNOrbitalParallel S, child "orbitalParallel" (2 * iNOrbitalParallel S) (2 * iNOrbitalParallel S) (fst st) n (snd st))
      else (fst st + NSlater S, child "orbital_general" (NSlater S) (NSlater S) (fst st) n (snd st)) in
    let st := family "trans" (NOptTrans S) (NOptTrans S) n st in
    snd st.
End Output.

(** ** parameter.c:92-131 ReadInitParameter; "fscanf(fp, "%lf ", &x)" leaves x unchanged when the file is exhausted *)
Definition scan (x : R) (file : list R) : R * list R := match file with [] => (x, []) | y :: file => (y, file) end.
Record reader := Reader { rest : list R; tmp_real : R; tmp_comp : R; xtmp : R }.
Definition scan1 (r : reader) : reader := let (x, f) := scan (xtmp r) (rest r) in Reader f (tmp_real r) (tmp_comp r) x.
Definition scan3 (r : reader) : reader :=
  let (a, f) := scan (tmp_real r) (rest r) in let (b, f) := scan (tmp_comp r) f in let (x, f) := scan (xtmp r) f in Reader f a b x.
Definition read_block (off n : Z) (st : reader * (Z -> C)) : reader * (Z -> C) :=
  loop 0 n (fun xi st => let r := scan3 (fst st) in (r, upd (snd st) (off + xi) (tmp_real r, tmp_comp r))) st.
(** the while loop; None = out of fuel; the three variables are uninitialised before *)
Fixpoint read_init (fuel : nat) (st : reader * (Z -> C)) : option (Z -> C) :=
  match fuel with
  | O => None
  | Datatypes.S fuel =>
    match rest (fst st) with
    | [] => Some (snd st)
    | _ =>
      let r := scan1 (fst st) in
      let r := loop 1 6 (fun _ r => scan1 r) r in
      let st := (r, snd st) in
      let st := read_block (off_Proj) (NProj S) st in
      let st := if FlagRBM S =? 0 then st else read_block (off_RBM S) (NRBM S) st in
      let st := read_block (off_Slater S) (NSlater S) st in
      let st := read_block (off_OptTrans S) (NOptTrans S) st in
      read_init fuel st
    end
  end.
Definition read_init_parameter (file : list R) (garbage : R * R * R) (Para : Z -> C) : option (Z -> C) :=
  let '(a, b, c) := garbage in read_init (Datatypes.S (List.length file)) (Reader file a b c, Para).

(** ** readdef.c:1183-1480 ReadInputParameters, on the process that reads *)
(** a keyword of the name list: not given, given with a file that cannot be opened, with fewer than five lines, or with the number in the header and the lines *)
Inductive entry := Absent | Missing | Short | Given (head : Z) (body : list line).
(** all files read; -1 returned to the caller, which notes it for the exit status and goes on with these parameters (vmcmain.c:268-271); MPI_Abort; undefined *)
Inductive outcome := Done (Para : Z -> C) | Unread (Para : Z -> C) | Aborted | Crash.
(** fscanf(fp, "%d %lf %lf ", &idx, &tmp_real, &tmp_comp); Array[idx+count] = ...: None = the element is outside Para *)
Definition read_body (off num idx0 : Z) (body : list line) (re0 im0 : R) (Para : Z -> C) : option (Z -> C) :=
  option_map snd (loop 0 num (fun _ st =>
    match st with
    | None => None
    | Some (body, idx, re, im, Para) =>
        let '(body, idx, re, im) := match body with (i, a, b) :: body => (body, i, a, b) | [] => ([], idx, re, im) end in
        if (0 <=? off + idx) && (off + idx <? NPara S) then Some (body, idx, re, im, upd Para (off + idx) (re, im)) else None
    end) (Some (body, idx0, re0, im0, Para))).
(** keywords from KWInGutzwiller on (readdef.h:76-88): header check, offset, number of lines; None: "default" *)
Definition is_count (n idx : Z) : bool := idx =? n.
Definition is_double (n idx : Z) : bool := Z.quot idx 2 =? n.
Definition input_keywords : list (string * option ((Z -> bool) * Z * Z)) :=
  let NPhys := NRBM_PhysLayerIdx S in let NHid := NRBM_HiddenLayerIdx S in
  let iNTotalIdx := if 0 <? iFlgOrbitalGeneral S then iNOrbitalAntiParallel S else NOrbitalIdx S in
  [("InGutzwiller", Some (is_count (NGutzwillerIdx S), off_Proj + 0, NGutzwillerIdx S));
   ("InJastrow", Some (is_count (NJastrowIdx S), off_Proj + NGutzwillerIdx S, NJastrowIdx S));
   ("InDH2", Some (is_count (NDoublonHolon2siteIdx S), off_Proj + (NGutzwillerIdx S + NJastrowIdx S), 2 * 3 * NDoublonHolon2siteIdx S));
   ("InDH4", Some (is_count (NDoublonHolon4siteIdx S), off_Proj + (NGutzwillerIdx S + NJastrowIdx S + 2 * 3 * NDoublonHolon2siteIdx S), 2 * 5 * NDoublonHolon4siteIdx S));
   ("InChargeRBM_HiddenLayer", Some (is_count (NChargeRBM_HiddenLayerIdx S), off_RBM S + NPhys, NChargeRBM_HiddenLayerIdx S));
   ("InChargeRBM_PhysLayer", Some (is_count (NChargeRBM_PhysLayerIdx S), off_RBM S + 0, NChargeRBM_PhysLayerIdx S));
   ("InChargeRBM_PhysHidden", Some (is_count (NChargeRBM_PhysHiddenIdx S), off_RBM S + (NPhys + NHid), NChargeRBM_PhysHiddenIdx S));
   ("InSpinRBM_HiddenLayer", Some (is_count (NSpinRBM_HiddenLayerIdx S), off_RBM S + (NPhys + NChargeRBM_HiddenLayerIdx S), NSpinRBM_HiddenLayerIdx S));
   ("InSpinRBM_PhysLayer", Some (is_count (NSpinRBM_PhysLayerIdx S), off_RBM S + NChargeRBM_PhysLayerIdx S, NSpinRBM_PhysLayerIdx S));
   ("InSpinRBM_PhysHidden", Some (is_count (NSpinRBM_PhysHiddenIdx S), off_RBM S + (NPhys + NHid + NChargeRBM_PhysHiddenIdx S), NSpinRBM_PhysHiddenIdx S));
   ("InGeneralRBM_HiddenLayer", Some (is_count (NGeneralRBM_HiddenLayerIdx S), off_RBM S + (NPhys + NChargeRBM_HiddenLayerIdx S + NSpinRBM_HiddenLayerIdx S), NGeneralRBM_HiddenLayerIdx S));
   ("InGeneralRBM_PhysLayer", Some (is_count (NGeneralRBM_PhysLayerIdx S), off_RBM S + (NChargeRBM_PhysLayerIdx S + NSpinRBM_PhysLayerIdx S), NGeneralRBM_PhysLayerIdx S));
   ("InGeneralRBM_PhysHidden", Some (is_count (NGeneralRBM_PhysHiddenIdx S), off_RBM S + (NPhys + NHid + NChargeRBM_PhysHiddenIdx S + NSpinRBM_PhysHiddenIdx S), NGeneralRBM_PhysHiddenIdx S));
   ("InOrbital", Some (is_count iNTotalIdx, off_Slater S, iNTotalIdx));
   ("InOrbitalAntiParallel", Some (is_count iNTotalIdx, off_Slater S, iNTotalIdx));
   ("InOrbitalParallel", Some (is_double (iNOrbitalParallel S), off_Slater S + iNOrbitalAntiParallel S, 2 * iNOrbitalParallel S));
   ("InOrbitalGeneral", Some (is_count (NOrbitalIdx S), off_Slater S, NOrbitalIdx S));
   ("OneBodyG", None); ("TwoBodyG", None); ("TwoBodyGEx", None); ("InterAll", None); ("OptTrans", None);
   ("InOptTrans", Some (is_count (NOptTrans S), off_OptTrans S, NOptTrans S));
   ("BF", None); ("BFRange", None)]%string.
(** the loop over the keywords; the values left in tmp_real and tmp_comp by an earlier file are taken as garbage *)
Fixpoint read_keywords (kws : list (string * option ((Z -> bool) * Z * Z))) (names : string -> entry) (re0 im0 : R) (info : Z) (Para : Z -> C) : outcome :=
  match kws with
  | [] => if info =? 0 then Done Para else Aborted
  | (k, fam) :: kws =>
      match names k with
      | Absent => read_keywords kws names re0 im0 info Para
      | Missing => Crash (* fclose(NULL) *)
      | Short => Unread Para
      | Given head body =>
          match fam with
          | Some (check, off, num) =>
              if negb (check head) then read_keywords kws names re0 im0 1 Para
              else match read_body off num head body re0 im0 Para with
                   | None => Crash
                   | Some Para => if info =? 0 then read_keywords kws names re0 im0 info Para else Aborted
                   end
          | None => let info := 0 in if info =? 0 then read_keywords kws names re0 im0 info Para else Aborted
          end
      end
  end.
Definition read_input_parameters (names : string -> entry) (re0 im0 : R) (Para : Z -> C) : outcome :=
  read_keywords input_keywords names re0 im0 0 Para.
End WithSizes.
