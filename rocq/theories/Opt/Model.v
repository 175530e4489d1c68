(** Definition files of the variational parameters: optimisation flags and index tables (src/mVMC/readdef.c ReadDefFileIdxPara and the GetInfo... functions).
    A file is a list of lines, a line a list of words, each an integer or not; headers (five lines) are cut off.  int overflow is not modelled. *)
From Coq Require Import ZArith List Bool String.
From Verif Require Import Base.ZLoop Mem.Model.
Import ListNotations.
Local Open Scope Z_scope.

Inductive token := Num (z : Z) | Word.
(** malloc'ed memory: None = not written *)
Definition memory := Z -> option Z.
Inductive res (A : Type) := Ok (a : A) | Outside | OutOfFuel.
Arguments Ok {A}. Arguments Outside {A}. Arguments OutOfFuel {A}.
Definition bind {A B} (r : res A) (f : A -> res B) : res B := match r with Ok a => f a | Outside => Outside | OutOfFuel => OutOfFuel end.
(** a[i] = v for an array of n elements *)
Definition put (n : Z) (a : memory) (i : Z) (v : option Z) : res memory := if (0 <=? i) && (i <? n) then Ok (upd a i v) else Outside.
(** fscanf(fp, "%d ", &x) not at the end of the file: the rest; a word that is no number stays where it is and x is left alone *)
Definition skip_number (t : list token) : list token := match t with Num _ :: t => t | t => t end.
Definition scan (t : list token) : option Z * list token := match t with Num v :: t => (Some v, t) | t => (None, t) end.

Section Flags.
Variable N : Z. (* 2 * NPara, the length of OptFlag *)
(** readdef.c:2101-2114 GetInfoOpt: number of lines, flags *)
Fixpoint get_info_opt (fuel : nat) (t : list token) (opt : memory) (iComplxFlag fidx count : Z) : res (Z * memory) :=
  match fuel with
  | O => OutOfFuel
  | S fuel =>
    match t with
    | [] => Ok (count, opt)
    | _ =>
      let t := skip_number t in
      let (v, t) := scan t in
      bind (match v with Some v => put N opt (2 * fidx) (Some v) | None => Ok opt end) (fun opt =>
      bind (if 0 <? iComplxFlag then put N opt (2 * fidx + 1) (opt (2 * fidx)) else Ok opt) (fun opt =>
      get_info_opt fuel t opt iComplxFlag (fidx + 1) (count + 1)))
    end
  end.
(** readdef.c:2085-2099 GetInfoOptOrbitalParalell *)
Fixpoint get_info_opt_parallel (fuel : nat) (t : list token) (opt : memory) (iComplxFlag fidx count : Z) : res (Z * memory) :=
  match fuel with
  | O => OutOfFuel
  | S fuel =>
    match t with
    | [] => Ok (count, opt)
    | _ =>
      let t := skip_number t in
      let idxOptFlag := 2 * (fidx + 2 * count) in
      let (v, t) := scan t in
      bind (match v with Some v => put N opt idxOptFlag (Some v) | None => Ok opt end) (fun opt =>
      bind (put N opt (idxOptFlag + 1) (Some iComplxFlag)) (fun opt =>
      bind (put N opt (idxOptFlag + 2) (opt idxOptFlag)) (fun opt =>
      bind (put N opt (idxOptFlag + 3) (Some iComplxFlag)) (fun opt =>
      get_info_opt_parallel fuel t opt iComplxFlag fidx (count + 1)))))
    end
  end.
End Flags.

Section Read.
Variable S : sizes.
(** readdef.c:904-1034: keyword, two flags per line (parallel orbitals), place of the first flag, expected number of lines; in the order of the keywords (readdef.h:62-80).
    Nothing is read when the number is zero. *)
Definition flag_keywords : list (string * (bool * Z * Z)) :=
  let g := NGutzwillerIdx S in let j := NJastrowIdx S in let d2 := 2 * 3 * NDoublonHolon2siteIdx S in let d4 := 2 * 5 * NDoublonHolon4siteIdx S in
  let cp := NChargeRBM_PhysLayerIdx S in let sp := NSpinRBM_PhysLayerIdx S in let gp := NGeneralRBM_PhysLayerIdx S in
  let ch := NChargeRBM_HiddenLayerIdx S in let sh := NSpinRBM_HiddenLayerIdx S in let gh := NGeneralRBM_HiddenLayerIdx S in
  let cq := NChargeRBM_PhysHiddenIdx S in let sq := NSpinRBM_PhysHiddenIdx S in let gq := NGeneralRBM_PhysHiddenIdx S in
  let p := NRBM_PhysLayerIdx S in let h := NRBM_HiddenLayerIdx S in let r := FlagRBM S * NRBM S in
  [("Gutzwiller", (false, 0, g)); ("Jastrow", (false, g, j)); ("DH2", (false, g + j, d2)); ("DH4", (false, g + j + d2, d4));
   ("ChargeRBM_HiddenLayer", (false, NProj S + p, ch)); ("ChargeRBM_PhysLayer", (false, NProj S, cp)); ("ChargeRBM_PhysHidden", (false, NProj S + p + h, cq));
   ("SpinRBM_HiddenLayer", (false, NProj S + p + ch, sh)); ("SpinRBM_PhysLayer", (false, NProj S + cp, sp)); ("SpinRBM_PhysHidden", (false, NProj S + p + h + cq, sq));
   ("GeneralRBM_HiddenLayer", (false, NProj S + p + ch + sh, gh)); ("GeneralRBM_PhysLayer", (false, NProj S + cp + sp, gp)); ("GeneralRBM_PhysHidden", (false, NProj S + p + h + cq + sq, gq));
   ("Orbital", (false, NProj S + r, iNOrbitalAntiParallel S)); ("OrbitalAntiParallel", (false, NProj S + r, iNOrbitalAntiParallel S));
   ("OrbitalParallel", (true, NProj S + r + iNOrbitalAntiParallel S, iNOrbitalParallel S)); ("OrbitalGeneral", (false, NProj S + r, NOrbitalIdx S))]%string.

(** per keyword: None = not named; otherwise whether the index part of the file was complete, and the words after it *)
Variable files : string -> option (bool * list token).
(** per keyword: iComplexFlg...; the orbital keywords share one (readdef.c:490-505, 649) *)
Variable cflag : string -> Z.
(** readdef.c:2385-2403 GetInfoOptTrans, with fidx = NProj + NOrbitalIdx (1067) *)
Definition opt_trans (named : bool) (opt : memory) (count : Z) : res (memory * Z) :=
  if named && (0 <? FlagOptTrans S) then
    fold_left (fun r i => bind r (fun '(opt, count) => bind (put (2 * NPara S) opt (NProj S + NOrbitalIdx S + i) (Some 1)) (fun opt => Ok (opt, count + 1)))) (zrange 0 (NQPOptTrans S)) (Ok (opt, count))
  else Ok (opt, count).
Inductive flags := Accepted (opt : memory) | Rejected | Wild | Endless.
Definition read_family (fuel : nat) (e : string * (bool * Z * Z)) (st : memory * Z * bool) : res (memory * Z * bool) :=
  let '(k, (parallel, fidx, n)) := e in let '(opt, count, info) := st in
  match files k with
  | None => Ok st
  | Some (complete, t) =>
      if n =? 0 then Ok st
      else if parallel : bool then bind (get_info_opt_parallel (2 * NPara S) fuel t opt (cflag k) fidx 0) (fun '(lines, opt) => Ok (opt, count + 2 * lines, info || negb complete || negb (lines =? n)))
      else bind (get_info_opt (2 * NPara S) fuel t opt (cflag k) fidx 0) (fun '(lines, opt) => Ok (opt, count + lines, info || negb complete || negb (lines =? n)))
  end.
(** readdef.c:862-1150; OptTrans comes after all others *)
Definition read_flags (fuel : nat) : flags :=
  let r := fold_left (fun r e => bind r (read_family fuel e)) flag_keywords (Ok (fun _ => None, 0, false)) in
  let r := bind r (fun '(opt, count, info) => bind (opt_trans (match files "OptTrans"%string with Some _ => true | None => false end) opt count) (fun '(opt, count) => Ok (opt, count, info))) in
  match r with
  | Outside => Wild
  | OutOfFuel => Endless
  | Ok (opt, count, info) => if info || negb (count =? NPara S) then Rejected else Accepted opt
  end.
End Read.

(** ** index tables *)
Definition table := Z -> Z -> option Z.
Definition put2 (n m : Z) (a : table) (i j v : Z) : res table := if (0 <=? i) && (i <? n) && (0 <=? j) && (j <? m) then Ok (upd a i (upd (a i) j (Some v))) else Outside.
Definition check_site (i n : Z) : bool := (i <? n) && (0 <=? i).
Section Tables.
Variable Nsite : Z.
(** one-index tables: readdef.c:2117-2142 GetInfoGutzwiller, 2642-2667 GetInfoRBM_Layer (Nlayer for Nsite).  A file that ends after a first number leaves the element alone;
    result: lines counted, info, table, the rest *)
Fixpoint read_sites (fuel : nat) (t : list token) (i idx0 : Z) (a : memory) : res (Z * bool * memory * list token) :=
  match fuel with
  | O => OutOfFuel
  | S fuel =>
    match t with
    | [] => Ok (idx0, false, a, [])
    | _ =>
      let (v, t) := scan t in
      let i := match v with Some v => v | None => i end in
      let (w, t) := scan t in
      bind (match w with Some w => put Nsite a i (Some w) | None => Ok a end) (fun a =>
      if negb (check_site i Nsite) then Ok (idx0, true, a, t)
      else if idx0 + 1 =? Nsite then Ok (idx0 + 1, false, a, t)
      else read_sites fuel t i (idx0 + 1) a)
    end
  end.
(** readdef.c:2144-2175 GetInfoJastrow, the index part *)
Fixpoint read_pairs (fuel : nat) (t : list token) (i j idx0 : Z) (a : table) : res (Z * bool * table * list token) :=
  match fuel with
  | O => OutOfFuel
  | S fuel =>
    match t with
    | [] => Ok (idx0, false, a, [])
    | _ =>
      let (v, t) := scan t in
      let i := match v with Some v => v | None => i end in
      let (w, t') := match v with Some _ => scan t | None => (None, t) end in
      let j := match w with Some w => w | None => j end in
      if i =? j then Ok (idx0, true, a, t')
      else if negb (check_site i Nsite && check_site j Nsite) then Ok (idx0, true, a, t')
      else
        let (n, t) := scan t' in
        bind (match n with Some n => put2 Nsite Nsite a i j n | None => Ok a end) (fun a =>
        bind (put2 Nsite Nsite a i i (-1)) (fun a =>
        if idx0 + 1 =? Nsite * (Nsite - 1) then Ok (idx0 + 1, false, a, t)
        else read_pairs fuel t i j (idx0 + 1) a))
    end
  end.
(** sscanf of a line: the variables that a number was found for get it, up to the first word that is none *)
Fixpoint sscan (line : list token) (vars : list Z) : list Z :=
  match vars, line with
  | x :: vars, Num z :: line => z :: sscan line vars
  | vars, _ => vars
  end.
(** the orbital tables: indices, signs; setmemory.c:152-169 fills them with zeros *)
Definition orbitals := ((Z -> Z -> Z) * (Z -> Z -> Z))%type.
Definition no_orbitals : orbitals := (fun _ _ => 0, fun _ _ => 0).
Definition set2 (a : Z -> Z -> Z) (i j v : Z) : Z -> Z -> Z := upd a i (upd (a i) j v).
(** Array[I][J] = fij; ArraySgn[I][J] = s; Array[J][I] = fij; ArraySgn[J][I] = -s *)
Definition put_both (e : Z * Z * Z * Z) (a : orbitals) : res orbitals :=
  let '(x, y, f, s) := e in
  if (0 <=? x) && (x <? 2 * Nsite) && (0 <=? y) && (y <? 2 * Nsite)
  then Ok (set2 (set2 (fst a) x y f) y x f, set2 (set2 (snd a) x y s) y x (- s)) else Outside.
Definition put_list (es : list (Z * Z * Z * Z)) (a : orbitals) : res orbitals := fold_left (fun r e => bind r (put_both e)) es (Ok a).
(** the loop over lines of the three readers of general orbitals: [cells] = what one line sets (None = a site out of range, returns -1), [stop] = number of entries after which it ends.
    Result: entries counted, order violated (itmp), tables, remaining lines.  The variables keep their values when a line is too short; those without an initial value start as 0. *)
Fixpoint orbital_loop (cells : list Z -> option (list (Z * Z * Z * Z))) (stop : Z) (lines : list (list token)) (vars : list Z) (idx0 : Z) (itmp : bool) (a : orbitals) :
  res (option (Z * bool * orbitals * list (list token))) :=
  match lines with
  | [] => Ok (Some (idx0, itmp, a, []))
  | line :: lines =>
      let vars := sscan line vars in
      match cells vars with
      | None => Ok None
      | Some es =>
          bind (put_list es a) (fun a =>
          let itmp := itmp || existsb (fun e => let '(x, y, _, _) := e in y <=? x) es in
          let idx0 := idx0 + Z.of_nat (List.length es) in
          if idx0 =? stop then Ok (Some (idx0, itmp, a, lines)) else orbital_loop cells stop lines vars idx0 itmp a)
      end
  end.
Definition check_pair (i j : Z) : bool := check_site i Nsite && check_site j Nsite.
(** "i s j t f sign" (2549-2566) *)
Definition general_cells (vars : list Z) : option (list (Z * Z * Z * Z)) :=
  match vars with [i; si; j; sj; f; s] => if check_pair i j then Some [(i + si * Nsite, j + sj * Nsite, f, s)] else None | _ => None end.
(** "i j f sign" between up at i and down at j (2490-2509) *)
Definition antiparallel_cells (vars : list Z) : option (list (Z * Z * Z * Z)) :=
  match vars with [i; j; f; s] => if check_pair i j then Some [(i, j + Nsite, f, s)] else None | _ => None end.
(** "i j f sign" between equal spins (2597-2619) *)
Definition parallel_cells (NArrayAP : Z) (vars : list Z) : option (list (Z * Z * Z * Z)) :=
  match vars with [i; j; f; s] => if check_pair i j then Some [(i, j, NArrayAP + 2 * f, s); (i + Nsite, j + Nsite, NArrayAP + 2 * f + 1, s)] else None | _ => None end.
(** for(i) for(j) { ArraySgn[i][j] = 1; ArraySgn[j][i] = -1; } *)
Definition plus_signs (l h : Z) (first last : Z -> Z) (y : Z -> Z -> Z) : Z -> Z -> Z :=
  loop l h (fun i y => loop (first i) (last i) (fun j y => set2 (set2 y i j 1) j i (-1)) y) y.
(** the readers: [flags_ok] = the flag part has the expected number of lines.  Filled = accepted *)
Inductive tables := Filled (a : orbitals) | Refused | Overrun.
Definition finish (flags_ok : list (list token) -> bool) (stop : Z) (APFlag : Z) (signs : (Z -> Z -> Z) -> Z -> Z -> Z) (r : res (option (Z * bool * orbitals * list (list token)))) : tables :=
  match r with
  | Outside | OutOfFuel => Overrun
  | Ok None => Refused
  | Ok (Some (idx0, itmp, a, rest)) =>
      if negb (idx0 =? stop) || negb (flags_ok rest) || itmp then Refused else Filled (fst a, if APFlag =? 0 then signs (snd a) else snd a)
  end.
(** readdef.c:2535-2581 *)
Definition get_info_orbital_general (APFlag : Z) (flags_ok : list (list token) -> bool) (file : list (list token)) (a : orbitals) : tables :=
  let stop := 2 * Nsite * Nsite - Nsite in
  finish flags_ok stop APFlag (plus_signs 0 (2 * Nsite) (fun i => i + 1) (fun _ => 2 * Nsite)) (orbital_loop general_cells stop file [0; 0; 0; 0; 0; 1] 0 false a).
(** readdef.c:2462-2533 with _iFlagOrbitalGeneral *)
Definition get_info_orbital_antiparallel (APFlag : Z) (flags_ok : list (list token) -> bool) (file : list (list token)) (a : orbitals) : tables :=
  let stop := Nsite * Nsite in
  finish flags_ok stop APFlag (plus_signs 0 Nsite (fun _ => Nsite) (fun _ => 2 * Nsite)) (orbital_loop antiparallel_cells stop file [0; 0; 0; 1] 0 false a).
(** readdef.c:2583-2640; the loop over the spin is unrolled *)
Definition get_info_orbital_parallel (APFlag NArrayAP : Z) (flags_ok : list (list token) -> bool) (file : list (list token)) (a : orbitals) : tables :=
  let stop := Nsite * (Nsite - 1) in
  finish flags_ok stop APFlag (fun y => plus_signs Nsite (2 * Nsite) (fun i => i + 1) (fun _ => 2 * Nsite) (plus_signs 0 Nsite (fun i => i + 1) (fun _ => Nsite) y))
    (orbital_loop (parallel_cells NArrayAP) stop file [0; 0; 0; 1] 0 false a).
End Tables.
