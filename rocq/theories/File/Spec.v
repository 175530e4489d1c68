(** What the parameter files mean. *)
From Coq Require Import ZArith List Bool String Reals.
From Coquelicot Require Import Coquelicot.
From Verif Require Import Base.RSum Base.ZLoop File.Model.
Import ListNotations.
Local Open Scope Z_scope.

(** mean over the last [smp] of [steps] steps *)
Definition mean (steps smp : Z) (f : Z -> C) : C := (csum (zrange (steps - smp) steps) f / RtoC (IZR smp))%C.

Definition assoc {A} (k : string) (l : list (string * A)) : option A := option_map snd (find (fun e => String.eqb (fst e) k) l).
(** the keyword under which each of the written files is given to another run *)
Definition input_of (kw : string) : option string :=
  assoc kw [("InGutzwiller", "gutzwiller"); ("InJastrow", "jastrow"); ("InDH2", "doublonHolon2site"); ("InDH4", "doublonHolon4site");
    ("InChargeRBM_PhysLayer", "chargeRBM_physlayer"); ("InSpinRBM_PhysLayer", "spinRBM_physlayer"); ("InGeneralRBM_PhysLayer", "generalRBM_physlayer");
    ("InChargeRBM_HiddenLayer", "chargeRBM_hiddenlayer"); ("InSpinRBM_HiddenLayer", "spinRBM_hiddenlayer"); ("InGeneralRBM_HiddenLayer", "generalRBM_hiddenlayer");
    ("InChargeRBM_PhysHidden", "chargeRBM_physhidden"); ("InSpinRBM_PhysHidden", "spinRBM_physhidden"); ("InGeneralRBM_PhysHidden", "generalRBM_physhidden");
    ("InOrbital", "orbital"); ("InOrbitalAntiParallel", "orbitalAntiParallel"); ("InOrbitalParallel", "orbitalParallel"); ("InOrbitalGeneral", "orbital_general");
    ("InOptTrans", "trans")]%string.
(** every file written is named under its keyword, no other file of initial values is named; other input files exist *)
Definition uses (files : list ofile) (names : string -> entry) : Prop :=
  forall kw, match input_of kw with
  | Some suffix => names kw = match assoc suffix files with Some (head, body) => Given head body | None => Absent end
  | None => names kw = Absent \/ exists head body, names kw = Given head body
  end.

(** families of parameters: number stated in the header of a file of initial values, first parameter, number of lines *)
Definition places (S : Mem.Model.sizes) : list (string * (Z * Z * Z)) :=
  let g := Mem.Model.NGutzwillerIdx S in let j := Mem.Model.NJastrowIdx S in
  let d2 := Mem.Model.NDoublonHolon2siteIdx S in let d4 := Mem.Model.NDoublonHolon4siteIdx S in
  let r0 := g + j + 6 * d2 + 10 * d4 in
  let cp := Mem.Model.NChargeRBM_PhysLayerIdx S in let sp := Mem.Model.NSpinRBM_PhysLayerIdx S in let gp := Mem.Model.NGeneralRBM_PhysLayerIdx S in
  let r1 := r0 + cp + sp + gp in
  let ch := Mem.Model.NChargeRBM_HiddenLayerIdx S in let sh := Mem.Model.NSpinRBM_HiddenLayerIdx S in let gh := Mem.Model.NGeneralRBM_HiddenLayerIdx S in
  let r2 := r1 + ch + sh + gh in
  let cph := Mem.Model.NChargeRBM_PhysHiddenIdx S in let sph := Mem.Model.NSpinRBM_PhysHiddenIdx S in let gph := Mem.Model.NGeneralRBM_PhysHiddenIdx S in
  let r3 := r2 + cph + sph + gph in
  let orb := Mem.Model.NOrbitalIdx S in let ap := Mem.Model.iNOrbitalAntiParallel S in let p := Mem.Model.iNOrbitalParallel S in
  let first := if Mem.Model.iFlgOrbitalGeneral S =? 0 then orb else ap in
  let tr := Mem.Model.NOptTrans S in
  [("InGutzwiller", (g, 0, g)); ("InJastrow", (j, g, j)); ("InDH2", (d2, g + j, 6 * d2)); ("InDH4", (d4, g + j + 6 * d2, 10 * d4));
   ("InChargeRBM_PhysLayer", (cp, r0, cp)); ("InSpinRBM_PhysLayer", (sp, r0 + cp, sp)); ("InGeneralRBM_PhysLayer", (gp, r0 + cp + sp, gp));
   ("InChargeRBM_HiddenLayer", (ch, r1, ch)); ("InSpinRBM_HiddenLayer", (sh, r1 + ch, sh)); ("InGeneralRBM_HiddenLayer", (gh, r1 + ch + sh, gh));
   ("InChargeRBM_PhysHidden", (cph, r2, cph)); ("InSpinRBM_PhysHidden", (sph, r2 + cph, sph)); ("InGeneralRBM_PhysHidden", (gph, r2 + cph + sph, gph));
   ("InOrbital", (first, r3, first)); ("InOrbitalAntiParallel", (first, r3, first)); ("InOrbitalParallel", (2 * p, r3 + ap, 2 * p)); ("InOrbitalGeneral", (orb, r3, orb));
   ("InOptTrans", (tr, r3 + orb, tr))]%string.
Definition place (S : Mem.Model.sizes) (kw : string) : option (Z * Z * Z) := assoc kw (places S).
(** a file with the right number in the header and exactly one line for each parameter of the family, in any order *)
Definition fits (num : Z) (body : list line) : Prop :=
  Z.of_nat (List.length body) = num /\ NoDup (map (fun l => fst (fst l)) body) /\ forall i a b, In (i, a, b) body -> 0 <= i < num.
Definition is_given (e : entry) : bool := match e with Given _ _ => true | _ => false end.
(** the orbital parameters are given once *)
Definition orbital_once (names : string -> entry) : Prop :=
  let g k := is_given (names k) in
  (g "InOrbital" && g "InOrbitalAntiParallel" = false /\ g "InOrbital" && g "InOrbitalGeneral" = false /\ g "InOrbitalAntiParallel" && g "InOrbitalGeneral" = false /\
   g "InOrbitalParallel" && g "InOrbitalGeneral" = false)%string%bool.
