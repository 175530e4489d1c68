(** Wave functions with general spins (the [_fsz] files): an electron carries its own spin [eleSpn], the list of electrons is not
    split in up and down halves.  pfupdate_fsz.c, pfupdate_two_fsz.c, matrix.c:76-180, slater_fsz.c.
    double complex is R*R; threaded loops write one slice per iteration and are taken in order; workspaces are functions. *)
From Coq Require Import ZArith List Bool Reals.
From Coquelicot Require Import Complex.
From Verif Require Import Base.ZLoop Base.RSum Pf.Model.
From Verif Require Slater.Model.
Import ListNotations.
Local Open Scope Z_scope.

Section Updates.
Variables (Nsite Nsize : Z).
Variable SlaterElm : Z -> C.                 (* [NQPFull][2*Nsite][2*Nsite] *)

(** pfupdate_fsz.c:35-71 CalculateNewPfM_fsz (and CalculateNewPfM2_fsz, 74-111, the same with threads) *)
Definition calculate_new_pfm_fsz (ma s : Z) (eleIdx eleSpn : Z -> Z) (qpStart qpEnd : Z) (InvM PfM : Z -> C) (pfMNew : Z -> C) : Z -> C :=
  let qpNum := qpEnd - qpStart in
  let msa := ma in
  let rsa := eleIdx msa + s * Nsite in
  loop 0 qpNum (fun qpidx pfMNew =>
    let sltE_a := fun r => SlaterElm ((qpidx + qpStart) * Nsite2 Nsite * Nsite2 Nsite + rsa * Nsite2 Nsite + r) in
    let invM_a := fun m => InvM (qpidx * Nsize * Nsize + msa * Nsize + m) in
    let ratio := loop 0 Nsize (fun msj ratio => Cplus ratio (Cmult (invM_a msj) (sltE_a (eleIdx msj + eleSpn msj * Nsite)))) czero in
    upd pfMNew qpidx (Cmult (Copp ratio) (PfM qpidx))) pfMNew.

(** pfupdate_fsz.c:138-214 updateMAll_child_fsz *)
Definition update_mall_child_fsz (ma s : Z) (eleIdx eleSpn : Z -> Z) (qpStart qpidx : Z) (InvM PfM : Z -> C) : (Z -> C) * (Z -> C) :=
  let msa := ma in
  let rsa := eleIdx msa + s * Nsite in
  let sltE_a := fun r => SlaterElm ((qpidx + qpStart) * Nsite2 Nsite * Nsite2 Nsite + rsa * Nsite2 Nsite + r) in
  let base := qpidx * Nsize * Nsize in
  let vec1 := loop 0 Nsize (fun msj vec1 =>
    let rsj := eleIdx msj + eleSpn msj * Nsite in
    let sltE_aj := sltE_a rsj in
    loop 0 Nsize (fun msi vec1 => cadd vec1 msi (Cmult (Copp (InvM (base + msj * Nsize + msi))) sltE_aj)) vec1) (fun _ => czero) in
  let tmp := vec1 msa in
  let PfM := upd PfM qpidx (Cmult (PfM qpidx) (Copp tmp)) in
  let invVec1_a := Copp (Cinv tmp) in
  let vec2 := loop 0 Nsize (fun msi vec2 => upd vec2 msi (Cmult (InvM (base + msa * Nsize + msi)) invVec1_a)) (fun _ => czero) in
  let InvM := loop 0 Nsize (fun msi InvM =>
    let vec1_i := vec1 msi in
    let vec2_i := vec2 msi in
    let InvM := loop 0 Nsize (fun msj InvM =>
      cadd InvM (base + msi * Nsize + msj) (Cminus (Cmult vec1_i (vec2 msj)) (Cmult (vec1 msj) vec2_i))) InvM in
    cadd InvM (base + msi * Nsize + msa) (Copp vec2_i)) InvM in
  let InvM := loop 0 Nsize (fun msj InvM => cadd InvM (base + msa * Nsize + msj) (vec2 msj)) InvM in
  (InvM, PfM).
(** pfupdate_fsz.c:114-136 UpdateMAll_fsz *)
Definition update_mall_fsz (ma s : Z) (eleIdx eleSpn : Z -> Z) (qpStart qpEnd : Z) (st : (Z -> C) * (Z -> C)) : (Z -> C) * (Z -> C) :=
  loop 0 (qpEnd - qpStart) (fun qpidx st => update_mall_child_fsz ma s eleIdx eleSpn qpStart qpidx (fst st) (snd st)) st.

(** pfupdate_two_fsz.c:112-188 calculateNewPfMTwo_child_fsz *)
Definition calculate_new_pfm_two_child_fsz (ma s mb t : Z) (eleIdx eleSpn : Z -> Z) (qpStart qpidx : Z) (InvM PfM : Z -> C) (pfMNew : Z -> C) : Z -> C :=
  let msa := ma in
  let msb := mb in
  let rsa := eleIdx msa + s * Nsite in
  let rsb := eleIdx msb + t * Nsite in
  let sltE := fun r => SlaterElm ((qpidx + qpStart) * Nsite2 Nsite * Nsite2 Nsite + r) in
  let rs := fun msi => eleIdx msi + eleSpn msi * Nsite in
  let vec_a := loop 0 Nsize (fun msi v => upd v msi (sltE (rsa * Nsite2 Nsite + rs msi))) (fun _ => czero) in
  let vec_b := loop 0 Nsize (fun msi v => upd v msi (sltE (rsb * Nsite2 Nsite + rs msi))) (fun _ => czero) in
  let vec_ba := vec_b msa in
  let invM := fun k => InvM (qpidx * Nsize * Nsize + k) in
  let invM_ab := invM (msa * Nsize + msb) in
  let '(p_a, p_b, q_a, q_b) := loop 0 Nsize (fun msi (st : C * C * C * C) =>
    let '(p_a, p_b, q_a, q_b) := st in
    let vec_ai := vec_a msi in let vec_bi := vec_b msi in
    let invM_ai := invM (msa * Nsize + msi) in let invM_bi := invM (msb * Nsize + msi) in
    (Cplus p_a (Cmult invM_ai vec_ai), Cplus p_b (Cmult invM_bi vec_ai), Cplus q_a (Cmult invM_ai vec_bi), Cplus q_b (Cmult invM_bi vec_bi)))
    (czero, czero, czero, czero) in
  let bMa := loop 0 Nsize (fun msi bMa =>
    let tmp := loop 0 Nsize (fun msj tmp => Cplus tmp (Cmult (invM (msi * Nsize + msj)) (vec_a msj))) czero in
    Cplus bMa (Cmult (vec_b msi) tmp)) czero in
  let ratio := Cminus (Cplus (Cplus (Cmult invM_ab vec_ba) (Cmult invM_ab bMa)) (Cmult p_a q_b)) (Cmult p_b q_a) in
  upd pfMNew qpidx (Cmult ratio (PfM qpidx)).
(** pfupdate_two_fsz.c:50-72 CalculateNewPfMTwo_fsz (and CalculateNewPfMTwo2_fsz, 78-110, the same with threads) *)
Definition calculate_new_pfm_two_fsz (ma s mb t : Z) (eleIdx eleSpn : Z -> Z) (qpStart qpEnd : Z) (InvM PfM : Z -> C) (pfMNew : Z -> C) : Z -> C :=
  if ma =? mb then calculate_new_pfm_fsz mb t eleIdx eleSpn qpStart qpEnd InvM PfM pfMNew
  else loop 0 (qpEnd - qpStart) (fun qpidx => calculate_new_pfm_two_child_fsz ma s mb t eleIdx eleSpn qpStart qpidx InvM PfM) pfMNew.

(** pfupdate_two_fsz.c:222-348 updateMAllTwo_child_fsz; the body is that of the fixed-spin version (Pf/Model.v), [raOld] is used for
    both old sites, as in the code (line 232) *)
Definition update_mall_two_child_fsz (ma s mb t raOld rbOld : Z) (eleIdx eleSpn : Z -> Z) (qpStart qpidx : Z) (InvM PfM : Z -> C) : (Z -> C) * (Z -> C) :=
  let msa := ma in
  let msb := mb in
  let rsa := eleIdx msa + s * Nsite in
  let rsb := eleIdx msb + t * Nsite in
  let rsaOld := raOld + s * Nsite in
  let rsbOld := raOld + t * Nsite in
  let sltE := fun r => SlaterElm ((qpidx + qpStart) * Nsite2 Nsite * Nsite2 Nsite + r) in
  let mOld_ab := sltE (rsaOld * Nsite2 Nsite + rsbOld) in
  update_mall_two_body Nsite Nsize SlaterElm msa msb rsa rsb mOld_ab (fun msi => eleIdx msi + eleSpn msi * Nsite) qpStart qpidx InvM PfM.
(** pfupdate_two_fsz.c:194-220 UpdateMAllTwo_fsz *)
Definition update_mall_two_fsz (ma s mb t raOld rbOld : Z) (eleIdx eleSpn : Z -> Z) (qpStart qpEnd : Z) (st : (Z -> C) * (Z -> C)) : (Z -> C) * (Z -> C) :=
  loop 0 (qpEnd - qpStart) (fun qpidx st => update_mall_two_child_fsz ma s mb t raOld rbOld eleIdx eleSpn qpStart qpidx (fst st) (snd st)) st.

(** matrix.c:125-179 calculateMAll_child_fsz; [skpf] as in Pf/Model.v *)
Variable skpf : Z -> (Z -> C) -> option (C * (Z -> C)).
Definition calculate_mall_child_fsz (eleIdx eleSpn : Z -> Z) (qpStart qpidx : Z) (InvM PfM : Z -> C) : option ((Z -> C) * (Z -> C)) :=
  let base := qpidx * Nsize * Nsize in
  let rs := fun msi => eleIdx msi + eleSpn msi * Nsite in
  let InvM := loop 0 Nsize (fun msi InvM => loop 0 Nsize (fun msj InvM =>
      upd InvM (base + msi * Nsize + msj) (Copp (SlaterElm ((qpidx + qpStart) * Nsite2 Nsite * Nsite2 Nsite + rs msi * Nsite2 Nsite + rs msj)))) InvM) InvM in
  match skpf Nsize (fun k => InvM (base + k)) with
  | None => None
  | Some (pfaff, inv) =>
    let InvM := loop 0 (Nsize * Nsize) (fun k InvM => upd InvM (base + k) (Copp (inv k))) InvM in
    Some (InvM, upd PfM qpidx pfaff)
  end.
End Updates.

Section Slater.
Import Slater.Model.
Variable S : sizes.
Variable T : qptables.                        (* OrbitalIdx, OrbitalSgn are [2*Nsite][2*Nsite] here *)
(** slater_fsz.c:32-113 UpdateSlaterElm_fsz *)
Definition update_slater_elm_fsz (Slater : Z -> C) (SlaterElm : Z -> C) : Z -> C :=
  loop 0 (NQPFull S) (fun qpidx E =>
    let optidx := qpidx / NQPFix S in
    let mpidx := (qpidx mod NQPFix S) / NSPGaussLeg S in
    let xqpOpt := QPOptTrans T optidx in let xqpOptSgn := QPOptTransSgn T optidx in
    let xqp := QPTrans T mpidx in let xqpSgn := QPTransSgn T mpidx in
    let base := qpidx * Nsite2 S * Nsite2 S in
    loop 0 (Nsite S) (fun ri E =>
      let ori := xqpOpt ri in let tri := xqp ori in let tri0 := tri in let tri1 := tri0 + Nsite S in
      let sgni := xqpSgn ori * xqpOptSgn ri in
      let rsi0 := ri in let rsi1 := ri + Nsite S in
      loop 0 (Nsite S) (fun rj E =>
        let orj := xqpOpt rj in let trj := xqp orj in let trj0 := trj in let trj1 := trj + Nsite S in
        let sgnj := xqpSgn orj * xqpOptSgn rj in
        let rsj0 := rj in let rsj1 := rj + Nsite S in
        let slt := fun a b => Cmult (Slater (OrbitalIdx T a b)) (RtoC (IZR (OrbitalSgn T a b * sgni * sgnj))) in
        let slt_i0j0 := slt tri0 trj0 in let slt_j0i0 := slt trj0 tri0 in
        let slt_i0j1 := slt tri0 trj1 in let slt_j1i0 := slt trj1 tri0 in
        let slt_i1j0 := slt tri1 trj0 in let slt_j0i1 := slt trj0 tri1 in
        let slt_i1j1 := slt tri1 trj1 in let slt_j1i1 := slt trj1 tri1 in
        let E := upd E (base + rsi0 * Nsite2 S + rsj0) (Cminus slt_i0j0 slt_j0i0) in
        let E := upd E (base + rsi0 * Nsite2 S + rsj1) (Cminus slt_i0j1 slt_j1i0) in
        let E := upd E (base + rsi1 * Nsite2 S + rsj0) (Cminus slt_i1j0 slt_j0i1) in
        upd E (base + rsi1 * Nsite2 S + rsj1) (Cminus slt_i1j1 slt_j1i1)) E) E) SlaterElm.

(** slater_fsz.c:119-242 SlaterElmDiff_fsz *)
Definition slater_elm_diff_fsz (A : angles) (InvM PfM : Z -> C) (ip : C) (eleIdx eleSpn : Z -> Z) (srOptO : Z -> C) : Z -> C :=
  let nsize := Nsize S in
  let nTrans := NMPTrans S * NQPOptTrans S in
  let '(transOrbIdx, transOrbSgn) := loop 0 nTrans (fun qpidx st =>
    let optidx := qpidx / NMPTrans S in
    let mpidx := qpidx mod NMPTrans S in
    let xqpOpt := QPOptTrans T optidx in let xqpOptSgn := QPOptTransSgn T optidx in
    let xqp := QPTrans T mpidx in let xqpSgn := QPTransSgn T mpidx in
    loop 0 nsize (fun msi st =>
      let ri := eleIdx msi in let si := eleSpn msi in let ori := xqpOpt ri in let tri := xqp ori + si * Nsite S in
      let sgni := xqpSgn ori * xqpOptSgn ri in
      loop 0 nsize (fun msj (st : (Z -> Z) * (Z -> Z)) =>
        let rj := eleIdx msj in let sj := eleSpn msj in let orj := xqpOpt rj in let trj := xqp orj + sj * Nsite S in
        let sgnj := xqpSgn orj * xqpOptSgn rj in
        (upd (fst st) (qpidx * nsize * nsize + msi * nsize + msj) (OrbitalIdx T tri trj),
         upd (snd st) (qpidx * nsize * nsize + msi * nsize + msj) (sgni * sgnj * OrbitalSgn T tri trj))) st) st)
    ((fun _ => 0), (fun _ => 0)) in
  let buffer := loop 0 (NQPFull S) (fun qpidx buffer =>
    let mpidx := qpidx / NSPGaussLeg S in
    let cs := PfM qpidx in
    let tOrbIdx := fun msi msj => transOrbIdx (mpidx * nsize * nsize + msi * nsize + msj) in
    let tOrbSgn := fun msi msj => RtoC (IZR (transOrbSgn (mpidx * nsize * nsize + msi * nsize + msj))) in
    let invM := fun msi msj => InvM (qpidx * nsize * nsize + msi * nsize + msj) in
    let base := qpidx * NSlater S in
    loop 0 nsize (fun msi buffer => loop 0 nsize (fun msj buffer =>
      cadd buffer (base + tOrbIdx msi msj) (Cmult (Cmult (Cmult (RtoC (-1)) (invM msi msj)) cs) (tOrbSgn msi msj))) buffer) buffer)
    (fun _ => czero) in
  let srOptO := loop 0 (NSlater S) (fun k o => upd (upd o (2 * k) czero) (2 * k + 1) czero) srOptO in
  let srOptO := loop 0 (NQPFull S) (fun qpidx o =>
    let tmp := QPFullWeight A qpidx in
    loop 0 (NSlater S) (fun k o =>
      let o := cadd o (2 * k) (Cmult tmp (buffer (qpidx * NSlater S + k))) in
      cadd o (2 * k + 1) (Cmult (Cmult tmp (buffer (qpidx * NSlater S + k))) Ci)) o) srOptO in
  loop 0 (NSlater S) (fun k o =>
    let o := upd o (2 * k) (Cmult (o (2 * k)) (Cinv ip)) in
    upd o (2 * k + 1) (Cmult (o (2 * k + 1)) (Cinv ip))) srOptO.
End Slater.
