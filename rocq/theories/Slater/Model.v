(** Pair amplitudes, quantum-number projection weights and their derivatives (slater.c, qp.c, legendrepoly.c, vmccal.c).
    double complex is R*R, cos and sin are the real functions.  Threaded loops write one slice per iteration and are taken
    in order; workspace arrays are functions. *)
From Coq Require Import ZArith List Bool Reals.
From Coquelicot Require Import Complex.
From Verif Require Import Base.ZLoop Base.RSum.
Import ListNotations.
Local Open Scope Z_scope.

Definition czero : C := RtoC 0.
Definition cadd (a : Z -> C) (i : Z) (v : C) : Z -> C := upd a i (Cplus (a i) v).

(** sizes; readdef.c:778-779 NQPFix = NSPGaussLeg*NMPTrans, NQPFull = NQPFix*NQPOptTrans *)
Record sizes := { Nsite : Z; Ne : Z; NSPGaussLeg : Z; NMPTrans : Z; NQPOptTrans : Z; NSlater : Z }.
Definition NQPFix (S : sizes) : Z := NSPGaussLeg S * NMPTrans S.
Definition NQPFull (S : sizes) : Z := NQPFix S * NQPOptTrans S.
Definition Nsize (S : sizes) : Z := 2 * Ne S.
Definition Nsite2 (S : sizes) : Z := 2 * Nsite S.
(** tables read from the input *)
Record qptables := {
  QPOptTrans : Z -> Z -> Z; QPOptTransSgn : Z -> Z -> Z;      (* [NQPOptTrans][Nsite] *)
  QPTrans : Z -> Z -> Z; QPTransSgn : Z -> Z -> Z;            (* [NMPTrans][Nsite] *)
  OrbitalIdx : Z -> Z -> Z; OrbitalSgn : Z -> Z -> Z          (* [Nsite][Nsite] *)
}.
(** angles and weights, filled by InitQPWeight *)
Record angles := { SPGLCos : Z -> R; SPGLSin : Z -> R; SPGLCosSin : Z -> R; SPGLCosCos : Z -> R; SPGLSinSin : Z -> R; QPFixWeight : Z -> C; QPFullWeight : Z -> C }.

(** legendrepoly.c:32-48 LegendrePoly; P03 is only read after the loop has set it *)
Definition legendre_poly (x : R) (n : Z) : R :=
  if n <=? 0 then 1%R else if n =? 1 then x
  else let '(p01, p02, p03) := loop 2 (n + 1) (fun i (st : R * R * R) =>
         let '(p01, p02, p03) := st in
         let p03 := (1 / IZR i * ((2 * IZR i - 1) * x * p02 - (IZR i - 1) * p01))%R in (p02, p03, p03)) (1%R, x, 0%R) in p03.

(** qp.c:129-147 UpdateQPWeight; NOptTrans = NQPOptTrans when FlagOptTrans>0 (readdef.c:763) *)
Definition update_qp_weight (S : sizes) (FlagOptTrans : bool) (OptTrans : Z -> C) (wfix : Z -> C) (full : Z -> C) : Z -> C :=
  if FlagOptTrans then
    loop 0 (NQPOptTrans S) (fun i full => loop 0 (NQPFix S) (fun j full => upd full (i * NQPFix S + j) (Cmult (OptTrans i) (wfix j))) full) full
  else loop 0 (NQPFix S) (fun j full => upd full j (wfix j)) full.

(** the call of UpdateQPWeight after the weights of the transforms changed (vmcmain.c) *)
Definition update_weights (S : sizes) (FlagOptTrans : bool) (OptTrans : Z -> C) (A : angles) : angles :=
  {| SPGLCos := SPGLCos A; SPGLSin := SPGLSin A; SPGLCosSin := SPGLCosSin A; SPGLCosCos := SPGLCosCos A; SPGLSinSin := SPGLSinSin A;
     QPFixWeight := QPFixWeight A; QPFullWeight := update_qp_weight S FlagOptTrans OptTrans (QPFixWeight A) (QPFullWeight A) |}.

(** qp.c:38-86 InitQPWeight.  [beta], [weight] are the nodes and weights from GaussLeg (gauleg.c, not modelled). *)
Definition init_qp_weight (S : sizes) (NSPStot : Z) (beta weight : Z -> R) (ParaQPTrans : Z -> C) (FlagOptTrans : bool) (OptTrans : Z -> C) : angles :=
  let z := fun _ : Z => 0%R in
  let '(co, si, cs, cc, ss, wfix) :=
    if NSPGaussLeg S =? 1 then
      (upd z 0 1%R, z, z, upd z 0 1%R, z, loop 0 (NMPTrans S) (fun j f => upd f j (ParaQPTrans j)) (fun _ => czero))
    else loop 0 (NSPGaussLeg S) (fun i (st : (Z -> R) * (Z -> R) * (Z -> R) * (Z -> R) * (Z -> R) * (Z -> C)) =>
      let '(co, si, cs, cc, ss, wfix) := st in
      let co := upd co i (cos (0.5 * beta i)%R) in
      let si := upd si i (sin (0.5 * beta i)%R) in
      let cs := upd cs i (co i * si i)%R in
      let cc := upd cc i (co i * co i)%R in
      let ss := upd ss i (si i * si i)%R in
      let w := (0.5 * sin (beta i) * weight i * legendre_poly (cos (beta i)) NSPStot)%R in
      let wfix := loop 0 (NMPTrans S) (fun j wfix => upd wfix (i + j * NSPGaussLeg S) (Cmult (RtoC w) (ParaQPTrans j))) wfix in
      (co, si, cs, cc, ss, wfix)) (z, z, z, z, z, (fun _ => czero)) in
  update_weights S FlagOptTrans OptTrans {| SPGLCos := co; SPGLSin := si; SPGLCosSin := cs; SPGLCosCos := cc; SPGLSinSin := ss; QPFixWeight := wfix;
     QPFullWeight := fun _ => czero |}.

(** qp.c:110-127 CalculateIP_fcmp, one process *)
Definition calculate_ip (A : angles) (qpStart qpEnd : Z) (pfM : Z -> C) : C :=
  loop 0 (qpEnd - qpStart) (fun q ip => Cplus ip (Cmult (QPFullWeight A (q + qpStart)) (pfM q))) czero.

(** slater.c:37-96 UpdateSlaterElm_fcmp *)
Definition update_slater_elm (S : sizes) (T : qptables) (A : angles) (Slater : Z -> C) (SlaterElm : Z -> C) : Z -> C :=
  loop 0 (NQPFull S) (fun qpidx E =>
    let optidx := qpidx / NQPFix S in
    let mpidx := (qpidx mod NQPFix S) / NSPGaussLeg S in
    let spidx := qpidx mod NSPGaussLeg S in
    let xqpOpt := QPOptTrans T optidx in let xqpOptSgn := QPOptTransSgn T optidx in
    let xqp := QPTrans T mpidx in let xqpSgn := QPTransSgn T mpidx in
    let cs := RtoC (SPGLCosSin A spidx) in let cc := RtoC (SPGLCosCos A spidx) in let ss := RtoC (SPGLSinSin A spidx) in
    let base := qpidx * Nsite2 S * Nsite2 S in
    loop 0 (Nsite S) (fun ri E =>
      let ori := xqpOpt ri in let tri := xqp ori in let sgni := xqpSgn ori * xqpOptSgn ri in
      let rsi0 := ri in let rsi1 := ri + Nsite S in
      loop 0 (Nsite S) (fun rj E =>
        let orj := xqpOpt rj in let trj := xqp orj in let sgnj := xqpSgn orj * xqpOptSgn rj in
        let rsj0 := rj in let rsj1 := rj + Nsite S in
        let slt_ij := Cmult (Slater (OrbitalIdx T tri trj)) (RtoC (IZR (OrbitalSgn T tri trj * sgni * sgnj))) in
        let slt_ji := Cmult (Slater (OrbitalIdx T trj tri)) (RtoC (IZR (OrbitalSgn T trj tri * sgni * sgnj))) in
        let E := upd E (base + rsi0 * Nsite2 S + rsj0) (Cmult (Copp (Cminus slt_ij slt_ji)) cs) in
        let E := upd E (base + rsi0 * Nsite2 S + rsj1) (Cplus (Cmult slt_ij cc) (Cmult slt_ji ss)) in
        let E := upd E (base + rsi1 * Nsite2 S + rsj0) (Cminus (Cmult (Copp slt_ij) ss) (Cmult slt_ji cc)) in
        upd E (base + rsi1 * Nsite2 S + rsj1) (Cmult (Cminus slt_ij slt_ji) cs)) E) E) SlaterElm.

(** slater.c:99-237 SlaterElmDiff_fcmp; [InvM], [PfM] are for all projections, srOptO is the part of the vector it is given *)
Definition slater_elm_diff (S : sizes) (T : qptables) (A : angles) (InvM PfM : Z -> C) (ip : C) (eleIdx : Z -> Z) (srOptO : Z -> C) : Z -> C :=
  let nsize := Nsize S in let ne := Ne S in
  let nTrans := NMPTrans S * NQPOptTrans S in
  let '(transOrbIdx, transOrbSgn) := loop 0 nTrans (fun qpidx st =>
    let optidx := qpidx / NMPTrans S in
    let mpidx := qpidx mod NMPTrans S in
    let xqpOpt := QPOptTrans T optidx in let xqpOptSgn := QPOptTransSgn T optidx in
    let xqp := QPTrans T mpidx in let xqpSgn := QPTransSgn T mpidx in
    loop 0 nsize (fun msi st =>
      let ri := eleIdx msi in let ori := xqpOpt ri in let tri := xqp ori in let sgni := xqpSgn ori * xqpOptSgn ri in
      loop 0 nsize (fun msj (st : (Z -> Z) * (Z -> Z)) =>
        let rj := eleIdx msj in let orj := xqpOpt rj in let trj := xqp orj in let sgnj := xqpSgn orj * xqpOptSgn rj in
        (upd (fst st) (qpidx * nsize * nsize + msi * nsize + msj) (OrbitalIdx T tri trj),
         upd (snd st) (qpidx * nsize * nsize + msi * nsize + msj) (sgni * sgnj * OrbitalSgn T tri trj))) st) st)
    ((fun _ => 0), (fun _ => 0)) in
  let buffer := loop 0 (NQPFull S) (fun qpidx buffer =>
    let mpidx := qpidx / NSPGaussLeg S in
    let spidx := qpidx mod NSPGaussLeg S in
    let cs := Cmult (PfM qpidx) (RtoC (SPGLCosSin A spidx)) in
    let cc := Cmult (PfM qpidx) (RtoC (SPGLCosCos A spidx)) in
    let ss := Cmult (PfM qpidx) (RtoC (SPGLSinSin A spidx)) in
    let tOrbIdx := fun msi msj => transOrbIdx (mpidx * nsize * nsize + msi * nsize + msj) in
    let tOrbSgn := fun msi msj => RtoC (IZR (transOrbSgn (mpidx * nsize * nsize + msi * nsize + msj))) in
    let invM := fun msi msj => InvM (qpidx * nsize * nsize + msi * nsize + msj) in
    let base := qpidx * NSlater S in
    let buffer := loop 0 ne (fun msi buffer =>
      let buffer := loop 0 ne (fun msj buffer => cadd buffer (base + tOrbIdx msi msj) (Cmult (Cmult (invM msi msj) cs) (tOrbSgn msi msj))) buffer in
      loop ne nsize (fun msj buffer => cadd buffer (base + tOrbIdx msi msj) (Copp (Cmult (Cmult (invM msi msj) cc) (tOrbSgn msi msj)))) buffer) buffer in
    loop ne nsize (fun msi buffer =>
      let buffer := loop 0 ne (fun msj buffer => cadd buffer (base + tOrbIdx msi msj) (Cmult (Cmult (invM msi msj) ss) (tOrbSgn msi msj))) buffer in
      loop ne nsize (fun msj buffer => cadd buffer (base + tOrbIdx msi msj) (Copp (Cmult (Cmult (invM msi msj) cs) (tOrbSgn msi msj)))) buffer) buffer)
    (fun _ => czero) in
  let srOptO := loop 0 (NSlater S) (fun k o => upd (upd o (2 * k) czero) (2 * k + 1) czero) srOptO in
  let srOptO := loop 0 (NQPFull S) (fun qpidx o =>
    let tmp := QPFullWeight A qpidx in
    loop 0 (NSlater S) (fun k o =>
      let o := cadd o (2 * k) (Cmult tmp (buffer (qpidx * NSlater S + k))) in
      cadd o (2 * k + 1) (Cmult (Cmult tmp (buffer (qpidx * NSlater S + k))) Ci)) o) srOptO in
  loop 0 (NSlater S) (fun k o =>
    let o := upd o (2 * k) (Cmult (o (2 * k)) (Cinv ip)) in
    upd o (2 * k + 1) (Cmult (o (2 * k + 1)) (Cinv ip))) srOptO.

(** vmccal.c:639-654 calculateOptTransDiff *)
Definition calculate_opt_trans_diff (S : sizes) (A : angles) (PfM : Z -> C) (ipAll : C) (srOptO : Z -> C) : Z -> C :=
  loop 0 (NQPOptTrans S) (fun i o =>
    let ip := loop 0 (NQPFix S) (fun j ip => Cplus ip (Cmult (QPFixWeight A j) (PfM (i * NQPFix S + j)))) czero in
    upd o i (Cmult ip (Cinv ipAll))) srOptO.
