(** Runs with real parameters: the copies of the sampler, the local Green functions and the local energy in real arithmetic
    (pfupdate_real.c, pfupdate_two_real.c, qp_real.c, locgrn_real.c, calham_real.c, vmcmake_real.c).  double is R.  The
    conventions are those of Pf/Model.v, Green/Model.v, Ham/Model.v and Mark/Model.v, whose complex versions these are copies of. *)
From Coq Require Import ZArith List Bool Reals.
From Coquelicot Require Import Complex.
From Verif Require Import Base.ZLoop Base.Checked Base.RSum Proj.Model Slater.Model Green.Model Ham.Model Samp.Model Mark.Model.
Import ListNotations.
Local Open Scope Z_scope.

(** readdef.c:641-642: 0 selects the real versions (vmcmain.c:554, vmccal.c:126,142,167).  Each flag is the first number of the
    ComplexType line of one family of parameters; those of the restricted Boltzmann machine are not counted. *)
Definition all_complex_flag (gutz jast dh2 dh4 orbital : Z) : Z := gutz + jast + dh2 + (dh4 + orbital).

Definition radd (a : Z -> R) (i : Z) (v : R) : Z -> R := upd a i (Rplus (a i) v).

Section Updates.
Variables (Nsite Ne Nsize : Z).
Let Nsite2 : Z := 2 * Nsite.
Variable SlaterElm : Z -> R.                 (* [NQPFull][2*Nsite][2*Nsite] *)

(** pfupdate_real.c:44-80 CalculateNewPfM_real (and CalculateNewPfM2_real, 83-120, the same with threads) *)
Definition calculate_new_pfm_real (ma s : Z) (eleIdx : Z -> Z) (qpStart qpEnd : Z) (InvM PfM : Z -> R) (pfMNew : Z -> R) : Z -> R :=
  let qpNum := qpEnd - qpStart in
  let msa := ma + s * Ne in
  let rsa := eleIdx msa + s * Nsite in
  loop 0 qpNum (fun qpidx pfMNew =>
    let sltE_a := fun r => SlaterElm ((qpidx + qpStart) * Nsite2 * Nsite2 + rsa * Nsite2 + r) in
    let invM_a := fun m => InvM (qpidx * Nsize * Nsize + msa * Nsize + m) in
    let ratio := loop 0 Ne (fun msj ratio => Rplus ratio (Rmult (invM_a msj) (sltE_a (eleIdx msj)))) 0%R in
    let ratio := loop Ne Nsize (fun msj ratio => Rplus ratio (Rmult (invM_a msj) (sltE_a (eleIdx msj + Nsite)))) ratio in
    upd pfMNew qpidx (Rmult (Ropp ratio) (PfM qpidx))) pfMNew.

(** pfupdate_real.c:147-220 updateMAll_child_real; [-1.0/tmp] is Ropp (Rinv tmp) *)
Definition update_mall_child_real (ma s : Z) (eleIdx : Z -> Z) (qpStart qpidx : Z) (InvM PfM : Z -> R) : (Z -> R) * (Z -> R) :=
  let msa := ma + s * Ne in
  let rsa := eleIdx msa + s * Nsite in
  let sltE_a := fun r => SlaterElm ((qpidx + qpStart) * Nsite2 * Nsite2 + rsa * Nsite2 + r) in
  let base := qpidx * Nsize * Nsize in
  let vec1 := loop 0 Nsize (fun msj vec1 =>
    let rsj := eleIdx msj + (msj / Ne) * Nsite in
    let sltE_aj := sltE_a rsj in
    loop 0 Nsize (fun msi vec1 => radd vec1 msi (Rmult (Ropp (InvM (base + msj * Nsize + msi))) sltE_aj)) vec1) (fun _ => 0%R) in
  let tmp := vec1 msa in
  let PfM := upd PfM qpidx (Rmult (PfM qpidx) (Ropp tmp)) in
  let invVec1_a := Ropp (Rinv tmp) in
  let vec2 := loop 0 Nsize (fun msi vec2 => upd vec2 msi (Rmult (InvM (base + msa * Nsize + msi)) invVec1_a)) (fun _ => 0%R) in
  let InvM := loop 0 Nsize (fun msi InvM =>
    let vec1_i := vec1 msi in
    let vec2_i := vec2 msi in
    let InvM := loop 0 Nsize (fun msj InvM =>
      radd InvM (base + msi * Nsize + msj) (Rminus (Rmult vec1_i (vec2 msj)) (Rmult (vec1 msj) vec2_i))) InvM in
    radd InvM (base + msi * Nsize + msa) (Ropp vec2_i)) InvM in
  let InvM := loop 0 Nsize (fun msj InvM => radd InvM (base + msa * Nsize + msj) (vec2 msj)) InvM in
  (InvM, PfM).
(** pfupdate_real.c:123-145 UpdateMAll_real *)
Definition update_mall_real (ma s : Z) (eleIdx : Z -> Z) (qpStart qpEnd : Z) (st : (Z -> R) * (Z -> R)) : (Z -> R) * (Z -> R) :=
  loop 0 (qpEnd - qpStart) (fun qpidx st => update_mall_child_real ma s eleIdx qpStart qpidx (fst st) (snd st)) st.

(** pfupdate_two_real.c:108-185 calculateNewPfMTwo_child_real *)
Definition calculate_new_pfm_two_child_real (ma s mb t : Z) (eleIdx : Z -> Z) (qpStart qpidx : Z) (InvM PfM : Z -> R) (pfMNew : Z -> R) : Z -> R :=
  let msa := ma + s * Ne in
  let msb := mb + t * Ne in
  let rsa := eleIdx msa + s * Nsite in
  let rsb := eleIdx msb + t * Nsite in
  let sltE := fun r => SlaterElm ((qpidx + qpStart) * Nsite2 * Nsite2 + r) in
  let rs := fun msi => eleIdx msi + (msi / Ne) * Nsite in
  let vec_a := loop 0 Nsize (fun msi v => upd v msi (sltE (rsa * Nsite2 + rs msi))) (fun _ => 0%R) in
  let vec_b := loop 0 Nsize (fun msi v => upd v msi (sltE (rsb * Nsite2 + rs msi))) (fun _ => 0%R) in
  let vec_ba := vec_b msa in
  let invM := fun k => InvM (qpidx * Nsize * Nsize + k) in
  let invM_ab := invM (msa * Nsize + msb) in
  let '(p_a, p_b, q_a, q_b) := loop 0 Nsize (fun msi (st : R * R * R * R) =>
    let '(p_a, p_b, q_a, q_b) := st in
    let vec_ai := vec_a msi in let vec_bi := vec_b msi in
    let invM_ai := invM (msa * Nsize + msi) in let invM_bi := invM (msb * Nsize + msi) in
    (Rplus p_a (Rmult invM_ai vec_ai), Rplus p_b (Rmult invM_bi vec_ai), Rplus q_a (Rmult invM_ai vec_bi), Rplus q_b (Rmult invM_bi vec_bi)))
    (0%R, 0%R, 0%R, 0%R) in
  let bMa := loop 0 Nsize (fun msi bMa =>
    let tmp := loop 0 Nsize (fun msj tmp => Rplus tmp (Rmult (invM (msi * Nsize + msj)) (vec_a msj))) 0%R in
    Rplus bMa (Rmult (vec_b msi) tmp)) 0%R in
  let ratio := Rminus (Rplus (Rplus (Rmult invM_ab vec_ba) (Rmult invM_ab bMa)) (Rmult p_a q_b)) (Rmult p_b q_a) in
  upd pfMNew qpidx (Rmult ratio (PfM qpidx)).
(** pfupdate_two_real.c:47-69 CalculateNewPfMTwo_real (and CalculateNewPfMTwo2_real, 75-106, the same with threads) *)
Definition calculate_new_pfm_two_real (ma s mb t : Z) (eleIdx : Z -> Z) (qpStart qpEnd : Z) (InvM PfM : Z -> R) (pfMNew : Z -> R) : Z -> R :=
  if ma + s * Ne =? mb + t * Ne then calculate_new_pfm_real mb t eleIdx qpStart qpEnd InvM PfM pfMNew
  else loop 0 (qpEnd - qpStart) (fun qpidx => calculate_new_pfm_two_child_real ma s mb t eleIdx qpStart qpidx InvM PfM) pfMNew.

(** pfupdate_two_real.c:234-343, the body of updateMAllTwo_child_real after its constants.  [rs] gives the spin-orbital of an
    electron (line 255) *)
Definition update_mall_two_body_real (msa msb rsa rsb : Z) (mOld_ab : R) (rs : Z -> Z) (qpStart qpidx : Z) (InvM PfM : Z -> R) : (Z -> R) * (Z -> R) :=
  let sltE := fun r => SlaterElm ((qpidx + qpStart) * Nsite2 * Nsite2 + r) in
  let base := qpidx * Nsize * Nsize in
  let invM_ab := InvM (base + msa * Nsize + msb) in
  let vecS := loop 0 Nsize (fun msi v => upd v msi (sltE (rsa * Nsite2 + rs msi))) (fun _ => 0%R) in
  let vecT := loop 0 Nsize (fun msi v => upd v msi (sltE (rsb * Nsite2 + rs msi))) (fun _ => 0%R) in
  let vecS := upd vecS msb mOld_ab in
  let '(vecP, vecQ) := loop 0 Nsize (fun msi st => loop 0 Nsize (fun msj (st : (Z -> R) * (Z -> R)) =>
      let x := InvM (base + msi * Nsize + msj) in
      (radd (fst st) msi (Rmult x (vecS msj)), radd (snd st) msi (Rmult x (vecT msj)))) st) ((fun _ => 0%R), (fun _ => 0%R)) in
  let bMa := loop 0 Nsize (fun msi bMa => Rplus bMa (Rmult (vecT msi) (vecP msi))) 0%R in
  let ratio := Rminus (Rplus (Rplus (Rmult invM_ab (vecT msa)) (Rmult invM_ab bMa)) (Rmult (vecP msa) (vecQ msb))) (Rmult (vecP msb) (vecQ msa)) in
  let PfM := upd PfM qpidx (Rmult (PfM qpidx) ratio) in
  let a := Ropp (vecP msa) in
  let b := vecP msb in
  let c := vecQ msa in
  let d := Ropp (vecQ msb) in
  let e := Rminus (Ropp bMa) (vecT msa) in
  let f := InvM (base + msa * Nsize + msb) in
  let det := Rminus (Rminus (Rmult a d) (Rmult b c)) (Rmult e f) in
  let invDet := Rinv det in
  let vecS' := loop 0 Nsize (fun msi v => upd v msi (Rmult invDet (InvM (base + msa * Nsize + msi)))) vecS in
  let vecT' := loop 0 Nsize (fun msi v => upd v msi (Rmult invDet (InvM (base + msb * Nsize + msi)))) vecT in
  let fi := Rmult f invDet in
  let InvM := loop 0 Nsize (fun msi InvM =>
    let p_i := vecP msi in let q_i := vecQ msi in let s_i := vecS' msi in let t_i := vecT' msi in
    let InvM := loop 0 Nsize (fun msj InvM =>
      let p_j := vecP msj in let q_j := vecQ msj in let s_j := vecS' msj in let t_j := vecT' msj in
      radd InvM (base + msi * Nsize + msj)
        (Rplus (Rplus (Rplus (Rplus (Rplus
          (Rmult a (Rminus (Rmult q_i t_j) (Rmult q_j t_i)))
          (Rmult b (Rminus (Rmult q_i s_j) (Rmult q_j s_i))))
          (Rmult c (Rminus (Rmult p_i t_j) (Rmult p_j t_i))))
          (Rmult d (Rminus (Rmult p_i s_j) (Rmult p_j s_i))))
          (Rmult (Rmult e det) (Rminus (Rmult s_i t_j) (Rmult s_j t_i))))
          (Rmult fi (Rminus (Rmult p_i q_j) (Rmult q_i p_j))))) InvM in
    let InvM := radd InvM (base + msi * Nsize + msa) (Rminus (Rminus (Rmult (Ropp c) t_i) (Rmult d s_i)) (Rmult fi q_i)) in
    radd InvM (base + msi * Nsize + msb) (Rplus (Rminus (Rmult (Ropp a) t_i) (Rmult b s_i)) (Rmult fi p_i))) InvM in
  let InvM := loop 0 Nsize (fun msj InvM =>
    let p_j := vecP msj in let q_j := vecQ msj in let s_j := vecS' msj in let t_j := vecT' msj in
    let InvM := radd InvM (base + msa * Nsize + msj) (Rplus (Rplus (Rmult c t_j) (Rmult d s_j)) (Rmult fi q_j)) in
    radd InvM (base + msb * Nsize + msj) (Rminus (Rplus (Rmult a t_j) (Rmult b s_j)) (Rmult fi p_j))) InvM in
  let InvM := radd InvM (base + msa * Nsize + msb) fi in
  let InvM := radd InvM (base + msb * Nsize + msa) (Ropp fi) in
  (InvM, PfM).
(** pfupdate_two_real.c:217-344 updateMAllTwo_child_real.  [raOld] is used for both old sites, as in the code (line 227);
    rbOld is not used. *)
Definition update_mall_two_child_real (ma s mb t raOld rbOld : Z) (eleIdx : Z -> Z) (qpStart qpidx : Z) (InvM PfM : Z -> R) : (Z -> R) * (Z -> R) :=
  let msa := ma + s * Ne in
  let msb := mb + t * Ne in
  let rsa := eleIdx msa + s * Nsite in
  let rsb := eleIdx msb + t * Nsite in
  let rsaOld := raOld + s * Nsite in
  let rsbOld := raOld + t * Nsite in
  let sltE := fun r => SlaterElm ((qpidx + qpStart) * Nsite2 * Nsite2 + r) in
  let mOld_ab := sltE (rsaOld * Nsite2 + rsbOld) in
  update_mall_two_body_real msa msb rsa rsb mOld_ab (fun msi => eleIdx msi + (msi / Ne) * Nsite) qpStart qpidx InvM PfM.
(** pfupdate_two_real.c:189-215 UpdateMAllTwo_real *)
Definition update_mall_two_real (ma s mb t raOld rbOld : Z) (eleIdx : Z -> Z) (qpStart qpEnd : Z) (st : (Z -> R) * (Z -> R)) : (Z -> R) * (Z -> R) :=
  loop 0 (qpEnd - qpStart) (fun qpidx st => update_mall_two_child_real ma s mb t raOld rbOld eleIdx qpStart qpidx (fst st) (snd st)) st.
End Updates.

(** the global variables; the weights QPFullWeight stay complex, and so do the correlation factors *)
Record renv := REnv {
  rNsite : Z; rNe : Z; rNQPFull : Z;
  rT : tables; rProj : Z -> C;
  rclog : C -> C; rA : angles; rSl : Z -> R; rInvM : Z -> R; rPfM : Z -> R
}.
Record rwork := RWork { wIdx : Z -> Z; wNum : Z -> Z; wProj : Z -> Z; wPf : Z -> R }.

(** qp_real.c:53-70 CalculateIP_real, one process *)
Definition calculate_ip_real (A : angles) (qpStart qpEnd : Z) (pfM : Z -> R) : R :=
  loop 0 (qpEnd - qpStart) (fun q ip => (ip + fst (QPFullWeight A (q + qpStart)) * pfM q)%R) 0%R.
(** qp_real.c:34-50 CalculateLogIP_real: the complex logarithm is returned as a double *)
Definition log_ip_real (clog : C -> C) (ip : R) : R := fst (clog (RtoC ip)).

Section Real.
Variable G : renv.
Let N := rNsite G.
Let n2 := 2 * rNsite G.
Let Ne := rNe G.
(** projection.c:40-47 LogProjRatio, 50-57 ProjRatio *)
Definition log_proj_ratio_real (cnew cold : Z -> Z) : R :=
  loop 0 (NProj (rT G)) (fun k z => (z + fst (rProj G k) * IZR (cnew k - cold k))%R) 0%R.
Definition proj_ratio_real (cnew cold : Z -> Z) : R := exp (log_proj_ratio_real cnew cold).

(** locgrn_real.c:60-62, 70-73 *)
Definition put_real (m rNew rsOld rsNew : Z) (w : rwork) : option rwork :=
  x <- wr (2 * Ne) (wIdx w) m rNew;;
  e <- wr n2 (wNum w) rsOld 0;;
  e <- wr n2 e rsNew 1;;
  Some (RWork x e (wProj w) (wPf w)).

(** locgrn_real.c:44-76 GreenFunc1_real *)
Definition green1_real (ri rj s : Z) (ip : R) (eleCfg : Z -> Z) (cnt : Z -> Z) (w : rwork) : option (R * rwork) :=
  let rsi := ri + s * N in let rsj := rj + s * N in
  ni <- rd n2 (wNum w) rsi;; nj <- rd n2 (wNum w) rsj;;
  if ri =? rj then Some (IZR ni, w)
  else if (ni =? 1) || (nj =? 0) then Some (0%R, w)
  else
    mj <- rd n2 eleCfg rsj;;
    let msj := mj + s * Ne in
    w1 <- put_real msj ri rsj rsi w;;
    p <- update_proj_cnt (rT G) rj ri s false (wProj w1) cnt (wNum w1);;
    let z := proj_ratio_real p cnt in
    let pf := calculate_new_pfm_real N Ne (2 * Ne) (rSl G) mj s (wIdx w1) 0 (rNQPFull G) (rInvM G) (rPfM G) (wPf w1) in
    let z := (z * calculate_ip_real (rA G) 0 (rNQPFull G) pf)%R in
    w2 <- put_real msj rj rsi rsj (RWork (wIdx w1) (wNum w1) p pf);;
    Some ((z / ip)%R, w2).

(** locgrn_real.c:80-164 GreenFunc2_real *)
Definition green2_real (ri rj rk rl s t : Z) (ip : R) (eleCfg : Z -> Z) (cnt : Z -> Z) (w : rwork) : option (R * rwork) :=
  let rsi := ri + s * N in let rsj := rj + s * N in let rtk := rk + t * N in let rtl := rl + t * N in
  let zero := Some (0%R, w) in
  let one a b s := green1_real a b s ip eleCfg cnt w in
  let num v := Some (IZR v, w) in
  ni <- rd n2 (wNum w) rsi;; nj <- rd n2 (wNum w) rsj;; nk <- rd n2 (wNum w) rtk;; nl <- rd n2 (wNum w) rtl;;
  let rest :=
    if (ni =? 1) || (nj =? 0) || (nk =? 1) || (nl =? 0) then zero
    else
      mj <- rd n2 eleCfg rsj;; ml <- rd n2 eleCfg rtl;;
      let msj := mj + s * Ne in let mtl := ml + t * Ne in
      w1 <- put_real mtl rk rtl rtk w;;
      p <- update_proj_cnt (rT G) rl rk t false (wProj w1) cnt (wNum w1);;
      w2 <- put_real msj ri rsj rsi (RWork (wIdx w1) (wNum w1) p (wPf w1));;
      p <- update_proj_cnt (rT G) rj ri s true p p (wNum w2);;
      let z := proj_ratio_real p cnt in
      let pf := calculate_new_pfm_two_real N Ne (2 * Ne) (rSl G) ml t mj s (wIdx w2) 0 (rNQPFull G) (rInvM G) (rPfM G) (wPf w2) in
      let z := (z * calculate_ip_real (rA G) 0 (rNQPFull G) pf)%R in
      w3 <- put_real mtl rl rtk rtl (RWork (wIdx w2) (wNum w2) p pf);;
      w4 <- put_real msj rj rsi rsj w3;;
      Some ((z / ip)%R, w4) in
  if s =? t then
    if rk =? rl then (if nk =? 0 then zero else one ri rj s)
    else if rj =? rl then zero
    else if ri =? rl then (if ni =? 0 then zero else if rj =? rk then num (1 - nj) else r <- one rk rj s;; Some ((- fst r)%R, snd r))
    else if rj =? rk then (if nj =? 1 then zero else if ri =? rl then num ni else one ri rl s)
    else if ri =? rk then zero
    else if ri =? rj then (if ni =? 0 then zero else one rk rl s)
    else rest
  else
    if rk =? rl then (if nk =? 0 then zero else if ri =? rj then num ni else one ri rj s)
    else if ri =? rj then (if ni =? 0 then zero else one rk rl t)
    else rest.

(** ** local energy *)
(** number of threads, iterations of loop l in thread t, contents of the work spaces *)
Record rsched := RSched { rthreads : Z; rplan : Z -> Z -> list Z; rspace : Z -> rwork }.
Variable H : terms.
Section Region.
Variables (ip : R) (eleCfg eleNum : Z -> Z) (cnt : Z -> Z).
Definition rstate : Type := rwork * R.
Definition radd_energy (st : rstate) (v : R) : option rstate := Some (fst st, (snd st + v)%R).
(** calham_real.c:92-95 *)
Definition it_intra_real (idx : Z) (st : rstate) : option rstate :=
  let ri := Intra H idx in
  a <- rd n2 eleNum ri;; b <- rd n2 eleNum (ri + N);;
  radd_energy st (ParaIntra H idx * IZR a * IZR b)%R.
(** calham_real.c:103-107 *)
Definition it_inter_real (idx : Z) (st : rstate) : option rstate :=
  let ri := Inter H idx 0 in let rj := Inter H idx 1 in
  a <- rd n2 eleNum ri;; b <- rd n2 eleNum (ri + N);; c <- rd n2 eleNum rj;; d <- rd n2 eleNum (rj + N);;
  radd_energy st (ParaInter H idx * IZR (a + b) * IZR (c + d))%R.
(** calham_real.c:115-120 *)
Definition it_hund_real (idx : Z) (st : rstate) : option rstate :=
  let ri := Hund H idx 0 in let rj := Hund H idx 1 in
  a <- rd n2 eleNum ri;; b <- rd n2 eleNum (ri + N);; c <- rd n2 eleNum rj;; d <- rd n2 eleNum (rj + N);;
  radd_energy st (- (ParaHund H idx * IZR (a * c + b * d)))%R.
(** myEnergy += p * g *)
Definition add_green_real (st : rstate) (p : R) (g : option (R * rwork)) : option rstate :=
  r <- g;; Some (snd r, (snd st + p * fst r)%R).
(** calham_real.c:131-139 *)
Definition it_transfer_real (idx : Z) (st : rstate) : option rstate :=
  let ri := Transfer H idx 0 in let rj := Transfer H idx 2 in let s := Transfer H idx 3 in
  add_green_real st (- fst (ParaTransfer H idx))%R (green1_real ri rj s ip eleCfg cnt (fst st)).
(** calham_real.c:150-156 *)
Definition it_pair_real (idx : Z) (st : rstate) : option rstate :=
  let ri := Pair H idx 0 in let rj := Pair H idx 1 in
  add_green_real st (ParaPair H idx) (green2_real ri rj ri rj 0 1 ip eleCfg cnt (fst st)).
(** calham_real.c:164-172 *)
Definition it_exchange_real (idx : Z) (st : rstate) : option rstate :=
  let ri := Exchange H idx 0 in let rj := Exchange H idx 1 in
  add_green_real st (ParaExchange H idx)
    (r <- green2_real ri rj rj ri 0 1 ip eleCfg cnt (fst st);;
     r' <- green2_real ri rj rj ri 1 0 ip eleCfg cnt (snd r);;
     Some ((fst r + fst r')%R, snd r')).
(** calham_real.c:180-190; a complex coefficient times a double, added to a double: the real part *)
Definition it_interall_real (idx : Z) (st : rstate) : option rstate :=
  let ri := InterAll H idx 0 in let rj := InterAll H idx 2 in let s := InterAll H idx 3 in
  let rk := InterAll H idx 4 in let rl := InterAll H idx 6 in let t := InterAll H idx 7 in
  add_green_real st (fst (ParaInterAll H idx)) (green2_real ri rj rk rl s t ip eleCfg cnt (fst st)).
(** calham_real.c:76-79 *)
Definition copy_tables_real (eleIdx : Z -> Z) (w : rwork) : rwork :=
  RWork (loop 0 (2 * Ne) (fun i a => upd a i (eleIdx i)) (wIdx w)) (loop 0 n2 (fun i a => upd a i (eleNum i)) (wNum w)) (wProj w) (wPf w).
(** calham_real.c:43-210 CalculateHamiltonian_real *)
Definition calculate_hamiltonian_real (P : rsched) (eleIdx : Z -> Z) : option R :=
  runs (zrange 0 (rthreads P)) (fun t e =>
    let st := (copy_tables_real eleIdx (rspace P t), 0%R) in
    st <- runs (rplan P 0 t) it_intra_real st;;
    st <- runs (rplan P 1 t) it_inter_real st;;
    st <- runs (rplan P 2 t) it_hund_real st;;
    st <- runs (rplan P 3 t) it_transfer_real st;;
    st <- runs (rplan P 4 t) it_pair_real st;;
    st <- runs (rplan P 5 t) it_exchange_real st;;
    st <- runs (rplan P 6 t) it_interall_real st;;
    Some (e + snd st)%R) 0%R.
End Region.

(** ** sampling; the buffers projCntNew and pfMNew_real before they are written *)
Record rscratch := RScratch { rcntBuf : Z -> Z; rpfBuf : Z -> R }.
(** vmcmake_real.c:175-176: w = exp(2.0 * (x + (logIpNew - logIpOld))); the logarithm of 0 is -infinity *)
Definition metropolis_weight_real (x ip logIpOld : R) : R :=
  if Req_EM_T ip 0 then 0%R else exp (2 * (x + (log_ip_real (rclog G) ip - logIpOld))).
(** vmcmake_real.c:153-176 *)
Definition one_weight_real (b : rscratch) (w : walker) (logIpOld : R) (mi ri rj s : Z) (w1 : walker) : option R :=
  p <- update_proj_cnt (rT G) ri rj s false (rcntBuf b) (eleProjCnt w) (Samp.Model.eleNum w1);;
  let pf := calculate_new_pfm_real N Ne (2 * Ne) (rSl G) mi s (Samp.Model.eleIdx w1) 0 (rNQPFull G) (rInvM G) (rPfM G) (rpfBuf b) in
  Some (metropolis_weight_real (log_proj_ratio_real p (eleProjCnt w)) (calculate_ip_real (rA G) 0 (rNQPFull G) pf) logIpOld).
(** vmcmake_real.c:217-251 *)
Definition two_weight_real (b : rscratch) (w : walker) (logIpOld : R) (mi mj ri rj s : Z) (w1 w2 : walker) : option R :=
  let t := 1 - s in
  p <- update_proj_cnt (rT G) ri rj s false (rcntBuf b) (eleProjCnt w) (Samp.Model.eleNum w1);;
  p <- update_proj_cnt (rT G) rj ri t true p p (Samp.Model.eleNum w2);;
  let pf := calculate_new_pfm_two_real N Ne (2 * Ne) (rSl G) mi s mj t (Samp.Model.eleIdx w2) 0 (rNQPFull G) (rInvM G) (rPfM G) (rpfBuf b) in
  Some (metropolis_weight_real (log_proj_ratio_real p (eleProjCnt w)) (calculate_ip_real (rA G) 0 (rNQPFull G) pf) logIpOld).
(** the proposals are those of vmcmake.c (Mark/Model.v propose); vmcmake_real.c:138-215 calls the same functions *)
Definition weight_real (b : rscratch) (w : walker) (logIpOld : R) (r : proposal) : option R :=
  match r with
  | Rejected => None
  | OneStep mi ri rj s _ w1 => one_weight_real b w logIpOld mi ri rj s w1
  | TwoStep mi mj ri rj s w1 w2 => two_weight_real b w logIpOld mi mj ri rj s w1 w2
  end.
End Real.
