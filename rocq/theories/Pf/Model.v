(** Pair matrices: Pfaffian ratios and updates of the inverse (pfupdate.c, pfupdate_two_fcmp.c, matrix.c).
    double complex is R*R; the thread loop over the projections writes one slice per iteration and is taken in order;
    workspace vectors are functions (their allocation is in Mem/Model.v). *)
From Coq Require Import ZArith List Bool Reals.
From Coquelicot Require Import Complex.
From Verif Require Import Base.ZLoop Base.RSum.
Import ListNotations.
Local Open Scope Z_scope.

Definition czero : C := RtoC 0.
Definition cadd (a : Z -> C) (i : Z) (v : C) : Z -> C := upd a i (Cplus (a i) v).

Section Updates.
Variables (Nsite Ne Nsize : Z).
Variable SlaterElm : Z -> C.                 (* [NQPFull][2*Nsite][2*Nsite] *)
Definition Nsite2 : Z := 2 * Nsite.

(** pfupdate.c:39-76 CalculateNewPfM (and CalculateNewPfM2, 79-118, the same with threads) *)
Definition calculate_new_pfm (ma s : Z) (eleIdx : Z -> Z) (qpStart qpEnd : Z) (InvM PfM : Z -> C) (pfMNew : Z -> C) : Z -> C :=
  let qpNum := qpEnd - qpStart in
  let msa := ma + s * Ne in
  let rsa := eleIdx msa + s * Nsite in
  loop 0 qpNum (fun qpidx pfMNew =>
    let sltE_a := fun r => SlaterElm ((qpidx + qpStart) * Nsite2 * Nsite2 + rsa * Nsite2 + r) in
    let invM_a := fun m => InvM (qpidx * Nsize * Nsize + msa * Nsize + m) in
    let ratio := loop 0 Ne (fun msj ratio => Cplus ratio (Cmult (invM_a msj) (sltE_a (eleIdx msj)))) czero in
    let ratio := loop Ne Nsize (fun msj ratio => Cplus ratio (Cmult (invM_a msj) (sltE_a (eleIdx msj + Nsite)))) ratio in
    upd pfMNew qpidx (Cmult (Copp ratio) (PfM qpidx))) pfMNew.

(** pfupdate.c:143-216 updateMAll_child; [-1.0/tmp] is Copp (Cinv tmp) *)
Definition update_mall_child (ma s : Z) (eleIdx : Z -> Z) (qpStart qpidx : Z) (InvM PfM : Z -> C) : (Z -> C) * (Z -> C) :=
  let msa := ma + s * Ne in
  let rsa := eleIdx msa + s * Nsite in
  let sltE_a := fun r => SlaterElm ((qpidx + qpStart) * Nsite2 * Nsite2 + rsa * Nsite2 + r) in
  let base := qpidx * Nsize * Nsize in
  let vec1 := loop 0 Nsize (fun msj vec1 =>
    let rsj := eleIdx msj + (msj / Ne) * Nsite in
    let sltE_aj := sltE_a rsj in
    loop 0 Nsize (fun msi vec1 => cadd vec1 msi (Cmult (Copp (InvM (base + msj * Nsize + msi))) sltE_aj)) vec1) (fun _ => czero) in
  let tmp := vec1 msa in
  let PfM := upd PfM qpidx (Cmult (PfM qpidx) (Copp tmp)) in
  let invVec1_a := Copp (Cinv tmp) in
  let vec2 := loop 0 Nsize (fun msi vec2 => upd vec2 msi (Cmult (InvM (base + msa * Nsize + msi)) invVec1_a)) (fun _ => czero) in
  let InvM := loop 0 Nsize (fun msi InvM =>
    let vec1_i := vec1 msi in
    let vec2_i := vec2 msi in
    let InvM := loop 0 Nsize (fun msj InvM =>
      cadd InvM (base + msi * Nsize + msj) (Cminus (Cmult vec1_i (vec2 msj)) (Cmult (vec1 msj) vec2_i))) InvM in
    cadd InvM (base + msi * Nsize + msa) (Copp vec2_i)) InvM in
  let InvM := loop 0 Nsize (fun msj InvM => cadd InvM (base + msa * Nsize + msj) (vec2 msj)) InvM in
  (InvM, PfM).
(** pfupdate.c:119-141 UpdateMAll *)
Definition update_mall (ma s : Z) (eleIdx : Z -> Z) (qpStart qpEnd : Z) (st : (Z -> C) * (Z -> C)) : (Z -> C) * (Z -> C) :=
  loop 0 (qpEnd - qpStart) (fun qpidx st => update_mall_child ma s eleIdx qpStart qpidx (fst st) (snd st)) st.

(** pfupdate_two_fcmp.c:106-184 calculateNewPfMTwo_child_fcmp *)
Definition calculate_new_pfm_two_child (ma s mb t : Z) (eleIdx : Z -> Z) (qpStart qpidx : Z) (InvM PfM : Z -> C) (pfMNew : Z -> C) : Z -> C :=
  let msa := ma + s * Ne in
  let msb := mb + t * Ne in
  let rsa := eleIdx msa + s * Nsite in
  let rsb := eleIdx msb + t * Nsite in
  let sltE := fun r => SlaterElm ((qpidx + qpStart) * Nsite2 * Nsite2 + r) in
  let rs := fun msi => eleIdx msi + (msi / Ne) * Nsite in
  let vec_a := loop 0 Nsize (fun msi v => upd v msi (sltE (rsa * Nsite2 + rs msi))) (fun _ => czero) in
  let vec_b := loop 0 Nsize (fun msi v => upd v msi (sltE (rsb * Nsite2 + rs msi))) (fun _ => czero) in
  let vec_ba := vec_b msa in
  let invM := fun k => InvM (qpidx * Nsize * Nsize + k) in
  let invM_ab := invM (msa * Nsize + msb) in
  let '(p_a, p_b, q_a, q_b) := loop 0 Nsize (fun msi (st : C * C * C * C) =>
    let '(p_a, p_b, q_a, q_b) := st in
    let vec_ai := vec_a msi in let vec_bi := vec_b msi in
    let invM_ai := invM (msa * Nsize + msi) in let invM_bi := invM (msb * Nsize + msi) in
    (Cplus p_a (Cmult invM_ai vec_ai), Cplus p_b (Cmult invM_bi vec_ai), Cplus q_a (Cmult invM_ai vec_bi), Cplus q_b (Cmult invM_bi vec_bi)))
    (czero, czero, czero, czero) in
  let bMa := loop 0 Nsize (fun msi bMa =>
    let tmp := loop 0 Nsize (fun msj tmp => Cplus tmp (Cmult (invM (msi * Nsize + msj)) (vec_a msj))) czero in
    Cplus bMa (Cmult (vec_b msi) tmp)) czero in
  let ratio := Cminus (Cplus (Cplus (Cmult invM_ab vec_ba) (Cmult invM_ab bMa)) (Cmult p_a q_b)) (Cmult p_b q_a) in
  upd pfMNew qpidx (Cmult ratio (PfM qpidx)).
(** pfupdate_two_fcmp.c:45-69 CalculateNewPfMTwo_fcmp *)
Definition calculate_new_pfm_two (ma s mb t : Z) (eleIdx : Z -> Z) (qpStart qpEnd : Z) (InvM PfM : Z -> C) (pfMNew : Z -> C) : Z -> C :=
  if ma + s * Ne =? mb + t * Ne then calculate_new_pfm mb t eleIdx qpStart qpEnd InvM PfM pfMNew
  else loop 0 (qpEnd - qpStart) (fun qpidx => calculate_new_pfm_two_child ma s mb t eleIdx qpStart qpidx InvM PfM) pfMNew.

(** pfupdate_two_fcmp.c:231-343, the body of updateMAllTwo_child_fcmp after its constants; pfupdate_two_fsz.c:237-348 is the
    same text.  [rs] gives the spin-orbital of an electron (line 252) *)
Definition update_mall_two_body (msa msb rsa rsb : Z) (mOld_ab : C) (rs : Z -> Z) (qpStart qpidx : Z) (InvM PfM : Z -> C) : (Z -> C) * (Z -> C) :=
  let sltE := fun r => SlaterElm ((qpidx + qpStart) * Nsite2 * Nsite2 + r) in
  let base := qpidx * Nsize * Nsize in
  let invM_ab := InvM (base + msa * Nsize + msb) in
  let vecS := loop 0 Nsize (fun msi v => upd v msi (sltE (rsa * Nsite2 + rs msi))) (fun _ => czero) in
  let vecT := loop 0 Nsize (fun msi v => upd v msi (sltE (rsb * Nsite2 + rs msi))) (fun _ => czero) in
  let vecS := upd vecS msb mOld_ab in
  let '(vecP, vecQ) := loop 0 Nsize (fun msi st => loop 0 Nsize (fun msj (st : (Z -> C) * (Z -> C)) =>
      let x := InvM (base + msi * Nsize + msj) in
      (cadd (fst st) msi (Cmult x (vecS msj)), cadd (snd st) msi (Cmult x (vecT msj)))) st) ((fun _ => czero), (fun _ => czero)) in
  let bMa := loop 0 Nsize (fun msi bMa => Cplus bMa (Cmult (vecT msi) (vecP msi))) czero in
  let ratio := Cminus (Cplus (Cplus (Cmult invM_ab (vecT msa)) (Cmult invM_ab bMa)) (Cmult (vecP msa) (vecQ msb))) (Cmult (vecP msb) (vecQ msa)) in
  let PfM := upd PfM qpidx (Cmult (PfM qpidx) ratio) in
  let a := Copp (vecP msa) in
  let b := vecP msb in
  let c := vecQ msa in
  let d := Copp (vecQ msb) in
  let e := Cminus (Copp bMa) (vecT msa) in
  let f := InvM (base + msa * Nsize + msb) in
  let det := Cminus (Cminus (Cmult a d) (Cmult b c)) (Cmult e f) in
  let invDet := Cinv det in
  let vecS' := loop 0 Nsize (fun msi v => upd v msi (Cmult invDet (InvM (base + msa * Nsize + msi)))) vecS in
  let vecT' := loop 0 Nsize (fun msi v => upd v msi (Cmult invDet (InvM (base + msb * Nsize + msi)))) vecT in
  let fi := Cmult f invDet in
  let InvM := loop 0 Nsize (fun msi InvM =>
    let p_i := vecP msi in let q_i := vecQ msi in let s_i := vecS' msi in let t_i := vecT' msi in
    let InvM := loop 0 Nsize (fun msj InvM =>
      let p_j := vecP msj in let q_j := vecQ msj in let s_j := vecS' msj in let t_j := vecT' msj in
      cadd InvM (base + msi * Nsize + msj)
        (Cplus (Cplus (Cplus (Cplus (Cplus
          (Cmult a (Cminus (Cmult q_i t_j) (Cmult q_j t_i)))
          (Cmult b (Cminus (Cmult q_i s_j) (Cmult q_j s_i))))
          (Cmult c (Cminus (Cmult p_i t_j) (Cmult p_j t_i))))
          (Cmult d (Cminus (Cmult p_i s_j) (Cmult p_j s_i))))
          (Cmult (Cmult e det) (Cminus (Cmult s_i t_j) (Cmult s_j t_i))))
          (Cmult fi (Cminus (Cmult p_i q_j) (Cmult q_i p_j))))) InvM in
    let InvM := cadd InvM (base + msi * Nsize + msa) (Cminus (Cminus (Cmult (Copp c) t_i) (Cmult d s_i)) (Cmult fi q_i)) in
    cadd InvM (base + msi * Nsize + msb) (Cplus (Cminus (Cmult (Copp a) t_i) (Cmult b s_i)) (Cmult fi p_i))) InvM in
  let InvM := loop 0 Nsize (fun msj InvM =>
    let p_j := vecP msj in let q_j := vecQ msj in let s_j := vecS' msj in let t_j := vecT' msj in
    let InvM := cadd InvM (base + msa * Nsize + msj) (Cplus (Cplus (Cmult c t_j) (Cmult d s_j)) (Cmult fi q_j)) in
    cadd InvM (base + msb * Nsize + msj) (Cminus (Cplus (Cmult a t_j) (Cmult b s_j)) (Cmult fi p_j))) InvM in
  let InvM := cadd InvM (base + msa * Nsize + msb) fi in
  let InvM := cadd InvM (base + msb * Nsize + msa) (Copp fi) in
  (InvM, PfM).
(** pfupdate_two_fcmp.c:216-343 updateMAllTwo_child_fcmp.  [raOld] is used for both old sites, as in the code (line 225);
    rbOld is not used. *)
Definition update_mall_two_child (ma s mb t raOld rbOld : Z) (eleIdx : Z -> Z) (qpStart qpidx : Z) (InvM PfM : Z -> C) : (Z -> C) * (Z -> C) :=
  let msa := ma + s * Ne in
  let msb := mb + t * Ne in
  let rsa := eleIdx msa + s * Nsite in
  let rsb := eleIdx msb + t * Nsite in
  let rsaOld := raOld + s * Nsite in
  let rsbOld := raOld + t * Nsite in
  let sltE := fun r => SlaterElm ((qpidx + qpStart) * Nsite2 * Nsite2 + r) in
  let mOld_ab := sltE (rsaOld * Nsite2 + rsbOld) in
  update_mall_two_body msa msb rsa rsb mOld_ab (fun msi => eleIdx msi + (msi / Ne) * Nsite) qpStart qpidx InvM PfM.
(** pfupdate_two_fcmp.c:189-214 UpdateMAllTwo_fcmp *)
Definition update_mall_two (ma s mb t raOld rbOld : Z) (eleIdx : Z -> Z) (qpStart qpEnd : Z) (st : (Z -> C) * (Z -> C)) : (Z -> C) * (Z -> C) :=
  loop 0 (qpEnd - qpStart) (fun qpidx st => update_mall_two_child ma s mb t raOld rbOld eleIdx qpStart qpidx (fst st) (snd st)) st.

(** matrix.c:332-385 calculateMAll_child_fcmp.  The factorisation, the Pfaffian and the inversion of an n x n column-major
    matrix are external ([skpf] returns None on info!=0 or a Pfaffian that is not finite, else the Pfaffian and the
    column-major inverse). *)
Variable skpf : Z -> (Z -> C) -> option (C * (Z -> C)).
Definition calculate_mall_child (eleIdx : Z -> Z) (qpStart qpidx : Z) (InvM PfM : Z -> C) : option ((Z -> C) * (Z -> C)) :=
  let base := qpidx * Nsize * Nsize in
  let rs := fun msi => eleIdx msi + (msi / Ne) * Nsite in
  let InvM := loop 0 Nsize (fun msi InvM => loop 0 Nsize (fun msj InvM =>
      upd InvM (base + msi * Nsize + msj) (Copp (SlaterElm ((qpidx + qpStart) * Nsite2 * Nsite2 + rs msi * Nsite2 + rs msj)))) InvM) InvM in
  match skpf Nsize (fun k => InvM (base + k)) with
  | None => None
  | Some (pfaff, inv) =>
    let InvM := loop 0 (Nsize * Nsize) (fun k InvM => upd InvM (base + k) (Copp (inv k))) InvM in
    Some (InvM, upd PfM qpidx pfaff)
  end.
End Updates.
