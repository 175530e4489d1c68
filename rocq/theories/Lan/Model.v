(** One Lanczos step: moments over the samples, mixing parameter, expectation values (vmccal.c, lslocgrn.c, average.c, physcal_lanczos.c).
    double is R, double complex is R*R.  A division by zero is a separate outcome.  The moments of one process are taken;
    for several processes the sums are added first (average.c). *)
From Coq Require Import ZArith List Bool Reals.
From Coquelicot Require Import Complex.
From Verif Require Import Base.ZLoop Base.RSum.
Import ListNotations.
Local Open Scope Z_scope.

(** what one sample contributes: weight, local values of H and H*H, local values of the operators A and of H*A (the latter two computed by
    locgrn.c and lslocgrn.c, not modelled here) *)
Record sample := Sample { sw : R; sh1 : C; sh2 : C; sA : Z -> C; sHA : Z -> C }.
Record rsample := RSample { rw : R; rh1 : R; rh2 : R; rA : Z -> R; rHA : Z -> R }.

(** lslocgrn.c:76-95 LSLocalQ (lslocgrn_real.c likewise): identity and H *)
Definition lsl_local {A} (one h1 h2 : A) (i : Z) : A := if i =? 0 then one else if i =? 3 then h2 else h1.
(** lslocgrn.c:98-120 LSLocalCisAjs: operator, H times operator *)
Definition lsl_op {A} (n : Z) (a ha : Z -> A) (i : Z) : A := if i <? n then a i else ha (i - n).

(** vmccal.c:832-852 calculateQQQQ *)
Definition calculate_qqqq (n : Z) (lslq : Z -> C) (w : R) (qqqq : Z -> C) : Z -> C :=
  loop 0 (n * n * n * n) (fun i qqqq =>
    let rj := i mod n in let tmp := i / n in
    let ri := tmp mod n in let tmp := tmp / n in
    let rp := tmp mod n in let tmp := tmp / n in
    let rq := tmp mod n in
    upd qqqq i (Cplus (qqqq i) (Cmult (Cmult (RtoC w) (Cconj (lslq (rq * n + ri)))) (lslq (rp * n + rj))))) qqqq.
(** vmccal.c:812-830 calculateQQQQ_real *)
Definition calculate_qqqq_real (n : Z) (lslq : Z -> R) (w : R) (qqqq : Z -> R) : Z -> R :=
  loop 0 (n * n * n * n) (fun i qqqq =>
    let rj := i mod n in let tmp := i / n in
    let ri := tmp mod n in let tmp := tmp / n in
    let rp := tmp mod n in let tmp := tmp / n in
    let rq := tmp mod n in
    upd qqqq i (qqqq i + w * lslq (rq * n + ri)%Z * lslq (rp * n + rj)%Z)%R) qqqq.
(** vmccal.c:854-872 calculateQCAQ *)
Definition calculate_qcaq (n nCA : Z) (lslca lslq : Z -> C) (w : R) (q : Z -> C) : Z -> C :=
  loop 0 (n * n * nCA) (fun i q =>
    let idx := i mod nCA in let tmp := i / nCA in let rp := tmp mod n in let tmp := tmp / n in let rq := tmp mod n in
    upd q i (Cplus (q i) (Cmult (Cmult (RtoC w) (Cconj (lslca (rq * nCA + idx)))) (lslq (rp * n))))) q.
(** vmccal.c:895-914 calculateQCAQ_real *)
Definition calculate_qcaq_real (n nCA : Z) (lslca lslq : Z -> R) (w : R) (q : Z -> R) : Z -> R :=
  loop 0 (n * n * nCA) (fun i q =>
    let idx := i mod nCA in let tmp := i / nCA in let rp := tmp mod n in let tmp := tmp / n in let rq := tmp mod n in
    upd q i (q i + w * lslca (rq * nCA + idx)%Z * lslq (rp * n)%Z)%R) q.
(** vmccal.c:980-1008 calculateQCACAQDC; [a], [ha] are the local values of the two-body operators and of H times them *)
Definition calculate_qcacaqdc (n nCACA : Z) (a ha lslq : Z -> C) (w : R) (q : Z -> C) : Z -> C :=
  loop 0 (n * n * nCACA) (fun i q =>
    let idx := i mod nCACA in let tmp := i / nCACA in let rp := tmp mod n in let tmp := tmp / n in let rq := tmp mod n in
    upd q i (Cplus (q i) (Cmult (Cmult (RtoC w) (lslq (rp * n))) (if negb (rq =? 0) then ha idx else a idx)))) q.
(** vmccal.c:946-978 calculateQCACAQDC_real *)
Definition calculate_qcacaqdc_real (n nCACA : Z) (a ha lslq : Z -> R) (w : R) (q : Z -> R) : Z -> R :=
  loop 0 (n * n * nCACA) (fun i q =>
    let idx := i mod nCACA in let tmp := i / nCACA in let rp := tmp mod n in let tmp := tmp / n in let rq := tmp mod n in
    upd q i (q i + w * lslq (rp * n)%Z * (if negb (rq =? 0)%Z then ha idx else a idx))%R) q.

(** setmemory.c and vmccal.c:600-637: NLSHam = 2, all sums cleared; vmccal.c:255-306 the loop over samples; average.c:208-240 division by Wc *)
Definition NLSHam : Z := 2.
Definition total (l : list sample) : R := fold_left (fun wc s => wc + sw s)%R l 0%R.
Definition rtotal (l : list rsample) : R := fold_left (fun wc s => wc + rw s)%R l 0%R.
Definition sums {A S} (zero : A) (step : S -> (Z -> A) -> Z -> A) (l : list S) : Z -> A := fold_left (fun q s => step s q) l (fun _ => zero).
Definition average (l : list sample) (q : Z -> C) : Z -> C := fun i => Cmult (q i) (RtoC (1 / total l)).
Definition raverage (l : list rsample) (q : Z -> R) : Z -> R := fun i => (q i * (1 / rtotal l))%R.
Definition moments (l : list sample) : Z -> C :=
  average l (sums (RtoC 0) (fun s => calculate_qqqq NLSHam (lsl_local (RtoC 1) (sh1 s) (sh2 s)) (sw s)) l).
Definition rmoments (l : list rsample) : Z -> R :=
  raverage l (sums 0%R (fun s => calculate_qqqq_real NLSHam (lsl_local 1%R (rh1 s) (rh2 s)) (rw s)) l).
Definition op_moments (nCA : Z) (l : list sample) : Z -> C :=
  average l (sums (RtoC 0) (fun s => calculate_qcaq NLSHam nCA (lsl_op nCA (sA s) (sHA s)) (lsl_local (RtoC 1) (sh1 s) (sh2 s)) (sw s)) l).
Definition rop_moments (nCA : Z) (l : list rsample) : Z -> R :=
  raverage l (sums 0%R (fun s => calculate_qcaq_real NLSHam nCA (lsl_op nCA (rA s) (rHA s)) (lsl_local 1%R (rh1 s) (rh2 s)) (rw s)) l).
Definition dc_moments (nCACA : Z) (l : list sample) : Z -> C :=
  average l (sums (RtoC 0) (fun s => calculate_qcacaqdc NLSHam nCACA (sA s) (sHA s) (lsl_local (RtoC 1) (sh1 s) (sh2 s)) (sw s)) l).
Definition rdc_moments (nCACA : Z) (l : list rsample) : Z -> R :=
  raverage l (sums 0%R (fun s => calculate_qcacaqdc_real NLSHam nCACA (rA s) (rHA s) (lsl_local 1%R (rh1 s) (rh2 s)) (rw s)) l).

Local Open Scope R_scope.
Definition fdiv (x y : R) : option R := if Req_EM_T y 0 then None else Some (x / y).
Inductive result (A : Type) := Failed | NotFinite | Done (a : A).
Arguments Failed {A}. Arguments NotFinite {A}. Arguments Done {A}.

(** physcal_lanczos.c:298-311 CalculateEneByAlpha: energy and relative variance.  fabs(dnorm/H1) is not small when H1 is 0. *)
Definition ene_by_alpha (H1 H2_1 H2_2 H3 H4 alpha : R) : result (R * option R) :=
  let tmp_ene := H1 + alpha * (H2_1 + H2_2) + alpha * alpha * H3 in
  let dnorm := 1 + 2 * alpha * H1 + alpha * alpha * H2_1 in
  let tmp_ene_V := H2_1 + 2 * alpha * H3 + alpha * alpha * H4 in
  let small := if Req_EM_T H1 0 then false else if Rlt_dec (Rabs (dnorm / H1)) (/ 10 ^ 12) then true else false in
  if small then Failed
  else match fdiv tmp_ene dnorm with
       | None => NotFinite
       | Some e => Done (e, fdiv (tmp_ene_V / dnorm - e ^ 2) (e ^ 2))
       end.
(** physcal_lanczos.c:270-296 CalculateEne: (alpha_p, ene_p, ene_vp) and (alpha_m, ene_m, ene_vm) *)
Definition calculate_ene (H1 H2_1 H2_2 H3 H4 : R) : result ((R * (R * option R)) * (R * (R * option R))) :=
  let AA := H2_1 * (H2_1 + H2_2) - 2 * H1 * H3 in
  let BB := - H1 * H2_1 + H3 in
  let CC := H2_1 * (H2_1 + H2_2) ^ 2 - H1 ^ 2 * H2_1 * (H2_1 + 2 * H2_2) + 4 * H1 ^ 3 * H3 - 2 * H1 * (2 * H2_1 + H2_2) * H3 + H3 * H3 in
  if Rlt_dec CC 0 then Failed
  else match fdiv (BB + sqrt CC) AA, fdiv (BB - sqrt CC) AA with
       | Some xp, Some xm =>
           match ene_by_alpha H1 H2_1 H2_2 H3 H4 xp with
           | Failed => Failed
           | NotFinite => NotFinite
           | Done ep => match ene_by_alpha H1 H2_1 H2_2 H3 H4 xm with Failed => Failed | NotFinite => NotFinite | Done em => Done ((xp, ep), (xm, em)) end
           end
       | _, _ => NotFinite
       end.
(** physcal_lanczos.c:63-76 and 186-203: the choice.  The complex version reports an error when CalculateEne fails (ReportedError); the real
    version goes on with whatever its variables hold (Garbage). *)
Inductive outcome := Chosen (alpha ene : R) (ene_v : option R) | ReportedError | Garbage | Infinite.
Definition choose (is_real : bool) (r : result ((R * (R * option R)) * (R * (R * option R)))) : outcome :=
  match r with
  | Failed => if is_real then Garbage else ReportedError
  | NotFinite => Infinite
  | Done ((ap, (ep, vp)), (am, (em, vm))) => if Rlt_dec em ep then Chosen am em vm else Chosen ap ep vp
  end.
Definition lanczos (l : list sample) : outcome :=
  let q := moments l in choose false (calculate_ene (fst (q 2%Z)) (fst (q 3%Z)) (fst (q 10%Z)) (fst (q 11%Z)) (fst (q 15%Z))).
Definition rlanczos (l : list rsample) : outcome :=
  let q := rmoments l in choose true (calculate_ene (q 2%Z) (q 3%Z) (q 10%Z) (q 11%Z) (q 15%Z)).
(** physcal_lanczos.c:313-334 CalculatePhysVal_real *)
Definition phys_val_real (H1 H2_1 alpha : R) (q : Z -> R) (n NLS : Z) (out : Z -> R) : Z -> R :=
  let dnorm := 1 + 2 * alpha * H1 + alpha * alpha * H2_1 in
  loop 0 n (fun i out =>
    let A0 := q i in let A1_01 := q (n + i)%Z in let A1_10 := q (NLS * n + i)%Z in let A2_11 := q (NLS * n + n + i)%Z in
    upd out i ((A0 + alpha * (A1_01 + A1_10) + alpha * alpha * A2_11) / dnorm)) out.
(** physcal_lanczos.c:336-358 CalculatePhysVal_fcmp *)
Definition phys_val_fcmp (H1 H2_1 : C) (alpha : R) (q : Z -> C) (n NLS : Z) (out : Z -> C) : Z -> C :=
  let al := RtoC alpha in
  let dnorm := fst (Cplus (Cplus (RtoC 1) (Cmult (Cmult (RtoC 2) al) H1)) (Cmult (Cmult al al) H2_1)) in
  loop 0 n (fun i out =>
    let A0 := q i in let A1_01 := q (n + i)%Z in let A1_10 := q (NLS * n + i)%Z in let A2_11 := q (NLS * n + n + i)%Z in
    upd out i (Cdiv (Cplus (Cplus A0 (Cmult al (Cplus A1_01 A1_10))) (Cmult (Cmult al al) A2_11)) (RtoC dnorm))) out.
