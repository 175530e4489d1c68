(** Property C66: stochastic reconfiguration when every parameter is declared real *)
From Coq Require Import ZArith List Bool Reals Lia Lra.
From Coquelicot Require Import Complex.
From Verif Require Import Base.ZLoop Base.RSum Par.Model SR.Model SR.Spec SR.Proofs SR.ProofsSel Rsr.Model Rsr.Spec Rsr.Proofs Rsr.ProofsSel.
Import ListNotations.
Local Open Scope Z_scope.

(** C66: the system solved for any chosen parameters is the stabilised covariance of their real derivatives and minus
    twice the step width times the covariance with the energy, for every division of processes and samples ... *)
Theorem C66_system : forall S groups gsize N smp st me nn par del dt S0 g0 old,
  0 < S -> 0 <= N -> (forall g, 0 <= g < groups -> 1 <= gsize g) ->
  let l := all_samples groups N smp in
  let ps := procs groups gsize in
  let A := fun p => main_cal_real S false false N (gsize (fst p)) (snd p) (smp (fst p)) (st p) in
  In me ps -> total_weight l <> 0%R ->
  (forall k, 0 <= k < nn -> 0 <= par k < S - 1) ->
  let oo := average_real ps (total_weight l) (fun p => rOO (A p)) me in
  let ho := average_real ps (total_weight l) (fun p => rHO (A p)) me in
  let M := stcOptInit S del dt nn (fun k => 2 * par k) (spreadOO S oo ho old) (spreadHO S oo ho old) S0 g0 in
  (forall i j, 0 <= i < nn -> 0 <= j < nn -> fst M (i + nn * j) = (rcov l (par i) (par j) * (if i =? j then 1 + del else 1))%R) /\
  (forall i, 0 <= i < nn -> snd M i = (- 2 * dt * rforce l (par i))%R).
Proof. exact rassembled. Qed.
Print Assumptions C66_system.
(** ... it is the system the complex code solves for the same parameters when their derivatives are real ... *)
Theorem C66_same_system : forall S groups gsize N smp st st' me nn par del dt S0 g0 old,
  0 < S -> 0 <= N -> (forall g, 0 <= g < groups -> 1 <= gsize g) ->
  let l := all_samples groups N smp in
  let ps := procs groups gsize in
  let A := fun p => main_cal_real S false false N (gsize (fst p)) (snd p) (smp (fst p)) (st p) in
  let B := fun p => main_cal S false false N (gsize (fst p)) (snd p) (smp (fst p)) (st' p) in
  In me ps -> total_weight l <> 0%R ->
  (forall k, 0 <= k < nn -> 0 <= par k < S - 1) -> real_derivatives l nn par ->
  let oo := average_real ps (total_weight l) (fun p => rOO (A p)) me in
  let ho := average_real ps (total_weight l) (fun p => rHO (A p)) me in
  let M := stcOptInit S del dt nn (fun k => 2 * par k) (spreadOO S oo ho old) (spreadHO S oo ho old) S0 g0 in
  let M' := stcOptInit S del dt nn (fun k => 2 * par k) (average_vec ps (total_weight l) (fun p => OO (B p)) me)
             (average_vec ps (total_weight l) (fun p => HO (B p)) me) S0 g0 in
  (forall i j, 0 <= i < nn -> 0 <= j < nn -> fst M (i + nn * j) = fst M' (i + nn * j)) /\
  (forall i, 0 <= i < nn -> snd M i = snd M' i).
Proof. exact same_system. Qed.
Print Assumptions C66_same_system.
(** ... only real parts are chosen and imaginary parts never change, when none is flagged or the cut is positive and
    some derivative varies ... *)
Theorem C66_imaginary_parts_kept : forall S groups gsize N smp st me old F cut info r para,
  1 < S -> 0 <= N -> (forall g, 0 <= g < groups -> 1 <= gsize g) ->
  let l := all_samples groups N smp in
  let ps := procs groups gsize in
  let A := fun p => main_cal_real S false false N (gsize (fst p)) (snd p) (smp (fst p)) (st p) in
  In me ps -> total_weight l <> 0%R ->
  (forall p, 0 <= p < S - 1 -> F (2 * p + 1) <> 1) \/ ((0 < cut)%R /\ exists p, 0 <= p < S - 1 /\ (0 < rcov l p p)%R) ->
  let oo := average_real ps (total_weight l) (fun p => rOO (A p)) me in
  let ho := average_real ps (total_weight l) (fun p => rHO (A p)) me in
  let s := select (2 * (S - 1)) F (sdiag S (spreadOO S oo ho old)) cut in
  (forall k, 0 <= k < nSmat s -> exists p, 0 <= p < S - 1 /\ smatToParaIdx s k = 2 * p) /\
  forall i, snd (update_para info s r para i) = snd (para i).
Proof. exact step_keeps_imaginary. Qed.
Print Assumptions C66_imaginary_parts_kept.
(** ... but the complex code may choose fewer parameters: diagonals of imaginary parts that are not optimised enter its
    threshold (derivatives 10 and 11, cut 0.01: chosen in the real code, cut in the complex one) *)
Theorem C66_same_choice_refuted :
  exists S groups gsize N smp me old F cut,
  1 < S /\ 0 <= N /\ (forall g, 0 <= g < groups -> 1 <= gsize g) /\
  let l := all_samples groups N smp in
  let ps := procs groups gsize in
  let A := fun p => main_cal_real S false false N (gsize (fst p)) (snd p) (smp (fst p)) (fun _ => 0%R) in
  let B := fun p => main_cal S false false N (gsize (fst p)) (snd p) (smp (fst p)) (fun _ => RtoC 0) in
  let oo := average_real ps (total_weight l) (fun p => rOO (A p)) me in
  let ho := average_real ps (total_weight l) (fun p => rHO (A p)) me in
  In me ps /\ total_weight l <> 0%R /\ real_derivatives l (S - 1) (fun k => k) /\
  (forall x p, In x (counted l) -> 0 <= p < S - 1 -> der x (2 * p + 3) = Cmult Ci (der x (2 * p + 2))) /\
  (forall p, 0 <= p < S - 1 -> F (2 * p + 1) <> 1) /\
  exists p, 0 <= p < S - 1 /\
  optimises (select (2 * (S - 1)) F (sdiag S (spreadOO S oo ho old)) cut) (2 * p) /\
  ~ optimises (select (2 * (S - 1)) F (sdiag S (average_vec ps (total_weight l) (fun p => OO (B p)) me)) cut) (2 * p).
Proof. exact cut_refuted. Qed.
Print Assumptions C66_same_choice_refuted.
(** the conjugate-gradient variant applies the same matrix to the same right-hand side; partial like C36: one process
    per group, no sample skipped, weights 1 ... *)
Theorem C66_cg_partial : forall S groups N nn par smp st me del dt,
  0 < S -> 0 <= N -> 0 <= nn ->
  (forall g i, 0 <= g < groups -> 0 <= i < N -> ok (smp g i) = true /\ wgt (smp g i) = 1%R) ->
  let l := all_samples groups N smp in
  let ps := procs groups (fun _ => 1) in
  let A := fun p => main_cal_real S true false N 1 (snd p) (smp (fst p)) (st p) in
  In me ps -> total_weight l <> 0%R -> (forall k, 0 <= k < nn -> 0 <= par k < S - 1) ->
  let oo := average_real ps (total_weight l) (fun p => rOO (A p)) me in
  let ho := average_real ps (total_weight l) (fun p => rHO (A p)) me in
  let V := fun p => cg_init_real S N nn dt par oo ho (rStore (A p)) in
  (forall x si, 0 <= si < nn -> operate_by_S_real nn N (total_weight l) del ps V me x si =
    rsum (zrange 0 nn) (fun sj => rcov l (par si) (par sj) * (if si =? sj then 1 + del else 1) * x sj)%R) /\
  (forall si, 0 <= si < nn -> rvg (V me) si = (- 2 * dt * rforce l (par si))%R) /\
  (forall p, 0 <= p < S - 1 -> cg_sdiag_real S oo p = rcov l p p).
Proof. exact rcg_all. Qed.
Print Assumptions C66_cg_partial.
(** ... chooses the same parameters ... *)
Theorem C66_cg_choice_partial : forall S groups N smp st st' me old F cut p,
  1 < S -> 0 <= N -> (forall g i, 0 <= g < groups -> 0 <= i < N -> ok (smp g i) = true /\ wgt (smp g i) = 1%R) ->
  let l := all_samples groups N smp in
  let ps := procs groups (fun _ => 1) in
  let A := fun p => main_cal_real S true false N 1 (snd p) (smp (fst p)) (st p) in
  let B := fun p => main_cal_real S false false N 1 (snd p) (smp (fst p)) (st' p) in
  In me ps -> total_weight l <> 0%R -> (exists q, 0 <= q < S - 1 /\ (0 <= rcov l q q)%R) -> 0 <= p < S - 1 ->
  let oo := average_real ps (total_weight l) (fun p => rOO (A p)) me in
  let oo' := average_real ps (total_weight l) (fun p => rOO (B p)) me in
  let ho' := average_real ps (total_weight l) (fun p => rHO (B p)) me in
  optimises (select_real (S - 1) F (cg_sdiag_real S oo) cut) p <-> optimises (select (2 * (S - 1)) F (sdiag S (spreadOO S oo' ho' old)) cut) (2 * p).
Proof. exact cg_same_selection. Qed.
Print Assumptions C66_cg_choice_partial.
(** ... and adds the k-th component of the solution to the k-th chosen parameter and nothing to the others *)
Theorem C66_cg_update : forall info n F d cut r para, 0 < n ->
  let s := select_real n F d cut in
  (info <> 0 -> forall i, update_para_real info s r para i = para i) /\
  (info = 0 ->
   (forall k, 0 <= k < nSmat s -> update_para_real info s r para (smatToParaIdx s k) = Cplus (para (smatToParaIdx s k)) (RtoC (r k))) /\
   (forall i, ~ optimises s i -> update_para_real info s r para i = para i)).
Proof. exact update_real_spec. Qed.
Print Assumptions C66_cg_update.
(** keeping the derivatives and multiplying at the end gives the same sums; partial: on the process whose samples start
    at 0 (so with one process per group), no sample skipped, weights not negative *)
Theorem C66_store_partial : forall S N size rank smp st st', 0 < S -> 0 <= N -> 1 <= size -> 0 <= rank < size ->
  fst (split_loop N rank size) = 0 ->
  (forall i, 0 <= i < snd (split_loop N rank size) -> ok (smp i) = true /\ (0 <= wgt (smp i))%R) ->
  let d := main_cal_real S false false N size rank smp st' in
  let r := main_cal_real S false true N size rank smp st in
  rWc r = rWc d /\ rEtot r = rEtot d /\ rEtot2 r = rEtot2 d /\
  (forall k, 0 <= k < S * S -> rOO r k = rOO d k) /\ (forall k, 0 <= k < S -> rHO r k = rHO d k).
Proof. exact rstore_equals_direct. Qed.
Print Assumptions C66_store_partial.

(** derivatives 1,2,3 of parameter 0 and 1,0,1 of parameter 1, energies 0,1,5; three groups of one process, or one of three *)
Definition ex_real (g i : Z) : sample := Smp true 1 (RtoC (IZR (if g =? 2 then 5 else g)))
  (fun c => RtoC (IZR (if c =? 2 then g + 1 else if c =? 4 then if g =? 1 then 0 else 1 else 0))) (fun _ => RtoC 0) (fun _ => RtoC 0).
Example C66_case : let l := all_samples 3 1 ex_real in
  total_weight l = 3%R /\ real_derivatives l 2 (fun k => k) /\ rcov l 0 0 = (2 / 3)%R /\ rcov l 0 1 = 0%R /\ rforce l 0 = (5 / 3)%R /\ rforce l 1 = (1 / 3)%R /\
  (forall g i, 0 <= g < 3 -> 0 <= i < 1 -> ok (ex_real g i) = true /\ wgt (ex_real g i) = 1%R).
Proof.
  cbn zeta. set (l := all_samples 3 1 ex_real).
  assert (Ec : counted l = [ex_real 0 0; ex_real 1 0; ex_real 2 0]) by reflexivity.
  assert (HW : total_weight l = 3%R) by (unfold total_weight; rewrite Ec; cbn; ring).
  split; [exact HW|]. split.
  - intros x k Hx Hk. assert (k = 0 \/ k = 1) as [-> | ->] by lia; rewrite Ec in Hx; destruct Hx as [<-|[<-|[<-|[]]]]; reflexivity.
  - split; [|split; [|split; [|split]]].
    5: intros; split; reflexivity.
    all: unfold rforce, rcov, rmean, reO; rewrite HW, Ec; cbn; lra.
Qed.
