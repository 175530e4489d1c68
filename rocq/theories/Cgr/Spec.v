(** What the requested rows mean and what a sample adds to the measured functions. *)
From Coq Require Import ZArith List Bool Reals Permutation.
From Coquelicot Require Import Complex.
From Verif Require Import Base.ZLoop Base.RSum Samp.Model Green.Model Gfz.Spec Cgr.Model.
Import ListNotations.
Local Open Scope Z_scope.

(** c+_is c_jt and c+_is c_jt c+_ku c_lv of a row i s j t (k u l v); spin-orbital = site + spin * N (manual, OneBodyG and TwoBodyG) *)
Definition row1 (N : Z) (c : Z -> Z) : list (Z * Z) := [(c 0 + c 1 * N, c 2 + c 3 * N)].
Definition row2 (N : Z) (c : Z -> Z) : list (Z * Z) := [(c 0 + c 1 * N, c 2 + c 3 * N); (c 4 + c 5 * N, c 6 + c 7 * N)].
(** a sample of weight w with local values f: one-body functions, two-body functions, products of one-body functions (first times
    conjugate of second) *)
Definition adds (Q : requests) (N : Z) (w : R) (f : list (Z * Z) -> C) (m m' : meas) : Prop :=
  (forall i, 0 <= i < NCisAjs Q -> mPh1 m' i = Cplus (mPh1 m i) (Cmult (RtoC w) (f (row1 N (CisAjsIdx Q i))))) /\
  (forall i, 0 <= i < NDC Q -> mPhDC m' i = Cplus (mPhDC m i) (Cmult (RtoC w) (f (row2 N (DCIdx Q i))))) /\
  (forall i, 0 <= i < NAlt Q -> mPhAlt m' i = Cplus (mPhAlt m i)
    (Cmult (RtoC w) (Cmult (f (row1 N (CisAjsIdx Q (AltIdx Q i 0)))) (Cconj (f (row1 N (CisAjsIdx Q (AltIdx Q i 1)))))))).

(** ** hypotheses *)
Record requests_ok (N : Z) (Q : requests) : Prop := {
  rq_one : forall i, 0 <= i < NCisAjs Q -> let c := CisAjsIdx Q i in site_spin N (c 0) (c 1) /\ site_spin N (c 2) (c 3);
  rq_two : forall i, 0 <= i < NDC Q -> let c := DCIdx Q i in site_spin N (c 0) (c 1) /\ site_spin N (c 2) (c 3) /\ site_spin N (c 4) (c 5) /\ site_spin N (c 6) (c 7);
  rq_alt : forall i, 0 <= i < NAlt Q -> 0 <= AltIdx Q i 0 < NCisAjs Q /\ 0 <= AltIdx Q i 1 < NCisAjs Q
}.
(** no bilinear changes the spin *)
Definition requests_kept (Q : requests) : Prop :=
  (forall i, 0 <= i < NCisAjs Q -> CisAjsIdx Q i 1 = CisAjsIdx Q i 3) /\ (forall i, 0 <= i < NDC Q -> DCIdx Q i 1 = DCIdx Q i 3 /\ DCIdx Q i 5 = DCIdx Q i 7).
(** every row of every loop once, in any order *)
Definition rows1 (Q : requests) : list (bool * Z) := map (pair false) (zrange 0 (NCisAjs Q)) ++ map (pair true) (zrange 0 (NDC Q)).
Definition rows2 (Q : requests) : list (Z * Z) := map (pair 0) (zrange 0 (NCisAjs Q)) ++ map (pair 1) (zrange 0 (NDC Q)) ++ map (pair 2) (zrange 0 (NAlt Q)).
Definition rows2_fsz (Q : requests) : list (Z * Z) := map (pair 0) (zrange 0 (NCisAjs Q)) ++ map (pair 2) (zrange 0 (NAlt Q)).
Definition g_execution (Q : requests) (P : gsched) : Prop :=
  Permutation (map (fun e => (snd (fst e), snd e)) (phase1 P)) (rows1 Q) /\ Permutation (phase2 P) (rows2 Q).
(** iterations of different threads do not overlap in time (always so with one thread) *)
Definition no_overlap (Q : requests) (P : fgsched) : Prop := exists l : list (Z * bool * Z),
  fphase1 P = flat_map (fun e => [Assign (fst (fst e)) (snd (fst e)) (snd e); Call (fst (fst e))]) l /\ Permutation (map (fun e => (snd (fst e), snd e)) l) (rows1 Q) /\
  Permutation (fphase2 P) (rows2_fsz Q).
(** any order in which the assignments of an iteration are followed, later, by its call *)
Definition any_overlap (Q : requests) (P : fgsched) : Prop :=
  Permutation (flat_map (fun e => match e with Assign _ b i => [(b, i)] | Call _ => [] end) (fphase1 P)) (rows1 Q) /\
  (forall th, exists l, filter (fun e => match e with Assign t _ _ => t =? th | Call t => t =? th end) (fphase1 P) = flat_map (fun e : bool * Z => [Assign th (fst e) (snd e); Call th]) l) /\
  Permutation (fphase2 P) (rows2_fsz Q).
(** the rows with the creator's spin of one-body rows and the annihilators' spins of two-body rows overwritten *)
Definition spins_read (Q : requests) : requests :=
  Req (NCisAjs Q) (fun i c => if c =? 1 then CisAjsIdx Q i 3 else CisAjsIdx Q i c) (NDC Q) (fun i c => if c =? 3 then DCIdx Q i 1 else if c =? 7 then DCIdx Q i 5 else DCIdx Q i c) (NAlt Q) (AltIdx Q).
