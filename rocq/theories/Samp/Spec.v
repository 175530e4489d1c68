(** Specification of the sampler, independent of the code: consistent configurations, legal moves,
    what a sampling run stores. *)
From Coq Require Import ZArith List Bool.
From Verif Require Import Base.ZLoop Proj.Model Proj.Spec Samp.Prog Samp.Model.
Import ListNotations.
Local Open Scope Z_scope.

(** what the reader of the input files guarantees *)
Record wf_input (I : input) : Prop := {
  wf_T : wf_tables (T I);
  wf_sites : 0 < Nsite (T I);
  wf_ne : 0 < Ne I;
  wf_loc : forall r, 0 <= r < Nsite (T I) -> LocSpn I r = 0 \/ LocSpn I r = 1
}.

(** ** Sz-conserving representation: electron mi of spin s, 0 <= mi < Ne *)
(** the three tables describe the same electrons *)
Record consistent (N Ne : Z) (w : walker) : Prop := {
  c_elec : forall mi s, 0 <= mi < Ne -> 0 <= s <= 1 ->
    exists r, eleIdx w (mi + s * Ne) = r /\ 0 <= r < N /\ eleCfg w (r + s * N) = mi;
  c_site : forall r s, 0 <= r < N -> 0 <= s <= 1 ->
    (eleCfg w (r + s * N) = -1 /\ eleNum w (r + s * N) = 0) \/
    (exists mi, 0 <= mi < Ne /\ eleCfg w (r + s * N) = mi /\ eleNum w (r + s * N) = 1 /\
                eleIdx w (mi + s * Ne) = r)
}.

(** ** General representation: electron x, 0 <= x < 2*Ne, with its spin *)
Record consistent_fsz (N Ne : Z) (w : walker) : Prop := {
  f_elec : forall x, 0 <= x < 2 * Ne ->
    exists r s, eleIdx w x = r /\ eleSpn w x = s /\ 0 <= r < N /\ 0 <= s <= 1 /\ eleCfg w (r + s * N) = x;
  f_site : forall r s, 0 <= r < N -> 0 <= s <= 1 ->
    (eleCfg w (r + s * N) = -1 /\ eleNum w (r + s * N) = 0) \/
    (exists x, 0 <= x < 2 * Ne /\ eleCfg w (r + s * N) = x /\ eleNum w (r + s * N) = 1 /\
               eleIdx w x = r /\ eleSpn w x = s)
}.

(** number of electrons of spin s *)
Definition spin_count (N : Z) (w : walker) (s : Z) : Z := zsum (zrange 0 N) (fun r => eleNum w (r + s * N)).

(** local-spin sites hold exactly one electron *)
Definition locals_single (I : input) (w : walker) : Prop :=
  forall r, 0 <= r < Nsite (T I) -> LocSpn I r = 1 -> eleNum w r + eleNum w (r + Nsite (T I)) = 1.

(** all cells of the tables are equal *)
Definition same_tables (w w' : walker) : Prop :=
  (forall i, eleIdx w i = eleIdx w' i) /\ (forall i, eleCfg w i = eleCfg w' i) /\
  (forall i, eleNum w i = eleNum w' i) /\ (forall i, eleSpn w i = eleSpn w' i) /\
  (forall i, eleProjCnt w i = eleProjCnt w' i).

(** the correlation counters belong to the occupation numbers *)
Definition counters_current (I : input) (w : walker) : Prop := is_proj_cnt (T I) (eleNum w) (eleProjCnt w).

(** site r holds one electron, of spin s, and no other *)
Definition single (N : Z) (w : walker) (r s : Z) : Prop :=
  0 <= r < N /\ 0 <= s <= 1 /\ eleNum w (r + s * N) = 1 /\ eleNum w (r + (1 - s) * N) = 0.

(** a legal exchange: electron mi (spin s, alone on ri) and an electron of the other spin alone on rj *)
Definition legal_exchange (I : input) (w : walker) (mi ri rj s : Z) : Prop :=
  0 <= mi < Ne I /\ 0 <= s <= 1 /\ eleIdx w (mi + s * Ne I) = ri /\
  single (Nsite (T I)) w ri s /\ single (Nsite (T I)) w rj (1 - s).
Definition legal_exchange_fsz (I : input) (w : walker) (mi ri rj s : Z) : Prop :=
  0 <= mi < 2 * Ne I /\ eleSpn w mi = s /\ eleIdx w mi = ri /\
  single (Nsite (T I)) w ri s /\ single (Nsite (T I)) w rj (1 - s).

(** ** Samples *)
Definition walker_of {L} (e : event L) : walker :=
  match e with AtStep w | Save _ w _ | Recalc w => w end.
(** the walker of an event, and of the result *)
Definition shown {L} (tr : list (event L)) {A B} (o : outcome (A * walker * B)) (w : walker) : Prop :=
  (exists e, In e tr /\ walker_of e = w) \/ (exists a b, o = Done (a, w, b)).

(** what is counted: inner steps and stored slots *)
Inductive mark := Step | Slot (k : Z).
Definition marks {L} (tr : list (event L)) : list mark :=
  flat_map (fun e => match e with AtStep _ => [Step] | Save k _ _ => [Slot k] | Recalc _ => [] end) tr.
Definition saved {L} (tr : list (event L)) : list (Z * walker) :=
  flat_map (fun e => match e with Save k w _ => [(k, w)] | _ => [] end) tr.
(** a run with [nWarm] outer steps before the first stored sample, [nIn] inner steps per outer step *)
Definition expected_marks (nWarm nIn nSample : Z) : list mark :=
  repeat Step (Z.to_nat (nWarm * nIn)) ++
  flat_map (fun k => repeat Step (Z.to_nat nIn) ++ [Slot k]) (zrange 0 nSample).

(** the walker known to be current after some events *)
Definition current {L} (cur : option walker) (tr : list (event L)) : option walker :=
  fold_left (fun c e => match e with AtStep w | Recalc w => Some w | Save _ _ _ => c end) tr cur.
(** every stored sample is the walker of that moment *)
Fixpoint saves_current {L} (cur : option walker) (tr : list (event L)) : Prop :=
  match tr with
  | [] => True
  | Save _ w _ :: tr => cur = Some w /\ saves_current cur tr
  | e :: tr => saves_current (Some (walker_of e)) tr
  end.

(** ** Repeated calls: what the burn buffer may hold before a call (None: BurnFlag = 0).  Between calls
    the variational parameters change, so every call has its own numerical routines. *)
Inductive history (I : input) : option walker -> Prop :=
| h_start : history I None
| h_next Orc rank size burn w qs p tr p' w' qs' : history I burn ->
    runs (vmc_make_sample I Orc rank size burn w qs p) tr (Done (p', w', qs')) -> history I (Some w').
Inductive history_fsz (I : input) : option walker -> Prop :=
| hf_start : history_fsz I None
| hf_next Orc rank size burn w qs p tr p' w' qs' : history_fsz I burn ->
    runs (vmc_make_sample_fsz I Orc rank size burn w qs p) tr (Done (p', w', qs')) -> history_fsz I (Some w').

(** another random stream *)
Definition with_stream (Orc : oracles) (r : Z -> Z) (n : nat) : oracles :=
  Oracles r n (garbage Orc) (K Orc) (L Orc) (Q Orc) (kzero Orc) (kadd Orc) (calcM Orc) (term Orc) (newTerm Orc)
    (updM Orc) (clog Orc) (finite Orc) (accept Orc).

(** ** Initial configuration *)
Definition NLoc (I : input) : Z := zsum (zrange 0 (Nsite (T I))) (fun r => if LocSpn I r =? 1 then 1 else 0).
(** a configuration exists: every local spin has an electron, and the other electrons fit on the other sites *)
Definition feasible (I : input) : Prop :=
  NLoc I <= 2 * Ne I /\ Ne I <= Nsite (T I) /\ 2 * Ne I + NLoc I <= 2 * Nsite (T I).
(** the same for the general representation: up electrons and down electrons fit on the sites *)
Definition feasible_fsz (I : input) : Prop :=
  let U := Ne I + (if TwoSz I =? -1 then 0 else Z.quot (TwoSz I) 2) in
  0 <= U <= Nsite (T I) /\ 0 <= 2 * Ne I - U <= Nsite (T I) /\ NLoc I <= 2 * Ne I /\ 2 * Ne I + NLoc I <= 2 * Nsite (T I).
(** what readdef.c:589-637 checks about these numbers (orbital not general, so 2Sz = 0) *)
Definition reader_accepts (I : input) : Prop :=
  0 < NLoc I -> NLoc I <= 2 * Ne I /\ NExUpdatePath I <> 0 /\ (NLoc I = 2 * Ne I -> NExUpdatePath I = 2).

(** ** Processes of one group *)
(** projection q is singular at walker w *)
Definition singular (Orc : oracles) (w : walker) (q : Z) : Prop := exists a, snd (calcM Orc w q a) <> 0.
Record regular (Orc : oracles) : Prop := {
  r_assoc : forall x y z, kadd Orc x (kadd Orc y z) = kadd Orc (kadd Orc x y) z;
  r_unit : forall x, kadd Orc (kzero Orc) x = x;
  r_info : forall w q a, 0 <= snd (calcM Orc w q a);
  (* matrices that are computed do not depend on what was stored before *)
  r_fresh : forall w q a b, snd (calcM Orc w q a) = 0 -> calcM Orc w q b = calcM Orc w q a
}.
Definition singular_at (I : input) (Orc : oracles) (e : event (L Orc)) : Prop :=
  exists w q, e = Recalc w /\ 0 <= q < NQPFull I /\ singular Orc w q.
