(** Specification of the Markov chain, independent of the code. *)
From Coq Require Import ZArith List Bool Reals.
From Coquelicot Require Import Complex.
From Verif Require Import Base.ZLoop Base.RSum Proj.Model Slater.Model Green.Model Green.Spec Fsz.Spec Gfz.Spec Samp.Prog Samp.Model Samp.Spec Mark.Model.
Import ListNotations.
Local Open Scope Z_scope.

(** ** probabilities *)
(** all sequences of n words of 32 bits; they are equally likely *)
Fixpoint words (B : Z) (n : nat) : list (list Z) :=
  match n with O => [[]] | S n => flat_map (fun a => map (cons a) (words B n)) (zrange 0 B) end.
Definition word_at (l : list Z) (p : Z) : Z := nth (Z.to_nat p) l 0.
Definition wordsize : Z := 2 ^ 32.
(** the probability of a move from x to y made within n words: [f] gives, for a stream, the number of words used, the new
    configuration and the weight; a weight a is accepted with probability min(1,a) *)
Definition chance {X : Type} (same : X -> X -> bool) (n : nat) (f : (Z -> Z) -> option (Z * option (X * R))) (y : X) : R :=
  (rsum (words wordsize n) (fun l =>
     match f (word_at l) with
     | Some (p, Some (x', a)) => if (p <=? Z.of_nat n) && same x' y then Rmin 1 a else 0
     | _ => 0 end) / IZR wordsize ^ n)%R.
(** the probability that the configuration changes *)
Definition leaving {X : Type} (n : nat) (f : (Z -> Z) -> option (Z * option (X * R))) : R :=
  (rsum (words wordsize n) (fun l =>
     match f (word_at l) with
     | Some (p, Some (_, a)) => if p <=? Z.of_nat n then Rmin 1 a else 0
     | _ => 0 end) / IZR wordsize ^ n)%R.
(** the remainders modulo the number N of sites are not equally likely when N does not divide 2^32; over n words the difference is at most *)
Definition bias (n : nat) (N : Z) : R := (INR n * IZR (wordsize mod N) / IZR wordsize)%R.

(** ** fixed spins *)
(** the tables of the walker place the electrons on the same sites *)
Definition same_idx (Ne : Z) (w w' : walker) : bool := forallb (fun m => eleIdx w m =? eleIdx w' m) (zrange 0 (2 * Ne)).
(** the input read by the sampler belongs to the wave function *)
Definition fits (I : input) (V : wave) : Prop := T I = vT V /\ Samp.Model.Ne I = Slater.Model.Ne (vS V).
(** what the sampler holds between two steps *)
Record state := State { stW : walker; stCnt : Z -> C; stK : setting; stIp : C; stBuf : scratch }.
Definition legal (V : wave) (x : state) : Prop := sampled V (stK x) (stW x) (stCnt x) (stIp x).
(** one step from x as a function of the stream; the searches read at most n words each (every attempt reads at least one), so
    the bound does not cut a step that reads at most n words in all *)
Definition step (I : input) (V : wave) (Orc : oracles) (n : nat) (x : state) (r : Z -> Z) : option (Z * option (walker * R)) :=
  match propose I (with_stream Orc r n) (stW x) 0 with
  | Some (p, c) =>
      match proposed c, weight (env_of V (stK x)) (stBuf x) (stW x) (stCnt x) (sclog (stK x) (stIp x)) c with
      | Some w1, Some a => Some (p, Some (w1, a))
      | _, _ => Some (p, None)
      end
  | None => None
  end.
Definition transition (I : input) (V : wave) (Orc : oracles) (n : nat) (x y : state) : R :=
  chance (same_idx (Samp.Model.Ne I)) n (step I V Orc n x) (stW y).
(** x followed by one step: the probability to be in y afterwards *)
Definition next (I : input) (V : wave) (Orc : oracles) (n : nat) (L : list state) (mu : state -> R) (y : state) : R :=
  (rsum L (fun x => mu x * transition I V Orc n x y) + mu y * (1 - leaving n (step I V Orc n y)))%R.
(** a list of different configurations that no step leaves *)
Definition closed (I : input) (V : wave) (Orc : oracles) (n : nat) (L : list state) : Prop :=
  NoDup L /\ (forall x y, In x L -> In y L -> same_idx (Samp.Model.Ne I) (stW x) (stW y) = true -> x = y) /\
  (forall x l p w1 a, In x L -> In l (words wordsize n) -> step I V Orc n x (word_at l) = Some (p, Some (w1, a)) -> p <= Z.of_nat n -> (0 < a)%R ->
   exists y, In y L /\ same_idx (Samp.Model.Ne I) w1 (stW y) = true).
(** unnormalised probability of a configuration *)
Definition density (V : wave) (x : state) : R := (Cmod (psi V (Samp.Model.eleIdx (stW x))) ^ 2)%R.

(** ** general spins *)
Definition same_idx_spn (Ne : Z) (w w' : walker) : bool :=
  forallb (fun m => (eleIdx w m =? eleIdx w' m) && (eleSpn w m =? eleSpn w' m)) (zrange 0 (2 * Ne)).
Definition fits_fsz (I : input) (V : fwave) : Prop := T I = fT V /\ Samp.Model.Ne I = Slater.Model.Ne (fS V).
Record fstate := FState { ftW : walker; ftG : env; ftIp : C; ftBuf : scratch }.
Definition legal_fsz (I : input) (V : fwave) (x : fstate) : Prop :=
  sampled_fsz V (ftG x) (ftW x) (ftIp x) /\ Verif.Rbm.Spec.is_log (gclog (ftG x)) /\ locals_single I (ftW x).
Definition step_fsz (I : input) (Orc : oracles) (n : nat) (x : fstate) (r : Z -> Z) : option (Z * option (walker * R)) :=
  match propose_fsz I (with_stream Orc r n) (ftW x) 0 with
  | Some (p, c) =>
      match proposed c, weight_fsz (ftG x) (ftBuf x) (ftW x) (gclog (ftG x) (ftIp x)) c with
      | Some w1, Some a => Some (p, Some (w1, a))
      | _, _ => Some (p, None)
      end
  | None => None
  end.
Definition transition_fsz (I : input) (Orc : oracles) (n : nat) (x y : fstate) : R :=
  chance (same_idx_spn (Samp.Model.Ne I)) n (step_fsz I Orc n x) (ftW y).
Definition density_fsz (V : fwave) (x : fstate) : R := (Cmod (fpsi V (config V (ftW x))) ^ 2)%R.
Definition next_fsz (I : input) (Orc : oracles) (n : nat) (L : list fstate) (mu : fstate -> R) (y : fstate) : R :=
  (rsum L (fun x => mu x * transition_fsz I Orc n x y) + mu y * (1 - leaving n (step_fsz I Orc n y)))%R.
Definition closed_fsz (I : input) (Orc : oracles) (n : nat) (L : list fstate) : Prop :=
  NoDup L /\ (forall x y, In x L -> In y L -> same_idx_spn (Samp.Model.Ne I) (ftW x) (ftW y) = true -> x = y) /\
  (forall x l p w1 a, In x L -> In l (words wordsize n) -> step_fsz I Orc n x (word_at l) = Some (p, Some (w1, a)) -> p <= Z.of_nat n -> (0 < a)%R ->
   exists y, In y L /\ same_idx_spn (Samp.Model.Ne I) w1 (ftW y) = true).

(** ** the step of the sampler itself *)
(** the electrons are at the same places in all tables *)
Definition same_cells (w w' : walker) : Prop :=
  (forall i, eleIdx w i = eleIdx w' i) /\ (forall i, eleCfg w i = eleCfg w' i) /\
  (forall i, eleNum w i = eleNum w' i) /\ (forall i, eleSpn w i = eleSpn w' i).
(** a step of the sampler from [s] to [s'] decides about the proposal [c] that was complete after reading the words before [p]: the
    next word decides whether the proposal or the old configuration remains *)
Definition decided (Orc : oracles) (s s' : st Orc) (p : Z) (c : proposal) : Prop :=
  match proposed c with
  | None => pos _ s' = p /\ same_tables (wk _ s) (wk _ s')
  | Some w1 => pos _ s' = p + 1 /\ exists cnt l,
      if accept Orc (wk _ s) (set_cnt w1 cnt) (logIpOld _ s) l (rnd Orc p) then same_cells w1 (wk _ s') else same_tables (wk _ s) (wk _ s')
  end.
(** words k of 32 bits with a > k/2^32 *)
Definition accepting (a : R) : list Z := filter (fun k => if Rlt_dec (IZR k / IZR wordsize) a then true else false) (zrange 0 wordsize).
