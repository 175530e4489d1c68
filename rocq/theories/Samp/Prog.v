(** Programs of one MPI process: pure results, collective reductions, observations, abnormal stops.
    Nothing here models a particular function of the repository. *)
From Coq Require Import ZArith List Bool.
From Verif Require Import Base.ZLoop Base.Checked.
Import ListNotations.
Local Open Scope Z_scope.

Inductive stop :=
| OutOfFuel      (* a random search did not end within the given number of draws *)
| Abort          (* MPI_Abort *)
| Undefined.     (* out-of-bounds access or division by zero *)

Section Prog.
Context {K E : Type}.      (* K: summed numbers; E: observations *)
Inductive prog (A : Type) :=
| Ret (a : A)
| Sum (x : K) (k : K -> prog A)      (* MPI_Allreduce(&x,...,MPI_SUM) *)
| Max (x : Z) (k : Z -> prog A)      (* MPI_Allreduce(&x,...,MPI_MAX) on an int *)
| Emit (e : E) (k : prog A)
| Stop (why : stop).
Global Arguments Ret {A} _. Global Arguments Sum {A} _ _. Global Arguments Max {A} _ _.
Global Arguments Emit {A} _ _. Global Arguments Stop {A} _.

Fixpoint bindP {A B} (p : prog A) (f : A -> prog B) : prog B :=
  match p with
  | Ret a => f a
  | Sum x k => Sum x (fun y => bindP (k y) f)
  | Max x k => Max x (fun y => bindP (k y) f)
  | Emit e k => Emit e (bindP k f)
  | Stop w => Stop w
  end.

(** a[i], a[i] = v on an array of n cells *)
Definition get (n : Z) (a : Z -> Z) (i : Z) : prog Z :=
  match rd n a i with Some v => Ret v | None => Stop Undefined end.
Definition put (n : Z) (a : Z -> Z) (i v : Z) : prog (Z -> Z) :=
  match wr n a i v with Some a' => Ret a' | None => Stop Undefined end.
Definition ofOpt {A} (o : option A) : prog A := match o with Some a => Ret a | None => Stop Undefined end.
(** w % n for an unsigned w *)
Definition umod (w n : Z) : prog Z := if 0 <? n then Ret (w mod n) else Stop Undefined.

(** for (i in l) *)
Fixpoint forM {S} (l : list Z) (f : Z -> S -> prog S) (s : S) : prog S :=
  match l with [] => Ret s | i :: l => bindP (f i s) (forM l f) end.

(** do { ... } while (condition): [body p] returns the next position in the random stream and the
    result when the condition is false *)
Fixpoint search {A} (fuel : nat) (body : Z -> prog (Z * option A)) (p : Z) : prog (Z * A) :=
  match fuel with
  | O => Stop OutOfFuel
  | S fuel => bindP (body p) (fun r =>
      match snd r with Some a => Ret (fst r, a) | None => search fuel body (fst r) end)
  end.

(** ** Executions *)
Inductive outcome (A : Type) := Done (a : A) | Stopped (why : stop).
Global Arguments Done {A} _. Global Arguments Stopped {A} _.

(** one process in an arbitrary environment: collectives return anything *)
Inductive runs {A} : prog A -> list E -> outcome A -> Prop :=
| runs_ret a : runs (Ret a) [] (Done a)
| runs_stop w : runs (Stop w) [] (Stopped w)
| runs_emit e k tr o : runs k tr o -> runs (Emit e k) (e :: tr) o
| runs_sum x y k tr o : runs (k y) tr o -> runs (Sum x k) tr o
| runs_max x y k tr o : runs (k y) tr o -> runs (Max x k) tr o.

(** a process alone: no collective is ever called (the C code tests size>1) *)
Inductive alone {A} : prog A -> list E -> outcome A -> Prop :=
| alone_ret a : alone (Ret a) [] (Done a)
| alone_stop w : alone (Stop w) [] (Stopped w)
| alone_emit e k tr o : alone k tr o -> alone (Emit e k) (e :: tr) o.

(** observations up to the next collective (or the end), and what comes then *)
Fixpoint strip {A} (p : prog A) : list E * prog A :=
  match p with Emit e k => (e :: fst (strip k), snd (strip k)) | _ => ([], p) end.
Definition ended {A} (o : outcome A) : prog A := match o with Done a => Ret a | Stopped w => Stop w end.
Fixpoint zipapp (a b : list (list E)) : list (list E) :=
  match a, b with x :: a, y :: b => (x ++ y) :: zipapp a b | _, _ => [] end.

(** a group of processes: a collective happens when every process has reached it, and gives every
    process the same result.  Observations are local, so those between two collectives are taken
    together.  Processes that wait for different collectives (deadlock) have no execution. *)
Variables (kzero : K) (kadd : K -> K -> K).
Inductive gruns {A} : list (prog A) -> list (list E) -> list (outcome A) -> Prop :=
| g_done ps os : map (fun p => snd (strip p)) ps = map ended os ->
    gruns ps (map (fun p => fst (strip p)) ps) os
| g_sum ps (xks : list (K * (K -> prog A))) trs os :
    map (fun p => snd (strip p)) ps = map (fun xk => Sum (fst xk) (snd xk)) xks ->
    gruns (map (fun xk => snd xk (fold_right kadd kzero (map fst xks))) xks) trs os ->
    gruns ps (zipapp (map (fun p => fst (strip p)) ps) trs) os
| g_max ps x0 k0 (xks : list (Z * (Z -> prog A))) trs os :
    map (fun p => snd (strip p)) ps = map (fun xk => Max (fst xk) (snd xk)) ((x0, k0) :: xks) ->
    gruns (map (fun xk => snd xk (fold_left Z.max (map fst xks) x0)) ((x0, k0) :: xks)) trs os ->
    gruns ps (zipapp (map (fun p => fst (strip p)) ps) trs) os.
End Prog.
Arguments prog : clear implicits.

Notation "x <~ e ;; k" := (bindP e (fun x => k)) (at level 100, e at next level, right associativity).
Notation "' pat <~ e ;; k" := (bindP e (fun x => match x with pat => k end))
  (at level 100, pat pattern, e at next level, right associativity).
