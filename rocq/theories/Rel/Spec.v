(** What a run with real parameters computes: the wave function without its machine and with the real parts of its parameters. *)
From Coq Require Import ZArith List Bool Reals.
From Coquelicot Require Import Complex.
From Verif Require Import Base.ZLoop Base.RSum Slater.Model Samp.Model Green.Model Green.Spec Ham.Model Ham.Spec Rel.Model.
Import ListNotations.
Local Open Scope Z_scope.

Definition re (f : Z -> C) (i : Z) : C := RtoC (fst (f i)).
(** V without machine; momentum weights, transform weights and pair amplitudes replaced by their real parts *)
Definition shadow (V : wave) : wave :=
  {| vS := vS V; vQ := vQ V; vstot := vstot V; vbeta := vbeta V; vweight := vweight V; vpara := re (vpara V); vflag := vflag V; vopt := re (vopt V); vsl := re (vsl V);
     vT := vT V; vProj := vProj V; vFlagRBM := false; vM := vM V; vRBM := vRBM V |}.
(** no machine, and everything the pair part is made of is real *)
Definition real_wave (V : wave) : Prop :=
  vFlagRBM V = false /\ (forall i, snd (vpara V i) = 0%R) /\ (forall i, snd (vopt V i) = 0%R) /\ (forall i, snd (vsl V i) = 0%R).
(** the weights of the transforms are real *)
Definition real_transforms (V : wave) : Prop := vflag V = true -> forall i, 0 <= i < NQPOptTrans (vS V) -> snd (vopt V i) = 0%R.

(** what the program holds: SlaterElm_real is the real part of SlaterElm (vmcmain.c:372,558) *)
Record rsetting := { kopt0 : Z -> C; kE0 : Z -> C; kclog : C -> C; kInvM : Z -> R; kPfM : Z -> R }.
Definition renv_of (V : wave) (K : rsetting) : renv :=
  REnv (sites V) (Slater.Model.Ne (vS V)) (Slater.Model.NQPFull (vS V)) (vT V) (vProj V) (kclog K) (angles_of V (kopt0 K))
    (fun i => fst (elements_of V (kopt0 K) (kE0 K) i)) (kInvM K) (kPfM K).
(** the same numbers as complex numbers: vmccal.c:129 InvM[i] = InvM_real[i] *)
Definition as_complex (a : Z -> R) (i : Z) : C := RtoC (a i).
Definition embed (K : rsetting) : setting :=
  {| sopt0 := kopt0 K; sE0 := re (kE0 K); sclog := kclog K; sNB := 1; sThreads := 1; sjunk := fun _ _ => RtoC 0; sInvM := as_complex (kInvM K); sPfM := as_complex (kPfM K) |}.
(** the walker, the real matrices and the real overlap ip belong to one configuration *)
Definition sampled_real (V : wave) (K : rsetting) (w : walker) (ip : R) : Prop := sampled (shadow V) (embed K) w (fun _ => RtoC 0) (RtoC ip).
Definition starts_real (w : walker) (k : rwork) : Prop := (forall i, wIdx k i = Samp.Model.eleIdx w i) /\ (forall i, wNum k i = Samp.Model.eleNum w i).
(** executions of the loops of the energy *)
Definition execution_real (n : Z -> Z) (P : rsched) : Prop := execution n (Sched (rthreads P) (rplan P) (fun _ => Work (fun _ => 0) (fun _ => 0) (fun _ => 0) (fun _ => RtoC 0) (fun _ => RtoC 0))).
