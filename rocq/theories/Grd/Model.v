(** The vector of derivatives of one sample as the main loop of the program puts it together, and the parameter vector it belongs to. *)
From Coq Require Import ZArith List Bool Reals.
From Coquelicot Require Import Complex.
From Verif Require Import Base.ZLoop Base.Checked Base.RSum Proj.Model Slater.Model Rbm.Model Samp.Model Green.Model Green.Spec.
Import ListNotations.
Local Open Scope Z_scope.

(** a routine that is given the address O+off works on the cells from off on *)
Definition at_offset (off : Z) (f : (Z -> C) -> Z -> C) (O : Z -> C) : Z -> C := let O' := f (fun i => O (off + i)) in fun i => O' (i - off).
Definition at_offsetM (off : Z) (f : (Z -> C) -> option (Z -> C)) (O : Z -> C) : option (Z -> C) :=
  O' <- f (fun i => O (off + i));; Some (fun i => O' (i - off)).

(** vmccal.c:198-204, the cells of the constant and of the correlation factors *)
Definition opt_proj (nProj : Z) (eleProjCnt : Z -> Z) (O : Z -> C) : Z -> C :=
  let O := upd (upd O 0 (RtoC 1)) 1 (RtoC 0) in
  loop 0 nProj (fun i O => upd (upd O ((i + 1) * 2) (RtoC (IZR (eleProjCnt i)))) ((i + 1) * 2 + 1) (RtoC 0)) O.
(** vmccal.c:196-214 (AllComplexFlag; FlagOptTrans = 0, for the other value see C51).  NRBM is 0 without a machine
    (readdef.c:720-740: the counts of absent files are 0). *)
Definition n_rbm (flag : bool) (M : machine) : Z := if flag then NRBM M else 0.
Definition sr_opt_o (S : sizes) (Q : qptables) (nProj : Z) (FlagRBM : bool) (M : machine) (A : angles) (InvM PfM : Z -> C) (ip : C)
    (eleIdx eleNum eleProjCnt : Z -> Z) (rbmCnt : Z -> C) (O : Z -> C) : option (Z -> C) :=
  let O := opt_proj nProj eleProjCnt O in
  O <- (if FlagRBM then at_offsetM (2 * nProj + 2) (fun O => rbm_diff M O rbmCnt eleNum) O else Some O);;
  Some (at_offset (2 * nProj + 2 * n_rbm FlagRBM M + 2) (slater_elm_diff S Q A InvM PfM ip eleIdx) O).
(** vmccal_fsz.c:151-166, the same for electrons without fixed spin: no machine part, and the pair parameters directly behind the
    correlation factors; diff is SlaterElmDiff_fsz *)
Definition sr_opt_o_fsz (nProj : Z) (diff : (Z -> C) -> Z -> C) (eleProjCnt : Z -> Z) (O : Z -> C) : Z -> C :=
  at_offset (2 * nProj + 2) diff (opt_proj nProj eleProjCnt O).

(** setmemory.c:299-303, the sections of the parameter vector: Proj = Para, RBM = Para + NProj, Slater = Para + NProj + FlagRBM*NRBM.
    Cells outside a section count as 0. *)
Definition section (P : Z -> C) (first n : Z) : Z -> C := fun k => if inb n k then P (first + k) else RtoC 0.
Definition with_para (V : wave) (P : Z -> C) : wave :=
  let np := NProj (vT V) in let nr := n_rbm (vFlagRBM V) (vM V) in
  {| vS := vS V; vQ := vQ V; vstot := vstot V; vbeta := vbeta V; vweight := vweight V; vpara := vpara V; vflag := vflag V; vopt := vopt V;
     vsl := section P (np + nr) (NSlater (vS V)); vT := vT V; vProj := section P 0 np; vFlagRBM := vFlagRBM V; vM := vM V;
     vRBM := section P np nr |}.
(** number of parameters (readdef.c:744, without the weights of the transforms) *)
Definition n_para (V : wave) : Z := NProj (vT V) + n_rbm (vFlagRBM V) (vM V) + NSlater (vS V).
