(** Matrix elements of strings of fermion operators, general spins.  A configuration gives the spin-orbital x m (site + spin*sites)
    of every electron m.  Independent of the code's case distinctions. *)
From Coq Require Import ZArith List Bool Reals.
From Coquelicot Require Import Complex.
From Verif Require Import Base.ZLoop Base.RSum Proj.Model Proj.Spec Pf.Spec Slater.Model Slater.Spec Samp.Model Samp.Spec Green.Model Green.Spec Fsz.Model Fsz.Spec Gfz.Model.
Import ListNotations.
Local Open Scope Z_scope.

(** ** operators; L are the labels of the electrons *)
(** <f| c+_a c_b |x>: each electron on b goes to a *)
Definition fact (L : list Z) (ab : Z * Z) (f : (Z -> Z) -> C) (x : Z -> Z) : C :=
  csum L (fun m => if x m =? snd ab then f (upd x m (fst ab)) else RtoC 0).
(** <f| c+_a1 c_b1 c+_a2 c_b2 ... |x> *)
Fixpoint fstring (L : list Z) (ops : list (Z * Z)) (f : (Z -> Z) -> C) : (Z -> Z) -> C :=
  match ops with [] => f | o :: ops => fstring L ops (fact L o f) end.
Definition foccupation (L : list Z) (x : Z -> Z) (c : Z) : Z := if existsb (fun m => x m =? c) L then 1 else 0.

(** ** the wave function *)
Record fwave := { fS : sizes; fQ : qptables; fpara : Z -> C; fflag : bool; fopt : Z -> C; fsl : Z -> C; fT : tables; fProj : Z -> C }.
Section Wave.
Variable V : fwave.
Definition fsites : Z := Slater.Model.Nsite (fS V).
Definition flabels : list Z := zrange 0 (2 * Slater.Model.Ne (fS V)).
Definition fcorrelation (e : Z -> Z) : R := exp (rsum (zrange 0 (NProj (fT V))) (fun k => fst (fProj V k) * IZR (counter (fT V) e k))%R).
Definition fpairs (x : Z -> Z) : C := amplitude_fsz (fS V) (fQ V) (fpara V) (opt_weight (fflag V) (fopt V)) (fsl V) x.
Definition fpsi (x : Z -> Z) : C := Cmult (RtoC (fcorrelation (foccupation flabels x))) (fpairs x).
(** the local value <psi| ... |x> / <psi|x>; wave functions enter as bras, hence the conjugation *)
Definition flocal (ops : list (Z * Z)) (x : Z -> Z) : C := Cconj (Cdiv (fstring flabels ops fpsi x) (fpsi x)).

(** ** hypotheses *)
Record wf_fwave : Prop := {
  wf_valid : valid_fsz (fS V) (fQ V) (fflag V);
  wf_T : wf_tables (fT V);
  wf_sites : Proj.Model.Nsite (fT V) = fsites
}.
(** the global variables hold the tables computed from the parameters (on whatever they held before); machine and node tables arbitrary *)
Record loaded (G : env) : Prop := {
  ld_N : gNsite G = fsites; ld_Ne : gNe G = Slater.Model.Ne (fS V); ld_Q : gNQPFull G = Slater.Model.NQPFull (fS V);
  ld_T : gT G = fT V; ld_P : gProj G = fProj V;
  ld_A : exists stot beta weight opt0, gA G = update_weights (fS V) (fflag V) (fopt V) (init_qp_weight (fS V) stot beta weight (fpara V) (fflag V) opt0);
  ld_S : exists E0, gSl G = update_slater_elm_fsz (fS V) (fQ V) (fsl V) E0
}.
(** the walker w, the matrices and the overlap ip belong to one configuration with non-vanishing amplitude *)
Record sampled_fsz (G : env) (w : walker) (ip : C) : Prop := {
  sf_loaded : loaded G;
  sf_tables : consistent_fsz fsites (Slater.Model.Ne (fS V)) w;
  sf_cnt : is_proj_cnt (fT V) (Samp.Model.eleNum w) (eleProjCnt w);
  sf_mat : current_fsz fsites (2 * Slater.Model.Ne (fS V)) (gSl G) 0 (gNQPFull G) (Samp.Model.eleIdx w) (Samp.Model.eleSpn w) (gInvM G) (gPfM G);
  sf_ip : ip = calculate_ip (gA G) 0 (gNQPFull G) (gPfM G);
  sf_nz : ip <> RtoC 0
}.
(** the configuration of a walker *)
Definition config (w : walker) : Z -> Z := spin_orbital fsites (Samp.Model.eleIdx w) (Samp.Model.eleSpn w).
End Wave.
(** the work space holds the configuration of w, the rest arbitrary *)
Definition starts_fsz (w : walker) (k : fwork) : Prop :=
  (forall i, fIdx k i = Samp.Model.eleIdx w i) /\ (forall i, fSpn k i = Samp.Model.eleSpn w i) /\ (forall i, fNum k i = Samp.Model.eleNum w i).
Definition site_spin (N r s : Z) : Prop := 0 <= r < N /\ 0 <= s <= 1.
