(** Matrix elements of strings of fermion operators in first quantisation.  Independent of the code's case distinctions. *)
From Coq Require Import ZArith List Bool Reals.
From Coquelicot Require Import Complex.
From Verif Require Import Base.ZLoop Base.RSum Proj.Model Proj.Spec Pf.Spec Slater.Model Slater.Spec Rbm.Model Rbm.Spec Samp.Model Samp.Spec Green.Model.
Import ListNotations.
Local Open Scope Z_scope.

(** ** the wave function *)
(** everything that determines it *)
Record wave := {
  vS : sizes; vQ : qptables; vstot : Z; vbeta : Z -> R; vweight : Z -> R; vpara : Z -> C; vflag : bool; vopt : Z -> C; vsl : Z -> C;
  vT : tables; vProj : Z -> C;
  vFlagRBM : bool; vM : machine; vRBM : Z -> C
}.
Section Wave.
Variable V : wave.
Definition sites : Z := Slater.Model.Nsite (vS V).
Definition labels : list Z := zrange 0 (2 * Slater.Model.Ne (vS V)).
(** spin-orbital of electron m of configuration x: site + spin * sites; the first half of the electrons is up *)
Definition orb (x : Z -> Z) (m : Z) : Z := orbital sites (Slater.Model.Ne (vS V)) x m.
Definition occupation (x : Z -> Z) (rs : Z) : Z := if existsb (fun m => orb x m =? rs) labels then 1 else 0.

(** the counter multiplying correlation parameter k in a configuration with occupation e (see Proj/Spec.v) *)
Definition counter (T : tables) (e : Z -> Z) (k : Z) : Z :=
  let ng := NGutzwillerIdx T in let nj := NJastrowIdx T in let n2 := NDoublonHolon2siteIdx T in let n4 := NDoublonHolon4siteIdx T in
  if k <? ng then spec_gutz T e k
  else if k <? ng + nj then spec_jast T e (k - ng)
  else if k <? ng + nj + 6 * n2 then let j := k - (ng + nj) in spec_dh2 T e (j mod n2) ((j / n2) mod 2) (j / n2 / 2)
  else let j := k - (ng + nj + 6 * n2) in spec_dh4 T e (j mod n4) ((j / n4) mod 2) (j / n4 / 2).
Definition correlation (e : Z -> Z) : R := exp (rsum (zrange 0 (NProj (vT V))) (fun k => fst (vProj V k) * IZR (counter (vT V) e k))%R).
Definition boltzmann (e : Z -> Z) : C := if vFlagRBM V then machine_weight (vM V) (vRBM V) e else RtoC 1.
Definition pairs (x : Z -> Z) : C := amplitude (vS V) (vQ V) (vstot V) (vbeta V) (vweight V) (vpara V) (opt_weight (vflag V) (vopt V)) (vsl V) x.
Definition psi (x : Z -> Z) : C := Cmult (Cmult (RtoC (correlation (occupation x))) (boltzmann (occupation x))) (pairs x).

(** ** operators *)
(** <f| c+_a c_b |x>: each electron on b goes to a; a and b have the same spin *)
Definition act (ab : Z * Z) (f : (Z -> Z) -> C) (x : Z -> Z) : C :=
  csum labels (fun m => if orb x m =? snd ab then f (upd x m (fst ab mod sites)) else RtoC 0).
(** <f| c+_a1 c_b1 c+_a2 c_b2 ... |x> *)
Fixpoint string (ops : list (Z * Z)) (f : (Z -> Z) -> C) : (Z -> Z) -> C :=
  match ops with [] => f | o :: ops => string ops (act o f) end.
(** the local value <psi| ... |x> / <psi|x>; wave functions enter as bras, hence the conjugation *)
Definition local (ops : list (Z * Z)) (x : Z -> Z) : C := Cconj (Cdiv (string ops psi x) (psi x)).
(** an operator on existing spin-orbitals, of one spin *)
Definition operator (ab : Z * Z) : Prop := 0 <= fst ab < 2 * sites /\ 0 <= snd ab < 2 * sites /\ fst ab / sites = snd ab / sites.

(** ** hypotheses *)
Record wf_wave : Prop := {
  wv_valid : valid (vS V) (vQ V) (vflag V);
  wv_T : wf_tables (vT V);
  wv_M : wf_machine (vM V);
  wv_sites : Proj.Model.Nsite (vT V) = sites /\ Rbm.Model.Nsite (vM V) = sites;
  (* the machine factor does not vanish *)
  wv_rbm : vFlagRBM V = true -> forall e, occ01 sites e -> machine_weight (vM V) (vRBM V) e <> RtoC 0
}.
(** what the program holds: tables of amplitudes and weights computed from the parameters *)
Definition angles_of (opt0 : Z -> C) : angles := update_weights (vS V) (vflag V) (vopt V) (init_qp_weight (vS V) (vstot V) (vbeta V) (vweight V) (vpara V) (vflag V) opt0).
Definition elements_of (opt0 E0 : Z -> C) : Z -> C := update_slater_elm (vS V) (vQ V) (angles_of opt0) (vsl V) E0.
Record setting := { sopt0 : Z -> C; sE0 : Z -> C; sclog : C -> C; sNB : Z; sThreads : Z; sjunk : Z -> Z -> C; sInvM : Z -> C; sPfM : Z -> C }.
Definition env_of (K : setting) : env :=
  Env sites (Slater.Model.Ne (vS V)) (Slater.Model.NQPFull (vS V)) (vT V) (vProj V) (vFlagRBM V) (vM V) (vRBM V)
    (sclog K) (sNB K) (sThreads K) (sjunk K) (angles_of (sopt0 K)) (elements_of (sopt0 K) (sE0 K)) (sInvM K) (sPfM K).
(** the walker w and counters rcnt, the matrices and the overlap ip belong to one configuration with non-vanishing amplitude *)
Record sampled (K : setting) (w : walker) (rcnt : Z -> C) (ip : C) : Prop := {
  sa_log : is_log (sclog K);
  sa_num : 0 < sNB K /\ 0 < sThreads K;
  sa_tables : consistent sites (Slater.Model.Ne (vS V)) w;
  sa_cnt : is_proj_cnt (vT V) (Samp.Model.eleNum w) (eleProjCnt w);
  sa_rcnt : vFlagRBM V = true -> is_rbm_cnt (vM V) (vRBM V) (Samp.Model.eleNum w) rcnt;
  sa_mat : Pf.Spec.current sites (Slater.Model.Ne (vS V)) (elements_of (sopt0 K) (sE0 K)) 0 (Slater.Model.NQPFull (vS V)) (Samp.Model.eleIdx w) (sInvM K) (sPfM K);
  sa_ip : ip = calculate_ip (angles_of (sopt0 K)) 0 (Slater.Model.NQPFull (vS V)) (sPfM K);
  sa_nz : ip <> RtoC 0
}.
(** the work space starts with the configuration of w, the rest arbitrary *)
Definition starts (w : walker) (k : work) : Prop := (forall i, eleIdx k i = Samp.Model.eleIdx w i) /\ (forall i, eleNum k i = Samp.Model.eleNum w i).
End Wave.

(** the list of operators given by two arrays *)
Definition operators (n : Z) (a b : Z -> Z) : list (Z * Z) := map (fun k => (a k, b k)) (zrange 0 n).
(** a routine for the Pfaffian of a configuration y that differs from the one of w in the n electrons msj.
    This is what calculateNewPfMN_child is for. *)
Definition pfaffian_routine (V : wave) (K : setting) (w : walker) (kernel : Z -> Z -> (Z -> Z) -> (Z -> Z) -> (Z -> Z) -> C) : Prop :=
  forall q n msj rsj y,
    0 <= q < Slater.Model.NQPFull (vS V) -> 0 <= n ->
    (forall k, 0 <= k < n -> In (msj k) (labels V)) ->
    (forall k l, 0 <= k < n -> 0 <= l < n -> msj k = msj l -> k = l) ->
    (forall m, In m (labels V) -> 0 <= y m < sites V) ->
    (forall m, In m (labels V) -> (forall k, 0 <= k < n -> m <> msj k) -> y m = Samp.Model.eleIdx w m) ->
    kernel q n msj rsj y = Pfaffian.pf (pair_matrix (sites V) (Slater.Model.Ne (vS V)) (elements_of V (sopt0 K) (sE0 K)) q y) (labels V).
