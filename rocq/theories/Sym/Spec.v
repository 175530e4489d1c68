(** What it means that the wave function has the requested symmetry.  Nothing here mentions how the program computes it. *)
From Coq Require Import ZArith List Bool Reals Permutation.
From Coquelicot Require Import Complex.
From Verif Require Import Base.ZLoop Base.RSum Proj.Model Proj.Spec Slater.Model Slater.Spec Rbm.Model Rbm.Spec Green.Spec Grd.Spec Sym.Model.
Import ListNotations.
Local Open Scope Z_scope.

Definition site (N r : Z) : Prop := 0 <= r < N.
(** a permutation of 0 .. n-1 *)
Definition permutes (n : Z) (p : Z -> Z) : Prop := (forall k, site n k -> site n (p k)) /\ (forall k l, site n k -> site n l -> p k = p l -> k = l).

(** ** the transformations of the input file form a group represented by the weights *)
(** [after m] is the number of "first g, then m"; signs are collected on the way, weights multiply; an additional transform
    (OptTrans) commutes with g *)
Record group_element (V : wave) (g : Z) (after : Z -> Z) : Prop := {
  ge_g : site (NMPTrans (vS V)) g;
  ge_perm : permutes (sites V) (QPTrans (vQ V) g);
  ge_after : permutes (NMPTrans (vS V)) after;
  ge_map : forall m r, site (NMPTrans (vS V)) m -> site (sites V) r -> QPTrans (vQ V) (after m) r = QPTrans (vQ V) m (QPTrans (vQ V) g r);
  (* going once around an antiperiodic lattice changes the sign of every electron *)
  ge_sgn : forall m, site (NMPTrans (vS V)) m -> exists s, (s = 1 \/ s = -1) /\ forall r, site (sites V) r -> QPTransSgn (vQ V) (after m) r = s * (QPTransSgn (vQ V) g r * QPTransSgn (vQ V) m (QPTrans (vQ V) g r));
  ge_unit : forall r, site (sites V) r -> QPTransSgn (vQ V) g r = 1 \/ QPTransSgn (vQ V) g r = -1;
  ge_weight : forall m, site (NMPTrans (vS V)) m -> vpara V (after m) = Cmult (vpara V m) (vpara V g);
  ge_opt : forall o r, site (NQPOptTrans (vS V)) o -> site (sites V) r -> QPOptTrans (vQ V) o (QPTrans (vQ V) g r) = QPTrans (vQ V) g (QPOptTrans (vQ V) o r);
  ge_optsgn : forall o r, site (NQPOptTrans (vS V)) o -> site (sites V) r ->
    QPOptTransSgn (vQ V) o (QPTrans (vQ V) g r) * QPTransSgn (vQ V) g r = QPOptTransSgn (vQ V) o r * QPTransSgn (vQ V) g (QPOptTrans (vQ V) o r)
}.

(** ** the correlation factors do not distinguish sites that the transformation p connects *)
Record invariant_factors (T : tables) (p : Z -> Z) : Prop := {
  if_gutz : 0 < NGutzwillerIdx T -> forall r, site (Proj.Model.Nsite T) r -> GutzwillerIdx T (p r) = GutzwillerIdx T r;
  if_jast : 0 < NJastrowIdx T -> forall r r', site (Proj.Model.Nsite T) r -> site (Proj.Model.Nsite T) r' -> r <> r' -> JastrowIdx T r r' = JastrowIdx T r' r /\ JastrowIdx T (p r) (p r') = JastrowIdx T r r';
  if_dh2 : forall n r, site (NDoublonHolon2siteIdx T) n -> site (Proj.Model.Nsite T) r ->
    Permutation (map (fun j => DoublonHolon2siteIdx T n (2 * p r + j)) [0; 1]) (map (fun j => p (DoublonHolon2siteIdx T n (2 * r + j))) [0; 1]);
  if_dh4 : forall n r, site (NDoublonHolon4siteIdx T) n -> site (Proj.Model.Nsite T) r ->
    Permutation (map (fun j => DoublonHolon4siteIdx T n (4 * p r + j)) [0; 1; 2; 3]) (map (fun j => p (DoublonHolon4siteIdx T n (4 * r + j))) [0; 1; 2; 3])
}.

(** ** the machine: p acts on the neurons as well *)
(** the spin-orbital site + spin * sites goes with its site *)
Definition lifted (N : Z) (p : Z -> Z) (rs : Z) : Z := p (rs mod N) + rs / N * N.
Record invariant_machine (M : machine) (p qC qS qG : Z -> Z) : Prop := {
  im_physC : 0 < NPhysC M -> forall r, site (Rbm.Model.Nsite M) r -> PhysC M (p r) = PhysC M r;
  im_physS : 0 < NPhysS M -> forall r, site (Rbm.Model.Nsite M) r -> PhysS M (p r) = PhysS M r;
  im_physG : 0 < NPhysG M -> forall rs, site (2 * Rbm.Model.Nsite M) rs -> PhysG M (lifted (Rbm.Model.Nsite M) p rs) = PhysG M rs;
  im_qC : permutes (NneuronC M) qC;
  im_qS : permutes (NneuronS M) qS;
  im_qG : permutes (NneuronG M) qG;
  im_hidC : 0 < NHidC M -> forall h, site (NneuronC M) h -> HidC M (qC h) = HidC M h;
  im_hidS : 0 < NHidS M -> forall h, site (NneuronS M) h -> HidS M (qS h) = HidS M h;
  im_hidG : 0 < NHidG M -> forall h, site (NneuronG M) h -> HidG M (qG h) = HidG M h;
  im_phC : 0 < NPhC M -> forall r h, site (Rbm.Model.Nsite M) r -> site (NneuronC M) h -> PhC M (p r) (qC h) = PhC M r h;
  im_phS : 0 < NPhS M -> forall r h, site (Rbm.Model.Nsite M) r -> site (NneuronS M) h -> PhS M (p r) (qS h) = PhS M r h;
  im_phG : 0 < NPhG M -> forall rs h, site (2 * Rbm.Model.Nsite M) rs -> site (NneuronG M) h -> PhG M (lifted (Rbm.Model.Nsite M) p rs) (qG h) = PhG M rs h
}.
(** transformation g is a symmetry of the whole input *)
Definition symmetry (V : wave) (g : Z) : Prop :=
  (exists after, group_element V g after) /\ invariant_factors (vT V) (QPTrans (vQ V) g) /\
  (vFlagRBM V = true -> exists qC qS qG, invariant_machine (vM V) (QPTrans (vQ V) g) qC qS qG).

(** ** the transformed configuration *)
Definition moved (V : wave) (g : Z) (x : Z -> Z) : Z -> Z := fun i => QPTrans (vQ V) g (x i).
Definition on_lattice (V : wave) (x : Z -> Z) : Prop := forall i, In i (labels V) -> site (sites V) (x i).
(** the sign its electrons collect *)
Definition collected (V : wave) (g : Z) (x : Z -> Z) : C := cprod (labels V) (fun i => RtoC (IZR (QPTransSgn (vQ V) g (x i)))).

(** probability of finding an electron on spin-orbital a, and joint probability for a and b *)
Definition density (V : wave) (a : Z) : R := mean V (psi V) (fun u => IZR (occupation V (conf u) a)).
Definition joint (V : wave) (a b : Z) : R := mean V (psi V) (fun u => IZR (occupation V (conf u) a * occupation V (conf u) b)).

(** ** the file that defines the transformations *)
(** existing transformation and sites *)
Definition row_ok (NArray Nsite : Z) (r : row) : Prop := site NArray (rtr r) /\ site Nsite (rsite r) /\ site Nsite (rimage r).
(** no entry of the table is given twice; with antiperiodic boundaries every line has its sign *)
Definition table_ok (APFlag : bool) (NArray Nsite : Z) (rows : list row) : Prop :=
  (forall r, In r rows -> row_ok NArray Nsite r /\ (APFlag = true -> rsgn r <> None)) /\ NoDup (map (fun r => (rtr r, rsite r)) rows).
Definition weights_ok (NArray : Z) (ws : list (Z * C)) : Prop := Z.of_nat (length ws) = NArray /\ (forall w, In w ws -> site NArray (fst w)) /\ NoDup (map fst ws).
Definition sign_of (APFlag : bool) (r : row) : Z := if APFlag then match rsgn r with Some s => s | None => 0 end else 1.
