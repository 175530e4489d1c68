(** Independent statements about layouts and call histories. *)
From Coq Require Import ZArith List Bool String.
From Verif Require Import Mem.Model Mem.Callers.
Import ListNotations.
Local Open Scope Z_scope.

Definition inside (j : Z) (s : slice) : Prop := off s <= j < off s + len s.

(** the slices are inside [0,n), every cell of [0,n) belongs to a slice, to one only *)
Definition tiles (n : Z) (l : list slice) : Prop :=
  (forall s, In s l -> 0 <= off s /\ 0 <= len s /\ off s + len s <= n) /\
  (forall j, 0 <= j < n -> exists i s, nth_error l i = Some s /\ inside j s) /\
  (forall i i' s s' j, nth_error l i = Some s -> nth_error l i' = Some s' ->
     inside j s -> inside j s' -> i = i').

(** all sizes read from the files are counts; flags are 0/1; without a flag there is no RBM table;
    the number of orbital parameters as computed by readdef.c:483-505 *)
Record valid (S : sizes) : Prop := Valid {
  v_site : 0 <= Nsite S; v_ne : 0 <= Ne S;
  v_tr : 0 <= NTransfer S; v_ci : 0 <= NCoulombIntra S; v_cj : 0 <= NCoulombInter S;
  v_hd : 0 <= NHundCoupling S; v_ph : 0 <= NPairHopping S; v_ex : 0 <= NExchangeCoupling S;
  v_gu : 0 <= NGutzwillerIdx S; v_ja : 0 <= NJastrowIdx S;
  v_d2 : 0 <= NDoublonHolon2siteIdx S; v_d4 : 0 <= NDoublonHolon4siteIdx S;
  v_flag : FlagRBM S = 0 \/ FlagRBM S = 1;
  v_nc : 0 <= NneuronCharge S; v_ns : 0 <= NneuronSpin S; v_ng : 0 <= NneuronGeneral S;
  v_cp : 0 <= NChargeRBM_PhysLayerIdx S; v_sp : 0 <= NSpinRBM_PhysLayerIdx S;
  v_gp : 0 <= NGeneralRBM_PhysLayerIdx S;
  v_ch : 0 <= NChargeRBM_HiddenLayerIdx S; v_sh : 0 <= NSpinRBM_HiddenLayerIdx S;
  v_gh : 0 <= NGeneralRBM_HiddenLayerIdx S;
  v_cph : 0 <= NChargeRBM_PhysHiddenIdx S; v_sph : 0 <= NSpinRBM_PhysHiddenIdx S;
  v_gph : 0 <= NGeneralRBM_PhysHiddenIdx S;
  v_norbm : FlagRBM S = 0 -> NRBM S = 0;
  v_bf : NBackFlowIdx S = 0; v_pbf : NProjBF S = 0; v_range : 0 <= Nrange S;
  v_gen : iFlgOrbitalGeneral S = 0 \/ iFlgOrbitalGeneral S = 1;
  v_ap : 0 <= iNOrbitalAntiParallel S; v_p : 0 <= iNOrbitalParallel S; v_or : 0 <= NOrbitalIdx S;
  v_orb : iNOrbitalParallel S <> 0 ->
          iFlgOrbitalGeneral S = 1 /\ NOrbitalIdx S = iNOrbitalAntiParallel S + 2 * iNOrbitalParallel S;
  v_qp : 0 <= NQPTrans S; v_c1 : 0 <= NCisAjs S; v_c2 : 0 <= NCisAjsCktAlt S;
  v_c3 : 0 <= NCisAjsCktAltDC S; v_ia : 0 <= NInterAll S; v_qo : 0 <= NQPOptTrans S;
  v_gl : 0 <= NSPGaussLeg S; v_mp : 0 <= NMPTrans S
}.

(** a family of parameters: same name means same place, for the families that have parameters *)
Definition same_places (a b : list slice) : Prop :=
  forall s t, In s a -> In t b -> tab s = tab t -> 0 < len s -> 0 < len t ->
    off s = off t /\ len s = len t.

(** * Call histories of one scratch pool *)
(** what a careful history may do: [held] = total length of the blocks in use, [room] = largest
    reservation so far.  A reservation that grows the pool frees the old memory, so it may happen only
    when no block is in use; blocks in use never exceed what was reserved. *)
Fixpoint careful (held room : Z) (h : list op) : Prop :=
  match h with
  | [] => True
  | Request n :: h => (n <= room \/ held = 0) /\ careful held (Z.max room n) h
  | Get n :: h => 0 <= n /\ held + n <= room /\ careful (held + n) room h
  | Release :: h => careful 0 room h
  end.

(** all blocks in use lie in the live allocation of [num] cells and do not overlap *)
Definition blocks_safe (w : ws) (live : list block) : Prop :=
  (forall b, In b live -> 0 < b_len b -> b_gen b = gen w /\ 0 <= b_off b /\ b_off b + b_len b <= num w) /\
  (forall i i' b b' c, nth_error live i = Some b -> nth_error live i' = Some b' ->
     b_off b <= c < b_off b + b_len b -> b_off b' <= c < b_off b' + b_len b' -> i = i').

Fixpoint total (l : list Z) : Z := match l with [] => 0 | n :: l => n + total l end.

(** the other sizes used by the callers are non-negative; NRBM_PhysLayerIdx is the one of [sizes] *)
Record valid_extra (S : sizes) (X : extra) : Prop := ValidExtra {
  x_l : 0 <= LapackLWork X; x_n : 0 <= Nneuron X;
  x_r : xNRBM_PhysLayerIdx X = NRBM_PhysLayerIdx S;
  x_a : 0 <= avg_n X; x_s : 0 <= sSize X; x_g : 0 <= gSize X; x_z : 0 <= zSize X; x_x : 0 <= xSize X;
  x_w : 0 <= wSize X; x_mr : 0 <= mlocr X; x_mc : 0 <= mlocc X; x_vr : 0 <= vlocr X;
  x_ci : cg_use_imag X = 0 \/ cg_use_imag X = 1; x_cn : 0 <= cg_n X; x_cs : 0 <= cg_ns X }.
