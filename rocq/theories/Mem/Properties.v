(** Memory layout and scratch allocator: C28, C29, C30. *)
From Coq Require Import ZArith List Bool String Lia.
From Verif Require Import Base.ZLoop Mem.Model Mem.Callers Mem.Spec Mem.Proofs.
Import ListNotations.
Local Open Scope Z_scope.

(** ** C28: definition arrays *)
(** every cell of the NTotalDefInt integers belongs to exactly one table row, and the carving pointer
    ends at the end of the allocation *)
Theorem C28_integer_tables_tile (S : sizes) : valid S ->
  tiles (NTotalDefInt S) (snd (set_memory_def S)) /\ fst (set_memory_def S) = NTotalDefInt S.
Proof. exact (set_memory_def_ok S). Qed.
Theorem C28_double_tables_tile (S : sizes) : valid S -> tiles (NTotalDefDouble S) (snd (set_memory_def_double S)).
Proof. exact (set_memory_def_double_ok S). Qed.
(** the blocks carved later in SetMemory *)
Theorem C28_walker_tile (S : sizes) : valid S -> tiles (walker_size S) (walker_layout S).
Proof. exact (walker_ok S). Qed.
Theorem C28_projection_tile (S : sizes) : valid S -> tiles (qp_size S) (qp_layout S).
Proof. exact (qp_ok S). Qed.
Theorem C28_sr_tile (nsrcg k : Z) : 0 <= k -> tiles (sropt_size nsrcg k) (sropt_layout nsrcg k).
Proof. exact (sropt_ok nsrcg k). Qed.
Theorem C28_green_tile (S : sizes) : valid S -> tiles (phys_size S) (phys_layout S).
Proof. exact (phys_ok S). Qed.
Theorem C28_lanczos_tile (S : sizes) (h : Z) : valid S -> 0 <= h -> tiles (lanczos_size S h) (lanczos_layout S h).
Proof. exact (lanczos_ok S h). Qed.
Theorem C28_cg_tile (use_imag n ns : Z) : use_imag = 0 \/ use_imag = 1 -> 0 <= n -> 0 <= ns ->
  tiles (veccg_size use_imag n ns) (veccg_layout use_imag n ns).
Proof. exact (veccg_ok use_imag n ns). Qed.

(** a 4-site model with every kind of table *)
Definition ex_sizes : sizes :=
  {| Nsite := 4; Ne := 2; NTransfer := 16; NCoulombIntra := 4; NCoulombInter := 4; NHundCoupling := 1;
     NPairHopping := 1; NExchangeCoupling := 2; NGutzwillerIdx := 1; NJastrowIdx := 2;
     NDoublonHolon2siteIdx := 1; NDoublonHolon4siteIdx := 1; FlagRBM := 1; NneuronCharge := 2;
     NneuronSpin := 1; NneuronGeneral := 3; NChargeRBM_PhysLayerIdx := 1; NSpinRBM_PhysLayerIdx := 1;
     NGeneralRBM_PhysLayerIdx := 2; NChargeRBM_HiddenLayerIdx := 2; NSpinRBM_HiddenLayerIdx := 1;
     NGeneralRBM_HiddenLayerIdx := 3; NChargeRBM_PhysHiddenIdx := 8; NSpinRBM_PhysHiddenIdx := 4;
     NGeneralRBM_PhysHiddenIdx := 24; NBackFlowIdx := 0; Nrange := 0; NProjBF := 0; iFlgOrbitalGeneral := 1;
     iNOrbitalAntiParallel := 16; iNOrbitalParallel := 6; NOrbitalIdx := 28; NQPTrans := 4; NCisAjs := 8;
     NCisAjsCktAlt := 3; NCisAjsCktAltDC := 5; NInterAll := 2; NQPOptTrans := 1; FlagOptTrans := 1;
     NSPGaussLeg := 8; NMPTrans := 4 |}.
Example ex_sizes_valid : valid ex_sizes.
Proof. constructor; cbn; try lia. Qed.
Example ex_sizes_int : NTotalDefInt ex_sizes = 656 /\ List.length (snd (set_memory_def ex_sizes)) = 104%nat.
Proof. vm_compute. split; reflexivity. Qed.

(** Finding.  With backflow the tables PosBF and RangeIdx are carved but not counted: the last row ends
    past the allocation (the backflow code is compiled but its keyword is refused by default). *)
Definition ex_backflow : sizes :=
  {| Nsite := 4; Ne := 2; NTransfer := 16; NCoulombIntra := 4; NCoulombInter := 4; NHundCoupling := 1;
     NPairHopping := 1; NExchangeCoupling := 2; NGutzwillerIdx := 1; NJastrowIdx := 2;
     NDoublonHolon2siteIdx := 1; NDoublonHolon4siteIdx := 1; FlagRBM := 0; NneuronCharge := 0;
     NneuronSpin := 0; NneuronGeneral := 0; NChargeRBM_PhysLayerIdx := 0; NSpinRBM_PhysLayerIdx := 0;
     NGeneralRBM_PhysLayerIdx := 0; NChargeRBM_HiddenLayerIdx := 0; NSpinRBM_HiddenLayerIdx := 0;
     NGeneralRBM_HiddenLayerIdx := 0; NChargeRBM_PhysHiddenIdx := 0; NSpinRBM_PhysHiddenIdx := 0;
     NGeneralRBM_PhysHiddenIdx := 0; NBackFlowIdx := 2; Nrange := 3; NProjBF := 2; iFlgOrbitalGeneral := 0;
     iNOrbitalAntiParallel := 16; iNOrbitalParallel := 0; NOrbitalIdx := 16; NQPTrans := 4; NCisAjs := 8;
     NCisAjsCktAlt := 3; NCisAjsCktAltDC := 5; NInterAll := 2; NQPOptTrans := 1; FlagOptTrans := 0;
     NSPGaussLeg := 8; NMPTrans := 4 |}.
Theorem C28_backflow_refuted : exists S, NBackFlowIdx S > 0 /\
  fst (set_memory_def S) = NTotalDefInt S + Nsite S * Nrange S + Nsite S * Nsite S /\
  ~ tiles (NTotalDefInt S) (snd (set_memory_def S)).
Proof.
  exists ex_backflow. split; [reflexivity|]. split; [vm_compute; reflexivity|].
  intros (H & _ & _).
  set (l := snd (set_memory_def ex_backflow)) in *.
  assert (B : forallb (fun s => off s + len s <=? NTotalDefInt ex_backflow) l = false) by (vm_compute; reflexivity).
  assert (B' : forallb (fun s => off s + len s <=? NTotalDefInt ex_backflow) l = true).
  { apply forallb_forall. intros s Hs. apply Z.leb_le. apply (H s Hs). }
  congruence.
Qed.
Print Assumptions C28_integer_tables_tile.
Print Assumptions C28_double_tables_tile.
Print Assumptions C28_walker_tile.
Print Assumptions C28_projection_tile.
Print Assumptions C28_sr_tile.
Print Assumptions C28_green_tile.
Print Assumptions C28_lanczos_tile.
Print Assumptions C28_cg_tile.
Print Assumptions C28_backflow_refuted.

(** ** C29: sections of the parameter vector *)
Theorem C29_pointers_tile (S : sizes) : valid S -> tiles (NPara S) (para_pointers S).
Proof. exact (para_pointers_tile S). Qed.
(** the readers of the initial values, family by family *)
Theorem C29_input_tile (S : sizes) : valid S -> tiles (NPara S) (input_sections S).
Proof. exact (input_sections_tile S). Qed.
(** the averages are written family by family from the same places (empty families are skipped) *)
Theorem C29_output_same_places (S : sizes) : valid S ->
  output_sections S = filter (fun s => negb (len s =? 0)) (input_sections S).
Proof. exact (output_sections_same S). Qed.
(** the whole-vector initial file goes to the pointers *)
Theorem C29_init_file_same_places (S : sizes) : valid S ->
  filter (fun s => negb (len s =? 0)) (init_file_sections S) =
  filter (fun s => negb (len s =? 0)) (para_pointers S).
Proof. exact (init_file_same S). Qed.
(** the optimisation flags are read for the same places; missing: RBM together with optimised transforms,
    where it is false (next theorem) *)
Theorem C29_flags_same_places_partial (S : sizes) : valid S -> FlagRBM S = 0 \/ NOptTrans S = 0 ->
  filter (fun s => negb (len s =? 0)) (flag_sections S) =
  filter (fun s => negb (len s =? 0)) (input_sections S).
Proof. exact (flag_sections_same S). Qed.
(** Finding.  With an RBM and optimised transforms, the flag of the transform coefficient is stored at an index
    that belongs to another parameter. *)
Theorem C29_flags_same_places_refuted : exists S s t, valid S /\ In s (flag_sections S) /\
  tab s = "OptTrans"%string /\ In t (input_sections S) /\ tab t <> "OptTrans"%string /\
  0 < len s /\ inside (off s) s /\ inside (off s) t.
Proof.
  exists ex_sizes, (Slice "OptTrans" 0 (NProj ex_sizes + NOrbitalIdx ex_sizes) (NOptTrans ex_sizes)).
  exists (Slice "GeneralRBM_PhysHidden" 0 41 24).
  split; [exact ex_sizes_valid|]. split; [vm_compute; tauto|]. split; [reflexivity|].
  split; [vm_compute; tauto|]. split; [discriminate|]. split; [reflexivity|].
  split; vm_compute; split; congruence.
Qed.
Example ex_output : output_sections ex_sizes = filter (fun s => negb (len s =? 0)) (input_sections ex_sizes)
  /\ List.length (output_sections ex_sizes) = 16%nat.
Proof. vm_compute. split; reflexivity. Qed.
Print Assumptions C29_pointers_tile.
Print Assumptions C29_input_tile.
Print Assumptions C29_output_same_places.
Print Assumptions C29_init_file_same_places.
Print Assumptions C29_flags_same_places_partial.
Print Assumptions C29_flags_same_places_refuted.

(** ** C30: scratch pools *)
(** at every point of a careful history the blocks in use are disjoint and inside the live allocation *)
Theorem C30_careful_blocks_safe (h1 h2 : list op) : careful 0 0 (h1 ++ h2) ->
  let st := ws_run h1 (ws_init, []) in blocks_safe (fst st) (snd st).
Proof. exact (careful_safe h1 h2). Qed.
(** every caller (but the ones below) takes no more than it reserves *)
Theorem C30_callers_fit (S : sizes) (X : extra) : valid S -> valid_extra S X ->
  forall c, In c (callers S X) -> (forall k, In k (taken c) -> 0 <= k) /\ total (taken c) <= reserved c.
Proof. exact (callers_fit S X). Qed.
(** hence any sequence of uses of a pool by these callers is safe at every step *)
Theorem C30_callers_safe (S : sizes) (X : extra) (cs : list caller) (h1 h2 : list op) :
  valid S -> valid_extra S X -> Forall (fun c => In c (callers S X)) cs ->
  flat_map (fun c => session (reserved c) (taken c)) cs = h1 ++ h2 ->
  let st := ws_run h1 (ws_init, []) in blocks_safe (fst st) (snd st).
Proof. exact (callers_safe S X cs h1 h2). Qed.
(** Finding.  calHCACA2 (lslocgrn.c:661-700, and its real version) takes NQPFull+4*Nsize numbers per thread after
    reserving NQPFull+3*Nsize: unless a previous caller grew the pool, the block overruns it. *)
Theorem C30_calHCACA2_refuted (S : sizes) (X : extra) : valid S -> FlagRBM S = 0 -> 0 < Ne S ->
  Nsize S * Nsize S + LapackLWork X <= NQPFull S + 3 * Nsize S -> 0 <= LapackLWork X ->
  let c := calHCACA2_thread_complex S X in
  let st := ws_run [Request (reserved c); Get (hd 0 (taken c))]
              (ws_run (session (Nsize S * Nsize S + LapackLWork X) [Nsize S * Nsize S; LapackLWork X]) (ws_init, [])) in
  ~ blocks_safe (fst st) (snd st).
Proof. exact (calHCACA2_overruns S X). Qed.
(** Finding.  calculateNewPfMN_child takes LapackLWork numbers per call and never releases them: whatever
    the size of the pool, enough calls overrun it. *)
Theorem C30_pfMN_child_refuted (X : extra) (n : Z) (k : nat) : 0 < LapackLWork X -> 0 <= n ->
  n < Z.of_nat k * LapackLWork X ->
  let st := ws_run (pfMN_child_calls X k) (ws_run (session n [n]) (ws_init, [])) in
  ~ blocks_safe (fst st) (snd st).
Proof. exact (pfMN_child_overruns X n k). Qed.

Definition ex_extra : extra := Extra 64 6 4 100 9 3 5 3 2 3 3 3 1 7 20.
Example ex_extra_valid : valid_extra ex_sizes ex_extra.
Proof. constructor; cbn; try lia; reflexivity. Qed.
Example ex_careful : careful 0 0 [Request 10; Get 3; Get 7; Release; Request 4; Get 10; Release; Request 20; Get 20].
Proof. cbn. lia. Qed.
Example ex_run : ws_run [Request 10; Get 3; Get 7] (ws_init, []) = (WS 10 1 10, [Block 1 0 3; Block 1 3 7]).
Proof. reflexivity. Qed.
Definition ex_small : extra := Extra 1 0 0 0 0 0 0 0 0 0 0 0 0 0 0.
Definition ex_norbm : sizes :=
  {| Nsite := 4; Ne := 2; NTransfer := 16; NCoulombIntra := 4; NCoulombInter := 4; NHundCoupling := 1;
     NPairHopping := 1; NExchangeCoupling := 2; NGutzwillerIdx := 1; NJastrowIdx := 2;
     NDoublonHolon2siteIdx := 1; NDoublonHolon4siteIdx := 1; FlagRBM := 0; NneuronCharge := 0;
     NneuronSpin := 0; NneuronGeneral := 0; NChargeRBM_PhysLayerIdx := 0; NSpinRBM_PhysLayerIdx := 0;
     NGeneralRBM_PhysLayerIdx := 0; NChargeRBM_HiddenLayerIdx := 0; NSpinRBM_HiddenLayerIdx := 0;
     NGeneralRBM_HiddenLayerIdx := 0; NChargeRBM_PhysHiddenIdx := 0; NSpinRBM_PhysHiddenIdx := 0;
     NGeneralRBM_PhysHiddenIdx := 0; NBackFlowIdx := 0; Nrange := 0; NProjBF := 0; iFlgOrbitalGeneral := 0;
     iNOrbitalAntiParallel := 16; iNOrbitalParallel := 0; NOrbitalIdx := 16; NQPTrans := 4; NCisAjs := 8;
     NCisAjsCktAlt := 3; NCisAjsCktAltDC := 5; NInterAll := 2; NQPOptTrans := 1; FlagOptTrans := 0;
     NSPGaussLeg := 8; NMPTrans := 4 |}.
Example ex_overrun : valid ex_norbm /\
  Nsize ex_norbm * Nsize ex_norbm + LapackLWork ex_small <= NQPFull ex_norbm + 3 * Nsize ex_norbm.
Proof. split; [constructor; cbn; try lia; reflexivity|cbn; lia]. Qed.
Print Assumptions C30_careful_blocks_safe.
Print Assumptions C30_callers_fit.
Print Assumptions C30_callers_safe.
Print Assumptions C30_calHCACA2_refuted.
Print Assumptions C30_pfMN_child_refuted.
