From Coq Require Import ZArith List Bool String Lia.
From Verif Require Import Base.ZLoop Mem.Model Mem.Callers Mem.Spec.
Import ListNotations.
Local Open Scope Z_scope.

(** ** consecutive slices *)
Inductive consec : Z -> list slice -> Z -> Prop :=
| consec_nil p : consec p [] p
| consec_cons s l q : 0 <= len s -> consec (off s + len s) l q -> consec (off s) (s :: l) q.

Lemma consec_le p l q : consec p l q -> p <= q.
Proof. induction 1; lia. Qed.
Lemma consec_snoc p l q nm r k : consec p l q -> 0 <= k -> consec p (l ++ [Slice nm r q k]) (q + k).
Proof.
  induction 1; intros; cbn.
  - apply (consec_cons (Slice nm r p k)); cbn; auto. constructor.
  - constructor; auto.
Qed.
Lemma consec_cons' p nm r o k l q : o = p -> 0 <= k -> consec (p + k) l q -> consec p (Slice nm r o k :: l) q.
Proof. intros -> Hk H. apply (consec_cons (Slice nm r p k)); auto. Qed.
Lemma consec_in p l q s : consec p l q -> In s l -> p <= off s /\ 0 <= len s /\ off s + len s <= q.
Proof.
  induction 1 as [|t l q Ht H IH]; cbn; [tauto|].
  pose proof (consec_le _ _ _ H). intros [->|Hin]; [lia|]. specialize (IH Hin). lia.
Qed.
Lemma consec_find p l q j : consec p l q -> p <= j < q ->
  exists i s, nth_error l i = Some s /\ inside j s.
Proof.
  induction 1 as [|t l q Ht H IH]; intros Hj; [lia|].
  destruct (Z_lt_dec j (off t + len t)).
  - exists O, t. split; [reflexivity|]. unfold inside. lia.
  - destruct IH as (i & s & Hi & Hs); [lia|]. exists (S i), s. auto.
Qed.
Lemma consec_unique p l q i i' s s' j : consec p l q ->
  nth_error l i = Some s -> nth_error l i' = Some s' -> inside j s -> inside j s' -> i = i'.
Proof.
  intros H. revert i i'. induction H as [|t l q Ht H IH]; intros i i' Hi Hi' Hs Hs'.
  - destruct i; discriminate.
  - destruct i as [|i], i' as [|i']; cbn in Hi, Hi'; [auto| | |f_equal; eauto].
    + injection Hi as ->. apply nth_error_In in Hi'. pose proof (consec_in _ _ _ _ H Hi').
      unfold inside in *. lia.
    + injection Hi' as ->. apply nth_error_In in Hi. pose proof (consec_in _ _ _ _ H Hi).
      unfold inside in *. lia.
Qed.
Lemma consec_tiles n l : consec 0 l n -> tiles n l.
Proof.
  intros H. repeat split.
  - apply (consec_in _ _ _ _ H); auto.
  - apply (consec_in _ _ _ _ H); auto.
  - apply (consec_in _ _ _ _ H); auto.
  - intros j Hj. eapply consec_find; eauto.
  - intros. eapply consec_unique; eauto.
Qed.

(** ** carving *)
Lemma one_ok nm k st : consec 0 (snd st) (fst st) -> 0 <= k ->
  consec 0 (snd (one nm k st)) (fst (one nm k st)) /\ fst (one nm k st) = fst st + k.
Proof. intros H Hk. split; [|reflexivity]. cbn. apply consec_snoc; auto. Qed.
Lemma rows_ok nm n k st : consec 0 (snd st) (fst st) -> 0 <= n -> 0 <= k ->
  consec 0 (snd (rows nm n k st)) (fst (rows nm n k st)) /\ fst (rows nm n k st) = fst st + n * k.
Proof.
  intros H Hn Hk. unfold rows.
  pose proof (loop_inv (fun i (s : carve_state) => consec 0 (snd s) (fst s) /\ fst s = fst st + i * k)
    0 n (fun i s => (fst s + k, snd s ++ [Slice nm i (fst s) k])) st) as L.
  cbn beta in L. apply L; auto.
  - split; auto. lia.
  - intros i s Hi [Hc Hf]. cbn. split; [apply consec_snoc; auto|]. rewrite Hf. ring.
Qed.
Lemma one_okp nm k st p : consec 0 (snd st) (fst st) /\ fst st = p -> 0 <= k ->
  consec 0 (snd (one nm k st)) (fst (one nm k st)) /\ fst (one nm k st) = p + k.
Proof. intros [H <-] Hk. apply one_ok; auto. Qed.
Lemma rows_okp nm n k st p : consec 0 (snd st) (fst st) /\ fst st = p -> 0 <= n -> 0 <= k ->
  consec 0 (snd (rows nm n k st)) (fst (rows nm n k st)) /\ fst (rows nm n k st) = p + n * k.
Proof. intros [H <-] Hn Hk. apply rows_ok; auto. Qed.

Ltac nn := first [assumption | discriminate | apply Z.mul_nonneg_nonneg; [discriminate|assumption]].
Ltac carve :=
  repeat match goal with
  | |- consec 0 (snd (one _ _ _)) _ /\ _ => apply one_okp; [|nn]
  | |- consec 0 (snd (rows _ _ _ _)) _ /\ _ => apply rows_okp; [|nn|nn]
  end.
Global Opaque one rows.

Lemma tile_conv st q q' : consec 0 (snd st) (fst st) /\ fst st = q -> q = q' ->
  consec 0 (snd st) (fst st) /\ fst st = q'.
Proof. intros H <-. auto. Qed.
Lemma NPara_nonneg S : valid S -> 0 <= NPara S.
Proof.
  intros [] . unfold NPara, NSlater, NOptTrans, NProj, NRBM, NRBM_PhysLayerIdx, NRBM_HiddenLayerIdx, NRBM_PhysHiddenIdx in *.
  destruct (0 <? FlagOptTrans S); nia.
Qed.
Lemma set_memory_def_ok S : valid S ->
  tiles (NTotalDefInt S) (snd (set_memory_def S)) /\ fst (set_memory_def S) = NTotalDefInt S.
Proof.
  intros V. pose proof (NPara_nonneg S V). destruct V.
  cut (consec 0 (snd (set_memory_def S)) (fst (set_memory_def S)) /\ fst (set_memory_def S) = NTotalDefInt S).
  { intros [H1 H2]. split; auto. apply consec_tiles. rewrite <- H2. auto. }
  unfold set_memory_def. cbv zeta. rewrite v_bf. cbn [Z.ltb Z.compare].
  destruct v_flag as [E|E], v_gen as [G|G]; rewrite E, G; cbn [Z.eqb].
  all: eapply tile_conv; [unfold Nsite2; carve; split; [constructor|reflexivity]|].
  all: unfold NTotalDefInt; rewrite v_bf, G, E; cbn [Z.eqb Pos.eqb Z.ltb Z.compare]; unfold Nsite2; cbn [fst].
  all: ring.
Qed.

Lemma set_memory_def_double_ok S : valid S ->
  tiles (NTotalDefDouble S) (snd (set_memory_def_double S)).
Proof.
  intros []. apply consec_tiles.
  cut (consec 0 (snd (set_memory_def_double S)) (fst (set_memory_def_double S)) /\
       fst (set_memory_def_double S) = NTotalDefDouble S).
  { intros [H1 H2]. rewrite <- H2. auto. }
  unfold set_memory_def_double. cbv zeta.
  eapply tile_conv; [carve; split; [constructor|reflexivity]|].
  unfold NTotalDefDouble. cbn [fst]. ring.
Qed.

(** ** parameter sections *)
Ltac csc := repeat first [ apply consec_cons'; [try lia|try lia|] ].
Lemma consec_end p q : p = q -> consec p [] q.
Proof. intros ->. constructor. Qed.
Ltac unf := unfold para_pointers, NPara, NOptTrans, off_Proj, off_RBM, off_ProjBF, off_Slater, off_OptTrans, NSlater, NProj, NRBM, NRBM_PhysLayerIdx, NRBM_HiddenLayerIdx, NRBM_PhysHiddenIdx in *.
Ltac tiling := repeat first [ apply consec_end; lia | apply consec_cons'; [lia|lia|] ].
Lemma para_pointers_tile S : valid S -> tiles (NPara S) (para_pointers S).
Proof.
  intros []. apply consec_tiles. unf.
  destruct v_flag as [E|E]; rewrite E in *; destruct (0 <? FlagOptTrans S); tiling.
Qed.
Lemma flag_rbm_mul S : valid S -> FlagRBM S * NRBM S = NRBM S.
Proof. intros []. destruct v_flag as [E|E]; rewrite E; [rewrite v_norbm by auto|]; lia. Qed.
Lemma input_sections_tile S : valid S -> tiles (NPara S) (input_sections S).
Proof.
  intros V. pose proof (flag_rbm_mul S V) as M. destruct V. apply consec_tiles.
  unfold input_sections, orbital_input_sections, off_OptTrans, off_Slater, NPara.
  rewrite (Z.mul_comm (NRBM S)), M, v_pbf. clear M v_norbm v_flag. unf.
  destruct (0 <? FlagOptTrans S); destruct (Z.eqb_spec (iNOrbitalParallel S) 0) as [E|E]; cbn [app];
    try specialize (v_orb E); tiling.
Qed.
Lemma cons_slice nm r o o' k k' l l' : o = o' -> k = k' -> l = l' ->
  Slice nm r o k :: l = Slice nm r o' k' :: l'.
Proof. now intros -> -> ->. Qed.
Ltac slices := repeat (apply cons_slice; [lia|lia|]); reflexivity.
Lemma flag_sections_same S : valid S -> FlagRBM S = 0 \/ NOptTrans S = 0 ->
  filter (fun s => negb (len s =? 0)) (flag_sections S) = filter (fun s => negb (len s =? 0)) (input_sections S).
Proof.
  intros V H. pose proof (flag_rbm_mul S V) as M.
  unfold flag_sections, input_sections. rewrite !filter_app. f_equal; [|f_equal].
  - apply f_equal. unf. slices.
  - unfold orbital_flag_sections, orbital_input_sections, off_Slater. rewrite (v_pbf S V), Z.add_0_r.
    reflexivity.
  - destruct H as [H|H].
    + unfold off_OptTrans. rewrite H, (v_pbf S V). cbn [Z.mul]. rewrite !Z.add_0_r. reflexivity.
    + rewrite H. reflexivity.
Qed.

Fixpoint consecutive (p : Z) (l : list (string * Z)) : list slice :=
  match l with [] => [] | (nm, n) :: l => Slice nm 0 p n :: consecutive (p + n) l end.
Definition nz (s : slice) : bool := negb (len s =? 0).
Definition emit_step (st : carve_state) (x : string * Z) : carve_state := emit (fst x) (snd x) st.
Lemma emit_all l st :
  snd (fold_left emit_step l st) = snd st ++ filter nz (consecutive (fst st - 2) l).
Proof.
  revert st. induction l as [|[nm n] l IH]; intros st; cbn [fold_left consecutive filter]; [now rewrite app_nil_r|].
  rewrite IH. unfold emit_step, emit, nz. cbn [fst snd len]. destruct (Z.eqb_spec n 0) as [->|E]; cbn [fst snd negb].
  - rewrite Z.add_0_r. reflexivity.
  - rewrite <- app_assoc. cbn [app]. do 4 f_equal. ring.
Qed.
Lemma emit_0 nm st : emit nm 0 st = st.
Proof. reflexivity. Qed.
#[local] Opaque emit.
Definition common_fams (S : sizes) : list (string * Z) :=
  [("Gutzwiller", NGutzwillerIdx S); ("Jastrow", NJastrowIdx S);
   ("DH2", 2 * 3 * NDoublonHolon2siteIdx S); ("DH4", 2 * 5 * NDoublonHolon4siteIdx S);
   ("ChargeRBM_PhysLayer", NChargeRBM_PhysLayerIdx S); ("SpinRBM_PhysLayer", NSpinRBM_PhysLayerIdx S);
   ("GeneralRBM_PhysLayer", NGeneralRBM_PhysLayerIdx S);
   ("ChargeRBM_HiddenLayer", NChargeRBM_HiddenLayerIdx S); ("SpinRBM_HiddenLayer", NSpinRBM_HiddenLayerIdx S);
   ("GeneralRBM_HiddenLayer", NGeneralRBM_HiddenLayerIdx S);
   ("ChargeRBM_PhysHidden", NChargeRBM_PhysHiddenIdx S); ("SpinRBM_PhysHidden", NSpinRBM_PhysHiddenIdx S);
   ("GeneralRBM_PhysHidden", NGeneralRBM_PhysHiddenIdx S)]%string.
Definition orb_fams (S : sizes) : list (string * Z) :=
  if iNOrbitalParallel S =? 0 then [("Orbital", NOrbitalIdx S)]%string
  else [("OrbitalAntiParallel", iNOrbitalAntiParallel S); ("OrbitalParallel", 2 * iNOrbitalParallel S)]%string.
Lemma output_as_fold S : valid S ->
  output_sections S = snd (fold_left emit_step
    (common_fams S ++ orb_fams S ++ [("OptTrans"%string, NOptTrans S)]) (2, [])).
Proof.
  intros []. unfold output_sections, orb_fams, NSlater. cbv zeta.
  destruct (Z.eqb_spec (iNOrbitalParallel S) 0) as [E|E]; cbn [common_fams fold_left app]; unfold emit_step; cbn [fst snd].
  - f_equal. f_equal.
    match goal with |- _ = emit _ _ ?c => generalize c end. intros c.
    destruct (Z.eqb_spec (NOrbitalIdx S) 0) as [E'|E'];
      [rewrite E'; symmetry; apply emit_0|]. destruct (_ =? _); reflexivity.
  - destruct (v_orb E) as [G O]. rewrite G. cbn [Z.eqb].
    destruct (Z.eqb_spec (NOrbitalIdx S) 0); [lia|]. reflexivity.
Qed.
Lemma output_sections_same S : valid S -> output_sections S = filter nz (input_sections S).
Proof.
  intros V. rewrite output_as_fold, emit_all by auto. cbn [fst snd app].
  f_equal. pose proof (flag_rbm_mul S V) as M. destruct V.
  unfold input_sections, orbital_input_sections, orb_fams, off_OptTrans, off_Slater.
  rewrite M, v_pbf. clear M v_norbm v_flag. change (2 - 2) with 0. unf.
  destruct (Z.eqb_spec (iNOrbitalParallel S) 0) as [E|E]; cbn [app common_fams consecutive];
    try specialize (v_orb E);
  slices.
Qed.

Lemma init_file_sections_tile S : valid S -> tiles (NPara S) (init_file_sections S).
Proof.
  intros []. apply consec_tiles. unfold init_file_sections. unf.
  destruct v_flag as [E|E]; rewrite E in *; cbn [Z.eqb app]; destruct (0 <? FlagOptTrans S); tiling.
Qed.

(** ** other blocks *)
Lemma walker_ok S : valid S -> tiles (walker_size S) (walker_layout S).
Proof. intros []. apply consec_tiles. unfold walker_layout, walker_size, NProj. cbv zeta. tiling. Qed.
Lemma qp_ok S : valid S -> tiles (qp_size S) (qp_layout S).
Proof.
  intros []. apply consec_tiles.
  assert (0 <= NQPFix S) by (unfold NQPFix; nia).
  assert (0 <= NQPFull S) by (unfold NQPFull; nia).
  unfold qp_layout, qp_size. cbv zeta. tiling.
Qed.
Lemma sropt_ok nsrcg k : 0 <= k -> tiles (sropt_size nsrcg k) (sropt_layout nsrcg k).
Proof.
  intros. apply consec_tiles. unfold sropt_layout, sropt_size. cbv zeta.
  destruct (nsrcg =? 0); [|tiling].
  assert (0 <= k * k) by nia. apply consec_cons'; [lia|lia|]. apply consec_cons'; [lia|lia|].
  apply consec_cons'; [lia|lia|]. apply consec_end. ring.
Qed.
Lemma phys_ok S : valid S -> tiles (phys_size S) (phys_layout S).
Proof. intros []. apply consec_tiles. unfold phys_layout, phys_size. cbv zeta. tiling. Qed.
Lemma lanczos_ok S h : valid S -> 0 <= h -> tiles (lanczos_size S h) (lanczos_layout S h).
Proof.
  intros [] Hh. apply consec_tiles. unfold lanczos_layout, lanczos_size. cbv zeta.
  assert (0 <= h * h) by nia.
  repeat (apply consec_cons'; [lia|apply Z.mul_nonneg_nonneg; assumption|]). apply consec_end. ring.
Qed.
Lemma veccg_ok u n ns : u = 0 \/ u = 1 -> 0 <= n -> 0 <= ns -> tiles (veccg_size u n ns) (veccg_layout u n ns).
Proof.
  intros Hu Hn Hns. apply consec_tiles. unfold veccg_layout, veccg_size. cbv zeta.
  assert (0 <= ns * n) by nia.
  destruct Hu as [-> | ->]; cbn [Z.eqb]; repeat (apply consec_cons'; [lia|lia|]); apply consec_end; ring.
Qed.

(** ** allocator *)
Definition as_slice (b : block) : slice := Slice EmptyString 0 (b_off b) (b_len b).
Definition ws_inv (st : ws * list block) : Prop :=
  consec 0 (map as_slice (snd st)) (now (fst st)) /\ now (fst st) <= num (fst st) /\
  (forall b, In b (snd st) -> 0 < b_len b -> b_gen b = gen (fst st)).

Lemma careful_inv h : forall st, ws_inv st -> careful (now (fst st)) (num (fst st)) h -> ws_inv (ws_run h st).
Proof.
  induction h as [|o h IH]; intros [w live] I C; [exact I|].
  change (ws_run (o :: h) (w, live)) with (ws_run h (ws_step (w, live) o)).
  destruct I as (I1 & I2 & I3). cbn [fst snd] in *.
  destruct o as [n|n|]; cbn [careful] in C.
  - destruct C as [C1 C2]. apply IH; unfold ws_step, ws_request; cbn [fst snd].
    + destruct (Z.ltb_spec (num w) n) as [L|L]; [|split; [|split]; auto].
      destruct C1 as [C1|C1]; [lia|]. rewrite C1 in *. split; [|split]; cbn [fst snd now num gen]; auto; [lia|].
      intros b Hb Hp. assert (Hin : In (as_slice b) (map as_slice live)) by (now apply in_map).
      pose proof (consec_in _ _ _ _ I1 Hin). cbn [as_slice off len] in *. lia.
    + destruct (Z.ltb_spec (num w) n) as [L|L]; cbn [now num].
      * destruct C1 as [C1|C1]; [lia|]. rewrite C1 in C2. rewrite Z.max_r in C2 by lia. auto.
      * rewrite Z.max_l in C2 by lia. auto.
  - destruct C as (C1 & C2 & C3). apply IH; unfold ws_step, ws_get; cbn [fst snd now num gen]; [|auto].
    split; [|split]; cbn [fst snd now num gen]; auto.
    + rewrite map_app. cbn [map]. apply consec_snoc; auto.
    + intros b Hb Hp. apply in_app_or in Hb. destruct Hb as [Hb|[<-|[]]]; [auto|reflexivity].
  - apply IH; unfold ws_step, ws_release; cbn [fst snd now num gen]; [|auto].
    split; [|split]; cbn [fst snd now num gen map In]; [apply consec_nil| |tauto].
    apply consec_le in I1. lia.
Qed.
Lemma inv_safe st : ws_inv st -> blocks_safe (fst st) (snd st).
Proof.
  intros (I1 & I2 & I3). split.
  - intros b Hb Hp. split; [auto|]. assert (Hin : In (as_slice b) (map as_slice (snd st))) by (now apply in_map).
    pose proof (consec_in _ _ _ _ I1 Hin). cbn [as_slice off len] in *. lia.
  - intros i i' b b' c Hi Hi' Hb Hb'.
    apply (consec_unique _ _ _ i i' (as_slice b) (as_slice b') c I1); auto.
    + rewrite nth_error_map, Hi. reflexivity.
    + rewrite nth_error_map, Hi'. reflexivity.
Qed.
Lemma init_inv : ws_inv (ws_init, []).
Proof. split; [apply consec_nil|split; cbn; [lia|tauto]]. Qed.
Lemma careful_app h1 h2 held room : careful held room (h1 ++ h2) -> careful held room h1.
Proof.
  revert held room. induction h1 as [|[n|n|] h IH]; intros held room; cbn; [auto| | |].
  - intros [? ?]. split; eauto.
  - intros (? & ? & ?). repeat split; eauto.
  - eauto.
Qed.
Lemma careful_safe h1 h2 : careful 0 0 (h1 ++ h2) ->
  let st := ws_run h1 (ws_init, []) in blocks_safe (fst st) (snd st).
Proof.
  intros C. cbv zeta. apply inv_safe. apply careful_inv; [apply init_inv|]. exact (careful_app _ _ _ _ C).
Qed.

Definition fits (n : Z) (gets : list Z) : Prop := (forall k, In k gets -> 0 <= k) /\ total gets <= n.
Lemma careful_gets gets : forall held room h, (forall k, In k gets -> 0 <= k) ->
  held + total gets <= room -> 0 <= held ->
  (forall held', careful held' room (Release :: h)) -> careful held room (map Get gets ++ Release :: h).
Proof.
  induction gets as [|g gets IH]; intros held room h Hk Ht Hh Hr; [apply Hr|].
  cbn [map app careful total] in *. assert (0 <= g) by (apply Hk; now left).
  assert (Hpos : forall l : list Z, (forall k, In k l -> 0 <= k) -> 0 <= total l).
  { clear. induction l as [|a l IHl]; cbn; [lia|]. intros Hl. specialize (IHl (fun k Hk => Hl k (or_intror Hk))).
    specialize (Hl a (or_introl eq_refl)). lia. }
  assert (0 <= total gets) by (apply Hpos; intros; apply Hk; now right).
  split; [auto|split; [lia|]]. apply IH; auto; [|lia|lia]. intros; apply Hk; now right.
Qed.
Lemma sessions_careful l : forall room, (forall n gets, In (n, gets) l -> fits n gets) ->
  careful 0 room (flat_map (fun x => session (fst x) (snd x)) l).
Proof.
  induction l as [|[n gets] l IH]; intros room H; [exact I|].
  cbn [flat_map fst snd]. unfold session at 1. rewrite <- app_comm_cons, <- app_assoc. cbn [app careful].
  split; [now right|]. destruct (H n gets (or_introl eq_refl)) as [F1 F2].
  apply careful_gets; auto; [lia|lia|]. intros held'. cbn [careful]. apply IH. intros; apply H; now right.
Qed.

(** ** callers *)
Definition caller_fits (c : caller) : Prop := fits (reserved c) (taken c).
Lemma fits_list n gets : (Forall (fun k => 0 <= k) gets) -> total gets <= n -> fits n gets.
Proof. intros F T. split; auto. rewrite Forall_forall in F. auto. Qed.
Ltac mulnn := repeat match goal with |- 0 <= _ * _ => apply Z.mul_nonneg_nonneg end; auto.
Lemma callers_fit S X : valid S -> valid_extra S X -> forall c, In c (callers S X) -> caller_fits c.
Proof.
  intros V VX. apply Forall_forall.
  assert (Q : 0 <= NQPFull S).
  { destruct V. unfold NQPFull, NQPFix. apply Z.mul_nonneg_nonneg; [apply Z.mul_nonneg_nonneg|]; auto. }
  assert (Hn : 0 <= Nsize S) by (destruct V; unfold Nsize; lia).
  assert (Hn2 : 0 <= Nsite2 S) by (destruct V; unfold Nsite2; lia).
  assert (Hp : 0 <= NProj S) by (destruct V; unfold NProj; lia).
  assert (Hr : 0 <= xNRBM_PhysLayerIdx X).
  { rewrite (x_r S X VX). destruct V; unfold NRBM_PhysLayerIdx; lia. }
  assert (Hbf : 0 <= 16 * Nsite S * Nrange S) by (destruct V; nia).
  assert (HSl : 0 <= NSlater S) by (destruct V; auto).
  assert (HT : 0 <= NMPTrans S * NQPOptTrans S) by (destruct V; nia).
  assert (HTn : 0 <= NMPTrans S * NQPOptTrans S * Nsize S * Nsize S)
    by (destruct V; mulnn).
  assert (Hnn : 0 <= Nsize S * Nsize S) by nia.
  assert (HQ22 : 0 <= NQPFull S * Nsite2 S * Nsite2 S) by mulnn.
  assert (HQnn : 0 <= NQPFull S * Nsize S * Nsize S) by mulnn.
  assert (HQS : 0 <= NQPFull S * NSlater S) by mulnn.
  assert (Hvec : 0 <= veccg_size (cg_use_imag X) (cg_n X) (cg_ns X)).
  { destruct VX. unfold veccg_size. assert (0 <= cg_ns X * (cg_n X + 1)) by (apply Z.mul_nonneg_nonneg; lia).
    destruct (_ =? _); lia. }
  assert (Hgl : 0 <= NSPGaussLeg S) by (destruct V; auto).
  assert (F0 : FlagRBM S = 0 -> xNRBM_PhysLayerIdx X = 0).
  { intros E. rewrite (x_r S X VX). pose proof (v_norbm S V E). destruct V.
    unfold NRBM, NRBM_PhysLayerIdx, NRBM_HiddenLayerIdx, NRBM_PhysHiddenIdx in *. lia. }
  assert (HF : FlagRBM S = 0 \/ FlagRBM S = 1) by (destruct V; auto).
  assert (Hnn4 : NQPFull S * (Nsize S * Nsize S + 1) = NQPFull S * Nsize S * Nsize S + NQPFull S) by ring.
  assert (Hnt : 2 * (NMPTrans S * NQPOptTrans S) * Nsize S * Nsize S
                = 2 * (NMPTrans S * NQPOptTrans S * Nsize S * Nsize S)) by ring.
  assert (H16 : 16 * NQPFull S * Nsize S * Nsize S = 16 * (NQPFull S * Nsize S * Nsize S)) by ring.
  destruct VX; clear V. unfold callers. rewrite !Forall_app.
  unfold callers_avg, callers_grn, callers_ham, callers_lanczos, callers_matrix, callers_update, callers_slater,
    callers_sr. cbv zeta. rewrite Hnn4, Hnt, H16. clear Hnn4 Hnt H16.
  generalize dependent (NQPFull S * Nsize S * Nsize S). intros QNN HQnn.
  generalize dependent (NMPTrans S * NQPOptTrans S * Nsize S * Nsize S). intros TNN HTn.
  generalize dependent (NQPFull S * Nsite2 S * Nsite2 S). intros Q22 HQ22.
  generalize dependent (NQPFull S * NSlater S). intros QS HQS.
  generalize dependent (16 * Nsite S * Nrange S). intros BF Hbf.
  generalize dependent (Nsize S * Nsize S). intros NN Hnn.
  generalize dependent (veccg_size (cg_use_imag X) (cg_n X) (cg_ns X)). intros VC Hvec.
  cbn [flat_map map app].
  destruct HF as [E|E]; [specialize (F0 E)|clear F0]; rewrite E; cbn [Z.eqb app];
    repeat match goal with |- _ /\ _ => split end.
  all: repeat match goal with
    | |- Forall _ (_ :: _) => apply Forall_cons;
        [apply fits_list; cbn [reserved taken total];
          [repeat match goal with |- Forall _ (_ :: _) => apply Forall_cons; [lia|] end; apply Forall_nil|lia]|]
    | |- Forall _ [] => apply Forall_nil
    end.
Qed.

(** every prefix of a sequence of uses of one pool *)
Lemma callers_safe S X cs h1 h2 : valid S -> valid_extra S X -> Forall (fun c => In c (callers S X)) cs ->
  flat_map (fun c => session (reserved c) (taken c)) cs = h1 ++ h2 ->
  let st := ws_run h1 (ws_init, []) in blocks_safe (fst st) (snd st).
Proof.
  intros V VX F E. apply (careful_safe h1 h2). rewrite <- E.
  replace (flat_map (fun c => session (reserved c) (taken c)) cs) with
    (flat_map (fun x => session (fst x) (snd x)) (map (fun c => (reserved c, taken c)) cs)).
  - apply sessions_careful. intros n gets H. apply in_map_iff in H. destruct H as (c & [= <- <-] & Hc).
    rewrite Forall_forall in F. exact (callers_fit S X V VX c (F c Hc)).
  - clear. induction cs as [|c cs IH]; cbn; [reflexivity|]. now rewrite IH.
Qed.

Lemma init_file_same S : valid S -> filter nz (init_file_sections S) = filter nz (para_pointers S).
Proof.
  intros V. pose proof (flag_rbm_mul S V) as M. destruct V. unfold init_file_sections, para_pointers.
  unfold nz. rewrite M. cbn [filter app len]. rewrite v_pbf. cbn [Z.eqb negb].
  destruct v_flag as [E|E]; rewrite E; cbn [Z.eqb app filter len]; [|reflexivity].
  rewrite (v_norbm E). reflexivity.
Qed.

(** ** the overruns *)
Lemma overrun w live b : In b live -> 0 < b_len b -> num w < b_off b + b_len b -> ~ blocks_safe w live.
Proof. intros Hb Hp Hn [H _]. specialize (H b Hb Hp). lia. Qed.

Lemma calHCACA2_overruns S X : valid S -> FlagRBM S = 0 -> 0 < Ne S ->
  Nsize S * Nsize S + LapackLWork X <= NQPFull S + 3 * Nsize S -> 0 <= LapackLWork X ->
  let c := calHCACA2_thread_complex S X in
  let st := ws_run [Request (reserved c); Get (hd 0 (taken c))]
              (ws_run (session (Nsize S * Nsize S + LapackLWork X) [Nsize S * Nsize S; LapackLWork X]) (ws_init, [])) in
  ~ blocks_safe (fst st) (snd st).
Proof.
  intros V E Hn HL HL0. assert (Q : 0 <= NQPFull S).
  { destruct V. unfold NQPFull, NQPFix. mulnn. }
  assert (N : 0 < Nsize S) by (unfold Nsize; lia).
  assert (NN : 0 < Nsize S * Nsize S) by nia.
  cbv zeta. unfold calHCACA2_thread_complex, session, ws_run, ws_step, ws_request, ws_get, ws_release, ws_init.
  rewrite E, Z.mul_0_l. cbn [Z.eqb reserved taken app hd map fold_left fst snd num now gen].
  rewrite Z.add_0_r.
  destruct (Z.ltb_spec 0 (Nsize S * Nsize S + LapackLWork X)) as [A|A]; [|lia].
  cbn [fst snd num now gen].
  destruct (Z.ltb_spec (Nsize S * Nsize S + LapackLWork X) (NQPFull S + 3 * Nsize S)) as [B|B];
    cbn [fst snd num now gen];
    (eapply overrun; [left; reflexivity|cbn [b_len]; lia|cbn [b_len b_off num]; lia]).
Qed.

Lemma pfMN_child_overruns X n k : 0 < LapackLWork X -> 0 <= n -> n < Z.of_nat k * LapackLWork X ->
  let st := ws_run (pfMN_child_calls X k) (ws_run (session n [n]) (ws_init, [])) in
  ~ blocks_safe (fst st) (snd st).
Proof.
  intros HL Hn Hk. cbv zeta. unfold pfMN_child_calls.
  set (st0 := ws_run _ (ws_init, [])).
  assert (E : num (fst st0) = n /\ now (fst st0) = 0).
  { subst st0. unfold session, ws_run, ws_step, ws_request, ws_get, ws_release, ws_init.
    cbn [map app fold_left fst snd num now gen].
    destruct (Z.ltb_spec 0 n); cbn [fst snd num now gen]; split; lia. }
  assert (Hlive : snd st0 = []) by reflexivity. clearbody st0.
  assert (G : forall j st, num (fst (ws_run (repeat (Get (LapackLWork X)) j) st)) = num (fst st) /\
    now (fst (ws_run (repeat (Get (LapackLWork X)) j) st)) = now (fst st) + Z.of_nat j * LapackLWork X).
  { induction j as [|j IH]; intros st; [cbn; lia|].
    change (ws_run (repeat (Get (LapackLWork X)) (Datatypes.S j)) st)
      with (ws_run (repeat (Get (LapackLWork X)) j) (ws_step st (Get (LapackLWork X)))).
    destruct (IH (ws_step st (Get (LapackLWork X)))) as [-> ->].
    unfold ws_step, ws_get. cbn [fst snd num now]. split; [reflexivity|]. lia. }
  destruct k as [|k]; [lia|].
  replace (Datatypes.S k) with (k + 1)%nat in * by lia. rewrite repeat_app.
  unfold ws_run. rewrite fold_left_app. cbn [repeat fold_left].
  fold (ws_run (repeat (Get (LapackLWork X)) k) st0).
  destruct (G k st0) as [G1 G2]. destruct E as [E1 E2]. rewrite E1 in G1. rewrite E2 in G2.
  destruct (ws_run (repeat (Get (LapackLWork X)) k) st0) as [w live].
  cbn [fst snd] in G1, G2. unfold ws_step, ws_get. cbn [fst snd].
  eapply overrun; [apply in_or_app; right; now left|cbn; lia|]. cbn [b_off b_len num]. rewrite G1, G2. lia.
Qed.

