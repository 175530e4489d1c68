(** Writing the averages. *)
From Coq Require Import ZArith List Bool Lia String Reals.
From Coquelicot Require Import Coquelicot.
From Verif Require Import Base.RSum Base.ZLoop Mem.Model Mem.Spec Mem.Proofs File.Model File.Spec.
Import ListNotations.
Local Open Scope Z_scope.

Section Out.
Variable S : sizes.
Hypothesis V : valid S.
Variables (T smp : Z) (E E2 : Z -> C) (P : Z -> Z -> C).
Hypothesis Hsmp : 1 <= smp.
Hypothesis HT : smp <= T.
Let n := 2 + NPara S.
Definition val (t i : Z) : C := if i =? 0 then E t else if i =? 1 then E2 t else P t (i - 2).
Lemma np : 0 <= NPara S. Proof. exact (NPara_nonneg S V). Qed.

Lemma store_get t s d s' i : 0 <= i < n -> store_opt_data S (E t) (E2 t) (P t) s d (i + n * s') = if s' =? s then Some (val t i) else d (i + n * s').
Proof.
  intros Hi. unfold store_opt_data. cbv zeta. fold n. assert (Hn := np). set (d1 := upd (upd d (n * s + 0) (Some (E t))) (n * s + 1) (Some (E2 t))).
  assert (U : forall i', 0 <= i' < n -> i + n * s' = n * s + i' -> s' = s /\ i' = i). { intros i' Hi' Eq. assert (s' = s) by nia. subst. lia. }
  assert (Hd1 : d1 (i + n * s') = if (s' =? s) && (i <? 2) then Some (val t i) else d (i + n * s')).
  { unfold d1, val. rewrite !upd_get. destruct (Z.eqb_spec (i + n * s') (n * s + 1)) as [X|X].
    - apply U in X; [|lia]. destruct X as [-> <-]. rewrite Z.eqb_refl. reflexivity.
    - destruct (Z.eqb_spec (i + n * s') (n * s + 0)) as [Y|Y].
      + apply U in Y; [|lia]. destruct Y as [-> <-]. rewrite Z.eqb_refl. reflexivity.
      + destruct (Z.eqb_spec s' s) as [->|]; [|reflexivity]. destruct (Z.ltb_spec i 2); [exfalso; lia|reflexivity]. }
  assert (L := loop_inv (fun m (d' : data) => d' (i + n * s') = if (s' =? s) && (i <? 2 + m) then Some (val t i) else d (i + n * s'))
    0 (NPara S) (fun i d => upd d (n * s + (i + 2)) (Some (P t i))) d1 Hn). cbn beta in L.
  refine (eq_trans (L _ _) _); cycle 2.
  - destruct (s' =? s); [|reflexivity]. destruct (Z.ltb_spec i (2 + NPara S)); [reflexivity|unfold n in *; lia].
  - exact Hd1.
  - intros m d' Hm IH. rewrite upd_get. destruct (Z.eqb_spec (i + n * s') (n * s + (m + 2))) as [X|X].
    + apply U in X; [|unfold n; lia]. destruct X as [-> X]. rewrite Z.eqb_refl. replace (i <? 2 + (m + 1)) with true by lia. cbn. unfold val.
      replace (i =? 0) with false by lia. replace (i =? 1) with false by lia. now replace (i - 2) with m by lia.
    + rewrite IH. destruct (Z.eqb_spec s' s) as [->|]; [|reflexivity]. cbn [andb]. assert (i <> m + 2) by (intros ->; apply X; lia). replace (i <? 2 + (m + 1)) with (i <? 2 + m) by lia. reflexivity.
Qed.
Let D := opt_steps S T smp E E2 P.
Lemma data_get s i : 0 <= s < smp -> 0 <= i < n -> D (i + n * s) = Some (val (T - smp + s) i).
Proof.
  intros Hs Hi. unfold D, opt_steps.
  assert (L := loop_inv (fun t (d : data) => T - smp + s < t -> d (i + n * s) = Some (val (T - smp + s) i)) 0 T
    (fun step d => if T - smp <=? step then store_opt_data S (E step) (E2 step) (P step) (step - (T - smp)) d else d) (fun _ => None) ltac:(lia)). cbn beta in L.
  apply L; [lia| |lia]. intros t d Ht IH Hlt. destruct (Z.leb_spec (T - smp) t) as [Hle|Hle].
  - rewrite store_get by exact Hi. destruct (Z.eqb_spec s (t - (T - smp))) as [X|X]; [do 2 f_equal; lia|apply IH; lia].
  - apply IH. lia.
Qed.

Definition ave (i : Z) : C := mean T smp (fun t => val t i).
Definition var (i : Z) : R := sqrt (rsum (zrange (T - smp) T) (fun t => Re ((val t i - ave i) * Cconj (val t i - ave i))%C) / (IZR smp - 1)).
Lemma shift_range : zrange (T - smp) T = map (fun i => i + (T - smp)) (zrange 0 smp).
Proof. rewrite <- zrange_shift. f_equal; lia. Qed.
Lemma ave_var i : 0 <= i < n -> calc_ave_var smp D i n = Some (ave i, var i).
Proof.
  intros Hi. unfold calc_ave_var. cbv zeta.
  assert (S1 : forall m, 0 <= m <= smp -> loop 0 m (fun sample ave => match ave, D (i + n * sample) with Some a, Some x => Some (a + x)%C | _, _ => None end) (Some (RtoC 0)) = Some (csum (zrange 0 m) (fun s => val (s + (T - smp)) i))).
  { intros m Hm. apply (loop_inv (fun k (r : option C) => k <= smp -> r = Some (csum (zrange 0 k) (fun s => val (s + (T - smp)) i))) 0 m); [lia| | |lia].
    - intros _. now rewrite zrange_nil by lia.
    - intros k r Hk IH Hle. rewrite IH by lia. rewrite data_get by lia. rewrite zrange_snoc, csum_app by lia. cbn [csum]. rewrite Cplus_0_r. do 3 f_equal. lia. }
  rewrite S1 by lia. set (a := (csum (zrange 0 smp) (fun s => val (s + (T - smp)) i) / RtoC (IZR smp))%C).
  assert (Ea : a = ave i). { unfold a, ave, mean. rewrite shift_range. f_equal. clear. induction (zrange 0 smp) as [|x l IH]; cbn [csum map]; [reflexivity|now rewrite IH]. }
  assert (S2 : forall m, 0 <= m <= smp -> loop 0 m (fun sample var => match var, D (i + n * sample) with Some v, Some x => Some (v + Re ((x - a) * Cconj (x - a))%C)%R | _, _ => None end) (Some 0%R) = Some (rsum (zrange 0 m) (fun s => Re ((val (s + (T - smp)) i - a) * Cconj (val (s + (T - smp)) i - a))%C))).
  { intros m Hm. apply (loop_inv (fun k (r : option R) => k <= smp -> r = Some (rsum (zrange 0 k) (fun s => Re ((val (s + (T - smp)) i - a) * Cconj (val (s + (T - smp)) i - a))%C))) 0 m); [lia| | |lia].
    - intros _. now rewrite zrange_nil by lia.
    - intros k r Hk IH Hle. rewrite IH by lia. rewrite data_get by lia. rewrite zrange_snoc, rsum_app by lia. cbn [rsum]. rewrite Rplus_0_r. replace (T - smp + k) with (k + (T - smp)) by lia. reflexivity. }
  rewrite S2 by lia. rewrite Ea. unfold var. rewrite shift_range, rsum_map. reflexivity.
Qed.

(** ** what is written *)
Definition triple (i : Z) : list R := [Re (ave i); Im (ave i); var i].
Definition section (c len : Z) : list line := map (fun i => (i, Re (ave (c + i)), Im (ave (c + i)))) (zrange 0 len).
Lemma child_ok sfx head len c all files : 0 <= len -> 0 <= c -> c + len <= n ->
  child smp D sfx head len c n (Some (all, files)) = Some ((all ++ flat_map triple (zrange c (c + len)))%list, (files ++ [(sfx, (head, section c len))])%list).
Proof.
  intros Hl Hc Hn. unfold child.
  assert (L : forall m, 0 <= m <= len -> loop 0 m (fun i st => match st, calc_ave_var smp D (c + i) n with
    | Some (all, body), Some (ave, var) => Some ((all ++ [Re ave; Im ave; var])%list, (body ++ [(i, Re ave, Im ave)])%list) | _, _ => None end) (Some (all, [])) =
    Some ((all ++ flat_map triple (zrange c (c + m)))%list, section c m)).
  { intros m Hm. apply (loop_inv (fun k (r : option (list R * list line)) => k <= len -> r = Some ((all ++ flat_map triple (zrange c (c + k)))%list, section c k)) 0 m); [lia| | |lia].
    - intros _. unfold section. rewrite !zrange_nil by lia. cbn. now rewrite app_nil_r.
    - intros k r Hk IH Hle. rewrite IH by lia. rewrite ave_var by lia. replace (c + (k + 1)) with (c + k + 1) by lia. unfold section. rewrite (zrange_snoc c), (zrange_snoc 0) by lia.
      rewrite flat_map_app, map_app, app_assoc. reflexivity. }
  rewrite L by lia. reflexivity.
Qed.

(** families: suffix, written or not, number in the header, number of parameters *)
Definition fam : Type := string * bool * Z * Z.
Fixpoint written (fams : list fam) (c : Z) : list ofile :=
  match fams with
  | [] => []
  | (sfx, w, head, len) :: fams => if w then (sfx, (head, section c len)) :: written fams (c + len) else written fams c
  end.
Fixpoint total (fams : list fam) : Z := match fams with [] => 0 | (_, w, _, len) :: fams => (if w : bool then len else 0) + total fams end.
Definition lens_ok (fams : list fam) : Prop := forall f, In f fams -> 0 <= snd f.
Lemma total_nonneg fams : lens_ok fams -> 0 <= total fams.
Proof. induction fams as [|[[[s w] h] l] fams IH]; intros H; cbn; [lia|]. assert (0 <= l) by (apply (H (s, w, h, l)); now left). assert (0 <= total fams) by (apply IH; intros f Hf; apply H; now right). destruct w; lia. Qed.
Definition step (st : Z * option out) (f : fam) : Z * option out :=
  let '(sfx, w, head, len) := f in if w then (fst st + len, child smp D sfx head len (fst st) n (snd st)) else st.
Lemma steps_ok fams : forall c files, lens_ok fams -> 0 <= c -> c + total fams <= n ->
  fold_left step fams (c, Some (flat_map triple (zrange 0 c), files)) = (c + total fams, Some (flat_map triple (zrange 0 (c + total fams)), (files ++ written fams c)%list)).
Proof.
  induction fams as [|[[[s w] h] l] fams IH]; intros c files Hl Hc Hn; cbn [fold_left total written step fst snd].
  - rewrite Z.add_0_r, app_nil_r. reflexivity.
  - assert (0 <= l) by (apply (Hl (s, w, h, l)); now left). assert (Hl' : lens_ok fams) by (intros f Hf; apply Hl; now right). assert (Ht := total_nonneg fams Hl'). cbn [total] in Hn. destruct w.
    + rewrite child_ok by lia. rewrite <- flat_map_app, <- zrange_app by lia. rewrite IH by (assumption || lia). rewrite <- app_assoc. cbn [app]. replace (c + (l + total fams)) with (c + l + total fams) by lia. reflexivity.
    + rewrite IH by (assumption || lia). replace (c + (0 + total fams)) with (c + total fams) by lia. reflexivity.
Qed.

Definition fams : list fam :=
  let f sfx head len : fam := (sfx, negb (head =? 0), head, len) in
  [f "gutzwiller"%string (NGutzwillerIdx S) (NGutzwillerIdx S);
   f "jastrow"%string (NJastrowIdx S) (NJastrowIdx S);
   f "doublonHolon2site"%string (NDoublonHolon2siteIdx S) (NDoublonHolon2siteIdx S * 2 * 3);
   f "doublonHolon4site"%string (NDoublonHolon4siteIdx S) (NDoublonHolon4siteIdx S * 2 * 5);
   f "chargeRBM_physlayer"%string (NChargeRBM_PhysLayerIdx S) (NChargeRBM_PhysLayerIdx S);
   f "spinRBM_physlayer"%string (NSpinRBM_PhysLayerIdx S) (NSpinRBM_PhysLayerIdx S);
   f "generalRBM_physlayer"%string (NGeneralRBM_PhysLayerIdx S) (NGeneralRBM_PhysLayerIdx S);
   f "chargeRBM_hiddenlayer"%string (NChargeRBM_HiddenLayerIdx S) (NChargeRBM_HiddenLayerIdx S);
   f "spinRBM_hiddenlayer"%string (NSpinRBM_HiddenLayerIdx S) (NSpinRBM_HiddenLayerIdx S);
   f "generalRBM_hiddenlayer"%string (NGeneralRBM_HiddenLayerIdx S) (NGeneralRBM_HiddenLayerIdx S);
   f "chargeRBM_physhidden"%string (NChargeRBM_PhysHiddenIdx S) (NChargeRBM_PhysHiddenIdx S);
   f "spinRBM_physhidden"%string (NSpinRBM_PhysHiddenIdx S) (NSpinRBM_PhysHiddenIdx S);
   f "generalRBM_physhidden"%string (NGeneralRBM_PhysHiddenIdx S) (NGeneralRBM_PhysHiddenIdx S);
   ("orbital"%string, negb (NSlater S =? 0) && (iFlgOrbitalGeneral S =? 0), NSlater S, NSlater S);
   ("orbitalAntiParallel"%string, negb (NSlater S =? 0) && negb (iFlgOrbitalGeneral S =? 0) && negb (iNOrbitalParallel S =? 0), iNOrbitalAntiParallel S, iNOrbitalAntiParallel S);
   ("orbitalParallel"%string, negb (NSlater S =? 0) && negb (iFlgOrbitalGeneral S =? 0) && negb (iNOrbitalParallel S =? 0), 2 * iNOrbitalParallel S, 2 * iNOrbitalParallel S);
   ("orbital_general"%string, negb (NSlater S =? 0) && negb (iFlgOrbitalGeneral S =? 0) && (iNOrbitalParallel S =? 0), NSlater S, NSlater S);
   f "trans"%string (NOptTrans S) (NOptTrans S)].
Lemma fams_ok : lens_ok fams.
Proof.
  destruct V. intros f Hf. cbv [fams In] in Hf. repeat (destruct Hf as [<-|Hf]; [cbn [snd]; unfold NSlater, NOptTrans; try lia; destruct (0 <? FlagOptTrans S); lia|]). destruct Hf.
Qed.
Lemma skip_zero (a x : Z) : 0 <= x -> (if negb (a =? 0) then x else 0) = if a =? 0 then 0 else x.
Proof. intros _. now destruct (a =? 0). Qed.
Lemma fams_total : total fams = NPara S.
Proof.
  unfold NPara, NProj, NRBM, NRBM_PhysLayerIdx, NRBM_HiddenLayerIdx, NRBM_PhysHiddenIdx. destruct V as [].
  unfold NRBM, NRBM_PhysLayerIdx, NRBM_HiddenLayerIdx, NRBM_PhysHiddenIdx in v_norbm. unfold fams. cbn [total].
  assert (Z0 : forall a, (if negb (a =? 0) then a else 0) = a) by (intros a; destruct (Z.eqb_spec a 0); cbn; lia).
  assert (Z2 : forall a b, (if negb (a =? 0) then a * 2 * b else 0) = a * 2 * b) by (intros a b; destruct (Z.eqb_spec a 0); cbn; lia).
  rewrite !Z0, !Z2. rewrite v_pbf. unfold NSlater.
  destruct (Z.eqb_spec (NOrbitalIdx S) 0) as [O|O]; cbn [negb andb].
  - destruct v_flag as [F|F]; rewrite F; lia.
  - destruct (Z.eqb_spec (iFlgOrbitalGeneral S) 0) as [G|G]; cbn [negb andb].
    + destruct v_flag as [F|F]; rewrite F; lia.
    + destruct (Z.eqb_spec (iNOrbitalParallel S) 0) as [Q|Q]; cbn [negb andb]; [|destruct (v_orb Q) as [_ R]]; destruct v_flag as [F|F]; rewrite F; lia.
Qed.
Lemma output_fold : smp <> 1 -> output_opt_data S smp D = snd (fold_left step fams (2, Some (flat_map triple (zrange 0 2), []))).
Proof.
  intros Hs. unfold output_opt_data. cbv zeta. fold n. destruct (Z.eqb_spec smp 1) as [X|_]; [contradiction|].
  assert (H2 : loop 0 2 (fun i st => match st, calc_ave_var smp D i n with Some all, Some (ave, var) => Some (all ++ [Re ave; Im ave; var])%list | _, _ => None end) (Some []) = Some (flat_map triple (zrange 0 2))).
  { assert (Hn := np). change (zrange 0 2) with [0; 1]. unfold loop. change (zrange 0 2) with [0; 1]. cbn [fold_left]. rewrite !ave_var by (unfold n; lia). reflexivity. }
  rewrite H2. unfold fams, fold_left.
  assert (Fm : forall sfx head len st, step st (sfx, negb (head =? 0), head, len) = family smp D sfx head len n st) by (intros; unfold step, family; now destruct (head =? 0)).
  rewrite !Fm. f_equal. f_equal. cbn [step].
  set (st := family smp D "generalRBM_physhidden" _ _ _ _).
  destruct (NSlater S =? 0); cbn [negb andb]; [reflexivity|]. destruct (iFlgOrbitalGeneral S =? 0); cbn [negb andb]; [reflexivity|]. destruct (iNOrbitalParallel S =? 0); cbn [negb andb]; reflexivity.
Qed.
Lemma output_ok : smp <> 1 -> output_opt_data S smp D = Some (flat_map triple (zrange 0 n), written fams 2).
Proof.
  intros Hs. rewrite output_fold by exact Hs. assert (Hn := np). rewrite steps_ok; [|exact fams_ok|lia|rewrite fams_total; unfold n; lia]. cbn [snd app]. rewrite fams_total. reflexivity.
Qed.
End Out.
