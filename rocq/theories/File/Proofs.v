(** Round trips. *)
From Coq Require Import ZArith List Bool Lia String Reals.
From Coquelicot Require Import Coquelicot.
From Verif Require Import Base.RSum Base.ZLoop Mem.Model Mem.Spec Mem.Proofs File.Model File.Spec File.ProofsOut File.ProofsIn.
Import ListNotations.
Local Open Scope Z_scope.

Lemma some_pair {A B} (a a' : A) (b b' : B) : Some (a, b) = Some (a', b') -> a = a' /\ b = b'.
Proof. intros H. now injection H. Qed.

Section Trip.
Variable S : sizes.
Hypothesis V : valid S.
Variables (T smp : Z) (E E2 : Z -> C) (P : Z -> Z -> C).
Hypothesis Hsmp : 2 <= smp.
Hypothesis HT : smp <= T.
Let av := ave T smp E E2 P.
Let va := var T smp E E2 P.
Lemma av_mean j : 0 <= j -> av (2 + j) = mean T smp (fun t => P t j).
Proof.
  intros Hj. unfold av, ave, mean. f_equal. apply csum_ext. intros t _. unfold val. replace (2 + j =? 0) with false by lia. replace (2 + j =? 1) with false by lia. f_equal. lia.
Qed.
Lemma trip_single all files garbage p : output_opt_data S smp (opt_steps S T smp E E2 P) = Some (all, files) ->
  exists p', read_init_parameter S all garbage p = Some p' /\ forall j, p' j = if (0 <=? j) && (j <? NPara S) then mean T smp (fun t => P t j) else p j.
Proof.
  rewrite (output_ok S V T smp E E2 P) by lia. intros H. apply some_pair in H. destruct H as [<- _]. destruct (read_init_ok S V av va garbage p) as (p' & R & Q). exists p'. split; [exact R|].
  intros j. rewrite Q. destruct ((0 <=? j) && (j <? NPara S)) eqn:B; [apply av_mean; lia|reflexivity].
Qed.

(** ** files of the families *)
Lemma section_sect c num : section T smp E E2 P c num = sect av (c - 2) num.
Proof. unfold section, sect. apply map_ext. intros i. replace (2 + (c - 2) + i) with (c + i) by lia. reflexivity. Qed.
(** a written family has a keyword that reads it to its place *)
Fixpoint chain (fams : list fam) (c : Z) : Prop :=
  match fams with
  | [] => True
  | (sfx, w, head, len) :: fams =>
      (w = true -> exists kw check off num, input_of kw = Some sfx /\ In (kw, Some (check, off, num)) (input_keywords S) /\ off = c - 2 /\ num = len /\ check head = true) /\
      chain fams (if w : bool then c + len else c)
  end.
Ltac kwd k := intros Hw; exists k; do 3 eexists; split; [reflexivity|]; split; [cbv [input_keywords In]; repeat (first [left; reflexivity|right])|].
Lemma fams_chain : chain (fams S) 2.
Proof.
  destruct V. unfold fams. cbn [chain]. unfold NSlater.
  assert (Z0 : forall c a : Z, (if negb (a =? 0) then c + a else c) = c + a) by (intros c a; destruct (Z.eqb_spec a 0); cbn; lia).
  assert (Z2 : forall c a b : Z, (if negb (a =? 0) then c + a * 2 * b else c) = c + a * 2 * b) by (intros c a b; destruct (Z.eqb_spec a 0); cbn; lia).
  rewrite !Z0, !Z2.
  assert (NR : NRBM S = FlagRBM S * NRBM S) by (destruct v_flag as [F|F]; rewrite F; [rewrite (v_norbm F)|]; lia).
  split; [kwd "InGutzwiller"%string; unfold is_count, off_Proj; lia|]. split; [kwd "InJastrow"%string; unfold is_count, off_Proj; lia|].
  split; [kwd "InDH2"%string; unfold is_count, off_Proj; lia|]. split; [kwd "InDH4"%string; unfold is_count, off_Proj; lia|].
  split; [kwd "InChargeRBM_PhysLayer"%string; unfold is_count, off_RBM, NProj; lia|]. split; [kwd "InSpinRBM_PhysLayer"%string; unfold is_count, off_RBM, NProj; lia|].
  split; [kwd "InGeneralRBM_PhysLayer"%string; unfold is_count, off_RBM, NProj; lia|].
  split; [kwd "InChargeRBM_HiddenLayer"%string; unfold is_count, off_RBM, NRBM_PhysLayerIdx, NProj; lia|]. split; [kwd "InSpinRBM_HiddenLayer"%string; unfold is_count, off_RBM, NRBM_PhysLayerIdx, NProj; lia|].
  split; [kwd "InGeneralRBM_HiddenLayer"%string; unfold is_count, off_RBM, NRBM_PhysLayerIdx, NProj; lia|].
  split; [kwd "InChargeRBM_PhysHidden"%string; unfold is_count, off_RBM, NRBM_PhysLayerIdx, NRBM_HiddenLayerIdx, NProj; lia|].
  split; [kwd "InSpinRBM_PhysHidden"%string; unfold is_count, off_RBM, NRBM_PhysLayerIdx, NRBM_HiddenLayerIdx, NProj; lia|].
  split; [kwd "InGeneralRBM_PhysHidden"%string; unfold is_count, off_RBM, NRBM_PhysLayerIdx, NRBM_HiddenLayerIdx, NProj; lia|].
  match goal with |- context [(_ -> exists kw check off num, _ = Some "orbital"%string /\ _ /\ off = ?e - 2 /\ _)] => set (c := e) end.
  assert (Hc : c = 2 + off_Slater S). { unfold c, off_Slater. rewrite <- NR, v_pbf. unfold NRBM, NRBM_PhysLayerIdx, NRBM_HiddenLayerIdx, NRBM_PhysHiddenIdx, NProj. lia. }
  clearbody c. subst c. unfold NSlater in *.
  assert (Hot : off_OptTrans S = off_Slater S + NOrbitalIdx S) by (unfold off_OptTrans, off_Slater, NSlater; lia).
  destruct (Z.eqb_spec (NOrbitalIdx S) 0) as [O|O]; cbn [negb andb].
  { do 4 (split; [discriminate|]). split; [|exact I]. kwd "InOptTrans"%string. unfold is_count. lia. }
  destruct (Z.eqb_spec (iFlgOrbitalGeneral S) 0) as [G|G]; cbn [negb andb].
  { split; [kwd "InOrbital"%string; rewrite G; cbn [Z.ltb Z.compare]; unfold is_count; lia|]. do 3 (split; [discriminate|]). split; [|exact I]. kwd "InOptTrans"%string. unfold is_count. lia. }
  assert (G1 : iFlgOrbitalGeneral S = 1) by lia. split; [discriminate|].
  destruct (Z.eqb_spec (iNOrbitalParallel S) 0) as [Q|Q]; cbn [negb andb].
  - do 2 (split; [discriminate|]). split; [kwd "InOrbitalGeneral"%string; unfold is_count; lia|]. split; [|exact I]. kwd "InOptTrans"%string. unfold is_count. lia.
  - destruct (v_orb Q) as [_ R]. split; [kwd "InOrbitalAntiParallel"%string; rewrite G1; cbn [Z.ltb Z.compare]; unfold is_count; lia|].
    split. { kwd "InOrbitalParallel"%string. unfold is_double. rewrite Z.mul_comm, Z.quot_mul by lia. lia. }
    split; [discriminate|]. split; [|exact I]. kwd "InOptTrans"%string. unfold is_count. lia.
Qed.
Lemma keywords_nodup : NoDup (map fst (input_keywords S)).
Proof. cbv [input_keywords map fst]. repeat (constructor; [cbn; intuition discriminate|]). constructor. Qed.
Lemma keyword_unique k f1 f2 : In (k, f1) (input_keywords S) -> In (k, f2) (input_keywords S) -> f1 = f2.
Proof.
  intros H1 H2. apply In_nth_error in H1. apply In_nth_error in H2. destruct H1 as [i H1]. destruct H2 as [j H2].
  assert (i = j). { apply (proj1 (NoDup_nth_error _) keywords_nodup); [rewrite map_length; apply nth_error_Some; rewrite H1; discriminate|]. now rewrite !nth_error_map, H1, H2. }
  subst j. rewrite H1 in H2. now injection H2.
Qed.
Lemma input_of_inj k k' s : input_of k = Some s -> input_of k' = Some s -> k = k'.
Proof.
  unfold input_of, assoc. set (L := [("InGutzwiller", "gutzwiller"); _; _; _; _; _; _; _; _; _; _; _; _; _; _; _; _; _]%string).
  assert (N : NoDup (map snd L)) by (cbv [L map snd]; repeat (constructor; [cbn; intuition discriminate|]); constructor).
  intros H1 H2. destruct (find (fun e => String.eqb (fst e) k) L) as [[a b]|] eqn:F1; [|discriminate]. destruct (find (fun e => String.eqb (fst e) k') L) as [[a' b']|] eqn:F2; [|discriminate].
  cbn in H1, H2. injection H1 as ->. injection H2 as ->. apply find_some in F1. apply find_some in F2. destruct F1 as [I1 E1]. destruct F2 as [I2 E2']. cbn in E1, E2'. apply String.eqb_eq in E1. apply String.eqb_eq in E2'. subst a a'.
  apply In_nth_error in I1. apply In_nth_error in I2. destruct I1 as [i H1]. destruct I2 as [j H2].
  assert (i = j). { apply (proj1 (NoDup_nth_error _) N); [rewrite map_length; apply nth_error_Some; rewrite H1; discriminate|]. now rewrite !nth_error_map, H1, H2. }
  subst j. rewrite H1 in H2. now injection H2.
Qed.
(** what is looked up was written *)
Lemma written_lookup l : forall c sfx head body, lens_ok l -> chain l c -> 2 <= c -> c + total l <= 2 + NPara S -> assoc sfx (written T smp E E2 P l c) = Some (head, body) ->
  exists kw check off num, input_of kw = Some sfx /\ In (kw, Some (check, off, num)) (input_keywords S) /\ check head = true /\ body = sect av off num /\ 0 <= off /\ 0 <= num /\ off + num <= NPara S.
Proof.
  induction l as [|[[[s w] h] len] l IH]; intros c sfx head body Hl Hch Hc Ht; cbn [written]; [discriminate|]. cbn [chain] in Hch. destruct Hch as [H1 H2]. cbn [total] in Ht.
  assert (Hlen : 0 <= len) by (apply (Hl (s, w, h, len)); now left). assert (Hl' : lens_ok l) by (intros f Hf; apply Hl; now right). assert (Hlt := total_nonneg S l Hl').
  destruct w; [|intros H; apply (IH c); [exact Hl'|exact H2|exact Hc|lia|exact H]].
  unfold assoc. cbn [find fst]. destruct (String.eqb_spec s sfx) as [->|N].
  - cbn [option_map snd]. intros X. apply some_pair in X. destruct X as [<- <-]. destruct (H1 eq_refl) as (kw & check & off & num & K1 & K2 & -> & -> & K3). exists kw, check, (c - 2), len. rewrite section_sect. repeat split; try assumption; lia.
  - intros H. apply (IH (c + len)); [exact Hl'|exact H2|lia|lia|exact H].
Qed.
(** every parameter is in a written family *)
Lemma written_cover l : forall c j, lens_ok l -> chain l c -> c <= j < c + total l -> NoDup (map (fun f => fst (fst (fst f))) l) ->
  exists kw check off num sfx head body, input_of kw = Some sfx /\ In (kw, Some (check, off, num)) (input_keywords S) /\ assoc sfx (written T smp E E2 P l c) = Some (head, body) /\ off <= j - 2 < off + num.
Proof.
  induction l as [|[[[s w] h] len] l IH]; intros c j Hl Hch Hj Hnd; cbn [total] in Hj; [lia|]. cbn [chain] in Hch. destruct Hch as [H1 H2]. cbn [written]. inversion Hnd as [|? ? Hn1 Hn2]; subst. cbn [fst] in Hn1.
  assert (Hl' : lens_ok l) by (intros f Hf; apply Hl; now right). destruct w; [|apply (IH c j Hl' H2); [lia|exact Hn2]].
  destruct (Z_lt_ge_dec j (c + len)) as [B|B].
  - destruct (H1 eq_refl) as (kw & check & off & num & K1 & K2 & -> & -> & K3). exists kw, check, (c - 2), len, s, h, (section T smp E E2 P c len). split; [exact K1|]. split; [exact K2|].
    split; [unfold assoc; cbn [find fst]; rewrite String.eqb_refl; reflexivity|lia].
  - destruct (IH (c + len) j Hl' H2 ltac:(lia) Hn2) as (kw & check & off & num & sfx & head & body & K1 & K2 & K3 & K4). exists kw, check, off, num, sfx, head, body. split; [exact K1|]. split; [exact K2|]. split; [|exact K4].
    unfold assoc. cbn [find fst]. destruct (String.eqb_spec s sfx) as [->|N]; [|exact K3]. exfalso. apply Hn1.
    clear - K3. unfold assoc in K3. destruct (find _ _) as [[a b]|] eqn:F; [|discriminate]. apply find_some in F. destruct F as [F1 F2]. cbn in F2. apply String.eqb_eq in F2. subst a.
    revert F1. generalize (c + len). induction l as [|[[[s w] h'] len'] l IH]; intros d; cbn [written map fst]; [easy|]. destruct w; intros X; [destruct X as [X|X]; [injection X as -> _; now left|]|]; right; eapply IH; exact X.
Qed.
Lemma fams_nodup : NoDup (map (fun f => fst (fst (fst f))) (fams S)).
Proof. cbv [fams map fst]. repeat (constructor; [cbn; intuition discriminate|]). constructor. Qed.
Lemma others : forall k, In (k, None) (input_keywords S) -> input_of k = None.
Proof. intros k H. cbv [input_keywords In] in H. repeat (destruct H as [H|H]; [first [discriminate|injection H as <-; reflexivity]|]). destruct H. Qed.
Lemma family_keyword : forall k f, In (k, Some f) (input_keywords S) -> exists s, input_of k = Some s.
Proof. intros k f H. cbv [input_keywords In] in H. repeat (destruct H as [H|H]; [first [discriminate|injection H as <- _; eexists; reflexivity]|]). destruct H. Qed.
Lemma trip_families all files names re0 im0 p : output_opt_data S smp (opt_steps S T smp E E2 P) = Some (all, files) -> uses files names ->
  exists p', read_input_parameters S names re0 im0 p = Done p' /\ forall j, 0 <= j < NPara S -> p' j = mean T smp (fun t => P t j).
Proof.
  rewrite (output_ok S V T smp E E2 P) by lia. intros H U. apply some_pair in H. destruct H as [_ <-]. assert (Hn := NPara_nonneg S V).
  assert (G : List.Forall (good S av names) (input_keywords S)).
  { apply Forall_forall. intros [k f] Hin. unfold good. cbn [fst snd]. specialize (U k). destruct f as [[[check off] num]|].
    - destruct (family_keyword k _ Hin) as [s Hs]. rewrite Hs in U. destruct (assoc s _) as [[head body]|] eqn:A; [right|left; exact U].
      apply written_lookup in A; [|exact (fams_ok S V)|exact fams_chain|lia|rewrite (fams_total S V); lia]. destruct A as (kw & check' & off' & num' & K1 & K2 & K3 & -> & K4).
      assert (kw = k) by (apply (input_of_inj kw k s K1 Hs)). subst kw. assert (X := keyword_unique k _ _ Hin K2). injection X as -> -> ->. exists head. split; [exact U|]. split; [exact K3|exact K4].
    - rewrite (others k Hin) in U. exact U. }
  destruct (read_keywords_ok S av va names re0 im0 (input_keywords S) p G) as (p' & R & Q). exists p'. split; [exact R|]. intros j Hj. rewrite <- av_mean by lia. apply (Q j Hj).
  destruct (written_cover (fams S) 2 (2 + j) (fams_ok S V) fams_chain ltac:(rewrite (fams_total S V); lia) fams_nodup) as (kw & check & off & num & sfx & head & body & K1 & K2 & K3 & K4).
  exists kw, check, off, num, head, body. split; [exact K2|]. split; [specialize (U kw); rewrite K1, K3 in U; exact U|lia].
Qed.
End Trip.
