(** The accepted flags. *)
From Coq Require Import ZArith List Bool String Lia.
From Verif Require Import Base.ZLoop Mem.Model Mem.Spec Opt.Model Opt.Spec Opt.Proofs.
From Verif Require File.Spec File.ProofsRej.
Import ListNotations.
Local Open Scope Z_scope.

Lemma nodup_rows S : NoDup (map fst (flag_keywords S)).
Proof. cbv [flag_keywords map fst]. repeat (constructor; [cbn; intuition discriminate|]). constructor. Qed.
Section Acc.
Variable S : sizes.
Variable files : string -> option (bool * list token).
Hypothesis V : valid S.
Hypothesis O : orbital_files S files.
Lemma ap_le : iFlgOrbitalGeneral S = 1 -> iNOrbitalAntiParallel S <= NOrbitalIdx S.
Proof using V O. destruct V. unfold orbital_files in O. cbv zeta in O. lia. Qed.
Lemma row_place e : In e (flag_keywords S) -> named files e = true -> exists h, File.Spec.place S ("In" ++ fst e) = Some (h, first_of e, span e).
Proof using V O.
  intros H N. assert (R := File.ProofsRej.rbm S V). unfold NRBM in R. pose proof (v_pbf S V) as B. pose proof (v_gen S V) as G. pose proof (v_orb S V) as W. unfold orbital_files in O. cbv zeta in O.
  cbv [flag_keywords In] in H.
  assert (X : forall (h a a' b b' : Z), a = a' -> b = b' -> exists h', Some (h, a, b) = Some (h', a', b')) by (intros h a a' b b' -> ->; now exists h).
  repeat (destruct H as [H|H]; [subst e; cbv [named first_of lines_of span fst snd] in *; cbv [File.Spec.place File.Spec.assoc File.Spec.places find option_map snd fst String.eqb Ascii.eqb Bool.eqb append];
    apply X; clear X; unfold NProj, NRBM, NRBM_PhysLayerIdx, NRBM_HiddenLayerIdx, NRBM_PhysHiddenIdx in *; first [lia|destruct (Z.eqb_spec (iFlgOrbitalGeneral S) 0); lia|idtac]|]).
  all: try destruct H.
Qed.
Lemma in_append a b : ("In" ++ a)%string = ("In" ++ b)%string -> a = b.
Proof using. clear. cbn. intros H. now injection H. Qed.
Lemma rows_apart : ForallOrdPairs (fun e e' => named files e = true -> named files e' = true -> forall k, covers e k -> covers e' k -> False) (flag_keywords S).
Proof using V O.
  apply (File.ProofsRej.ord_pairs fst); [apply nodup_rows|]. intros e e' I1 I2 N N1 N2 k C1 C2.
  destruct (row_place e I1 N1) as [h1 P1]. destruct (row_place e' I2 N2) as [h2 P2]. unfold covers in C1, C2.
  refine (File.ProofsRej.places_apart S V ap_le _ _ _ _ _ _ _ _ (k / 2) P1 P2 _ _ _ _).
  - intros E. apply N. now apply in_append.
  - destruct (File.ProofsRej.orb ("In" ++ fst e) && File.ProofsRej.orb ("In" ++ fst e')) eqn:OO; [right|now left]. apply andb_true_iff in OO. destruct OO as [O1 O2].
    unfold File.ProofsRej.orb in O1, O2. cbn [existsb] in O1, O2. rewrite !orb_true_iff, !String.eqb_eq in O1, O2. unfold orbital_files in O. cbv zeta in O. unfold named in N1, N2.
    destruct O1 as [O1|[O1|[O1|[O1|O1]]]]; try discriminate O1; destruct O2 as [O2|[O2|[O2|[O2|O2]]]]; try discriminate O2; rewrite ?O1, ?O2;
      first [right; split; [reflexivity|discriminate]|left; split; [reflexivity|discriminate]|exfalso;
    ((apply N; apply in_append; congruence) || (match type of O1 with _ = String _ (String _ ?x) => apply (in_append _ x) in O1 end; match type of O2 with _ = String _ (String _ ?x) => apply (in_append _ x) in O2 end; rewrite O1 in N1; rewrite O2 in N2; destruct O as [(X1 & X2 & X3 & X4 & _)|(X1 & _ & X2 & _)]; rewrite ?N1, ?N2 in *; discriminate))].
  - assert (D := Z.div_mod k 2 ltac:(lia)). assert (M := Z.mod_pos_bound k 2 ltac:(lia)). lia.
  - assert (D := Z.div_mod k 2 ltac:(lia)). assert (M := Z.mod_pos_bound k 2 ltac:(lia)). lia.
Qed.
Definition part (b : bool) (n : Z) : Z := if b then n else 0.
Lemma part_le b n : 0 <= n -> 0 <= part b n <= n.
Proof. destruct b; cbn; lia. Qed.
Lemma parts_all (l : list (bool * Z)) : List.Forall (fun e => 0 <= snd e) l -> zsum l snd <= zsum l (fun e => part (fst e) (snd e)) -> List.Forall (fun e => 0 < snd e -> fst e = true) l.
Proof using.
  clear. intros F. assert (G : zsum l (fun e => part (fst e) (snd e)) <= zsum l snd). { induction F as [|[b n] l H F IH]; cbn [zsum fst snd] in *; [lia|]. assert (P := part_le b n H). lia. }
  intros K. assert (K' : zsum l snd = zsum l (fun e => part (fst e) (snd e))) by lia. clear K G.
  induction F as [|[b n] l H F IH]; constructor; cbn [zsum fst snd] in *.
  - intros P. destruct b; [reflexivity|]. exfalso. cbn [part] in K'. enough (zsum l (fun e => part (fst e) (snd e)) <= zsum l snd) by lia. clear - F. induction F as [|[b n] l H F IH]; cbn [zsum fst snd] in *; [lia|]. assert (P := part_le b n H). lia.
  - apply IH. assert (P := part_le b n H). enough (zsum l (fun e => part (fst e) (snd e)) <= zsum l snd) by lia. clear - F. induction F as [|[c m] l H F IH]; cbn [zsum fst snd] in *; [lia|]. assert (P := part_le c m H). lia.
Qed.
Lemma covered i : FlagOptTrans S <= 0 -> sum_named files (flag_keywords S) = NPara S -> 0 <= i < NPara S -> exists e, In e (flag_keywords S) /\ named files e = true /\ first_of e <= i < first_of e + span e.
Proof using V O.
  intros T E B. assert (R := File.ProofsRej.rbm S V). rewrite Z.mul_comm in R.
  assert (EN : NPara S = NProj S + NRBM S + NOrbitalIdx S). { unfold NPara, NSlater, NOptTrans. rewrite R, (v_pbf S V). replace (0 <? FlagOptTrans S) with false by lia. lia. }
  rewrite Z.mul_comm in R.
  enough (Z : forall G : Prop, (forall e, In e (flag_keywords S) -> (0 < span e -> named files e = true) -> first_of e <= i < first_of e + span e -> G) -> G).
  { apply Z. intros e I N C. exists e. split; [exact I|]. split; [apply N; lia|exact C]. }
  intros G Q.
  assert (W := v_orb S V).
  rewrite EN in E, B. unfold orbital_files in O. cbv zeta in O. unfold sum_named in E. cbv [flag_keywords zsum span lines_of fst snd named] in E.
  cbv [flag_keywords In span first_of lines_of fst snd named] in Q.
  destruct V. clear v_site v_ne v_tr v_ci v_cj v_hd v_ph v_ex v_nc v_ns v_ng v_bf v_pbf v_range v_qp v_c1 v_c2 v_c3 v_ia v_qo v_gl v_mp v_norbm v_orb.
  unfold NRBM, NProj, NRBM_PhysLayerIdx, NRBM_HiddenLayerIdx, NRBM_PhysHiddenIdx in *.
  repeat match type of E with context [if ?b then ?n else 0] => change (if b then n else 0) with (part b n) in E end.
  assert (E' : part (is_named (files "Orbital"%string)) (iNOrbitalAntiParallel S) + part (is_named (files "OrbitalAntiParallel"%string)) (iNOrbitalAntiParallel S) + part (is_named (files "OrbitalParallel"%string)) (2 * iNOrbitalParallel S) + part (is_named (files "OrbitalGeneral"%string)) (NOrbitalIdx S) <= NOrbitalIdx S).
  { clear Q B E W EN R. destruct O as [(X1 & X2 & X3 & X4 & _)|(X1 & X5 & X2 & X3 & X4)].
    - rewrite X1, X2, X3, X4. cbn [part]. lia.
    - rewrite X1. destruct (is_named (files "Orbital"%string)), (is_named (files "OrbitalAntiParallel"%string)), (is_named (files "OrbitalParallel"%string)); try discriminate X2; cbn [part orb] in *; try specialize (X3 eq_refl); try specialize (X4 eq_refl); lia. }
  assert (L : List.Forall (fun e => 0 < snd e -> fst e = true) [(is_named (files "Gutzwiller"%string), NGutzwillerIdx S); (is_named (files "Jastrow"%string), NJastrowIdx S); (is_named (files "DH2"%string), 2 * 3 * NDoublonHolon2siteIdx S); (is_named (files "DH4"%string), 2 * 5 * NDoublonHolon4siteIdx S); (is_named (files "ChargeRBM_HiddenLayer"%string), NChargeRBM_HiddenLayerIdx S); (is_named (files "ChargeRBM_PhysLayer"%string), NChargeRBM_PhysLayerIdx S); (is_named (files "ChargeRBM_PhysHidden"%string), NChargeRBM_PhysHiddenIdx S); (is_named (files "SpinRBM_HiddenLayer"%string), NSpinRBM_HiddenLayerIdx S); (is_named (files "SpinRBM_PhysLayer"%string), NSpinRBM_PhysLayerIdx S); (is_named (files "SpinRBM_PhysHidden"%string), NSpinRBM_PhysHiddenIdx S); (is_named (files "GeneralRBM_HiddenLayer"%string), NGeneralRBM_HiddenLayerIdx S); (is_named (files "GeneralRBM_PhysLayer"%string), NGeneralRBM_PhysLayerIdx S); (is_named (files "GeneralRBM_PhysHidden"%string), NGeneralRBM_PhysHiddenIdx S)]).
  { apply parts_all; [repeat (constructor; [cbn [snd]; lia|]); constructor|cbn [zsum fst snd]; clear - E E'; lia]. }
  apply Forall_cons_iff in L. destruct L as [A0 L]. cbn [fst snd] in A0. apply Forall_cons_iff in L. destruct L as [A1 L]. cbn [fst snd] in A1. apply Forall_cons_iff in L. destruct L as [A2 L]. cbn [fst snd] in A2. apply Forall_cons_iff in L. destruct L as [A3 L]. cbn [fst snd] in A3. apply Forall_cons_iff in L. destruct L as [A4 L]. cbn [fst snd] in A4. apply Forall_cons_iff in L. destruct L as [A5 L]. cbn [fst snd] in A5. apply Forall_cons_iff in L. destruct L as [A6 L]. cbn [fst snd] in A6. apply Forall_cons_iff in L. destruct L as [A7 L]. cbn [fst snd] in A7. apply Forall_cons_iff in L. destruct L as [A8 L]. cbn [fst snd] in A8. apply Forall_cons_iff in L. destruct L as [A9 L]. cbn [fst snd] in A9. apply Forall_cons_iff in L. destruct L as [A10 L]. cbn [fst snd] in A10. apply Forall_cons_iff in L. destruct L as [A11 L]. cbn [fst snd] in A11. apply Forall_cons_iff in L. destruct L as [A12 L]. cbn [fst snd] in A12. clear L E E' v_flag.
  clear V. rewrite R in Q. clear R EN W T.
  destruct (Z_lt_le_dec i (NGutzwillerIdx S)) as [L|M0]. { eapply Q; [left; reflexivity|exact A0|clear - L B; cbv beta iota; lia]. }
  destruct (Z_lt_le_dec i (NGutzwillerIdx S + NJastrowIdx S)) as [L|M1]. { eapply Q; [right; left; reflexivity|exact A1|clear - L M0; cbv beta iota; lia]. }
  destruct (Z_lt_le_dec i (NGutzwillerIdx S + NJastrowIdx S + 2 * 3 * NDoublonHolon2siteIdx S)) as [L|M2]. { eapply Q; [right; right; left; reflexivity|exact A2|clear - L M1; cbv beta iota; lia]. }
  destruct (Z_lt_le_dec i (NGutzwillerIdx S + NJastrowIdx S + 2 * 3 * NDoublonHolon2siteIdx S + 2 * 5 * NDoublonHolon4siteIdx S)) as [L|M3]. { eapply Q; [right; right; right; left; reflexivity|exact A3|clear - L M2; cbv beta iota; lia]. }
  destruct (Z_lt_le_dec i (NGutzwillerIdx S + NJastrowIdx S + 2 * 3 * NDoublonHolon2siteIdx S + 2 * 5 * NDoublonHolon4siteIdx S + NChargeRBM_PhysLayerIdx S)) as [L|M4]. { eapply Q; [right; right; right; right; right; left; reflexivity|exact A5|clear - L M3; cbv beta iota; lia]. }
  destruct (Z_lt_le_dec i (NGutzwillerIdx S + NJastrowIdx S + 2 * 3 * NDoublonHolon2siteIdx S + 2 * 5 * NDoublonHolon4siteIdx S + NChargeRBM_PhysLayerIdx S + NSpinRBM_PhysLayerIdx S)) as [L|M5]. { eapply Q; [right; right; right; right; right; right; right; right; left; reflexivity|exact A8|clear - L M4; cbv beta iota; lia]. }
  destruct (Z_lt_le_dec i (NGutzwillerIdx S + NJastrowIdx S + 2 * 3 * NDoublonHolon2siteIdx S + 2 * 5 * NDoublonHolon4siteIdx S + NChargeRBM_PhysLayerIdx S + NSpinRBM_PhysLayerIdx S + NGeneralRBM_PhysLayerIdx S)) as [L|M6]. { eapply Q; [right; right; right; right; right; right; right; right; right; right; right; left; reflexivity|exact A11|clear - L M5; cbv beta iota; lia]. }
  destruct (Z_lt_le_dec i (NGutzwillerIdx S + NJastrowIdx S + 2 * 3 * NDoublonHolon2siteIdx S + 2 * 5 * NDoublonHolon4siteIdx S + NChargeRBM_PhysLayerIdx S + NSpinRBM_PhysLayerIdx S + NGeneralRBM_PhysLayerIdx S + NChargeRBM_HiddenLayerIdx S)) as [L|M7]. { eapply Q; [right; right; right; right; left; reflexivity|exact A4|clear - L M6; cbv beta iota; lia]. }
  destruct (Z_lt_le_dec i (NGutzwillerIdx S + NJastrowIdx S + 2 * 3 * NDoublonHolon2siteIdx S + 2 * 5 * NDoublonHolon4siteIdx S + NChargeRBM_PhysLayerIdx S + NSpinRBM_PhysLayerIdx S + NGeneralRBM_PhysLayerIdx S + NChargeRBM_HiddenLayerIdx S + NSpinRBM_HiddenLayerIdx S)) as [L|M8]. { eapply Q; [right; right; right; right; right; right; right; left; reflexivity|exact A7|clear - L M7; cbv beta iota; lia]. }
  destruct (Z_lt_le_dec i (NGutzwillerIdx S + NJastrowIdx S + 2 * 3 * NDoublonHolon2siteIdx S + 2 * 5 * NDoublonHolon4siteIdx S + NChargeRBM_PhysLayerIdx S + NSpinRBM_PhysLayerIdx S + NGeneralRBM_PhysLayerIdx S + NChargeRBM_HiddenLayerIdx S + NSpinRBM_HiddenLayerIdx S + NGeneralRBM_HiddenLayerIdx S)) as [L|M9]. { eapply Q; [right; right; right; right; right; right; right; right; right; right; left; reflexivity|exact A10|clear - L M8; cbv beta iota; lia]. }
  destruct (Z_lt_le_dec i (NGutzwillerIdx S + NJastrowIdx S + 2 * 3 * NDoublonHolon2siteIdx S + 2 * 5 * NDoublonHolon4siteIdx S + NChargeRBM_PhysLayerIdx S + NSpinRBM_PhysLayerIdx S + NGeneralRBM_PhysLayerIdx S + NChargeRBM_HiddenLayerIdx S + NSpinRBM_HiddenLayerIdx S + NGeneralRBM_HiddenLayerIdx S + NChargeRBM_PhysHiddenIdx S)) as [L|M10]. { eapply Q; [right; right; right; right; right; right; left; reflexivity|exact A6|clear - L M9; cbv beta iota; lia]. }
  destruct (Z_lt_le_dec i (NGutzwillerIdx S + NJastrowIdx S + 2 * 3 * NDoublonHolon2siteIdx S + 2 * 5 * NDoublonHolon4siteIdx S + NChargeRBM_PhysLayerIdx S + NSpinRBM_PhysLayerIdx S + NGeneralRBM_PhysLayerIdx S + NChargeRBM_HiddenLayerIdx S + NSpinRBM_HiddenLayerIdx S + NGeneralRBM_HiddenLayerIdx S + NChargeRBM_PhysHiddenIdx S + NSpinRBM_PhysHiddenIdx S)) as [L|M11]. { eapply Q; [right; right; right; right; right; right; right; right; right; left; reflexivity|exact A9|clear - L M10; cbv beta iota; lia]. }
  destruct (Z_lt_le_dec i (NGutzwillerIdx S + NJastrowIdx S + 2 * 3 * NDoublonHolon2siteIdx S + 2 * 5 * NDoublonHolon4siteIdx S + NChargeRBM_PhysLayerIdx S + NSpinRBM_PhysLayerIdx S + NGeneralRBM_PhysLayerIdx S + NChargeRBM_HiddenLayerIdx S + NSpinRBM_HiddenLayerIdx S + NGeneralRBM_HiddenLayerIdx S + NChargeRBM_PhysHiddenIdx S + NSpinRBM_PhysHiddenIdx S + NGeneralRBM_PhysHiddenIdx S)) as [L|M12]. { eapply Q; [right; right; right; right; right; right; right; right; right; right; right; right; left; reflexivity|exact A12|clear - L M11; cbv beta iota; lia]. }
  destruct O as [(X1 & X2 & X3 & X4 & _)|(X1 & X5 & X2 & X3 & X4)].
  - eapply Q; [do 16 right; left; reflexivity|intros _; exact X1|clear - B M12; cbv beta iota; lia].
  - destruct (Z_lt_le_dec i (NGutzwillerIdx S + NJastrowIdx S + 2 * 3 * NDoublonHolon2siteIdx S + 2 * 5 * NDoublonHolon4siteIdx S + NChargeRBM_PhysLayerIdx S + NSpinRBM_PhysLayerIdx S + NGeneralRBM_PhysLayerIdx S + NChargeRBM_HiddenLayerIdx S + NSpinRBM_HiddenLayerIdx S + NGeneralRBM_HiddenLayerIdx S + NChargeRBM_PhysHiddenIdx S + NSpinRBM_PhysHiddenIdx S + NGeneralRBM_PhysHiddenIdx S + iNOrbitalAntiParallel S)) as [L|M13].
    + destruct (is_named (files "Orbital"%string)) eqn:Y1; [eapply Q; [do 13 right; left; reflexivity|intros _; exact Y1|clear - L M12; cbv beta iota; lia]|]. destruct (is_named (files "OrbitalAntiParallel"%string)) eqn:Y2; [eapply Q; [do 14 right; left; reflexivity|intros _; exact Y2|clear - L M12; cbv beta iota; lia]|]. cbn in X3. specialize (X3 eq_refl). clear - L M12 X3. lia.
    + destruct (is_named (files "OrbitalParallel"%string)) eqn:Y1; [eapply Q; [do 15 right; left; reflexivity|intros _; exact Y1|clear - B X5 M13; cbv beta iota; lia]|]. specialize (X4 eq_refl). clear - B X5 X4 M13. lia.
Qed.
Variable cflag : string -> Z.
Variable fuel : nat.
Hypothesis T : FlagOptTrans S <= 0.
Hypothesis F : forall k p, files k = Some p -> exists l, snd p = flag_lines l.
Lemma flags_ok opt i : read_flags S files cflag fuel = Accepted opt -> 0 <= i < NPara S ->
  exists kw h first num l x f, File.Spec.place S ("In" ++ kw) = Some (h, first, num) /\ first <= i < first + num /\ files kw = Some (true, flag_lines l) /\
    Z.of_nat (List.length l) = (if String.eqb kw "OrbitalParallel" then num / 2 else num) /\
    nth_error l (Z.to_nat (if String.eqb kw "OrbitalParallel" then (i - first) / 2 else i - first)) = Some (x, f) /\
    opt (2 * i) = Some f /\ opt (2 * i + 1) = (if String.eqb kw "OrbitalParallel" then Some (cflag kw) else if 0 <? cflag kw then Some f else None).
Proof using V O T F.
  intros H B. unfold read_flags in H. destruct (fold_left _ _ _) as [[[o c] inf]| |] eqn:E in H; try discriminate H. cbn [bind] in H. unfold opt_trans in H. replace (0 <? FlagOptTrans S) with false in H by lia. rewrite andb_false_r in H. cbn [bind] in H.
  destruct (inf || negb (c =? NPara S)) eqn:K; [discriminate|]. injection H as ->. apply orb_false_iff in K. destruct K as [-> K]. apply negb_false_iff, Z.eqb_eq in K. subst c.
  destruct (rows_ok S files cflag fuel F _ _ _ _ _ _ E rows_apart) as (_ & EC & _ & Q). destruct (covered i T (eq_sym EC) B) as (e & I & N & C).
  destruct (row_place e I N) as [h P].
  assert (PAR : String.eqb (fst e) "OrbitalParallel" = fst (fst (snd e))). { cbv [flag_keywords In] in I. repeat (destruct I as [<-|I]; [reflexivity|]). destruct I. }
  assert (LN : lines_of e <> 0). { intros Z0. unfold span in C. rewrite Z0 in C. destruct (fst (fst (snd e))); lia. }
  destruct (Q e I N LN) as (l & G & L & R).
  set (j := if fst (fst (snd e)) then (i - first_of e) / 2 else i - first_of e).
  assert (J : 0 <= j < Z.of_nat (List.length l)).
  { rewrite L. unfold j, span in *. destruct (fst (fst (snd e))); [|lia]. split; [apply Z.div_pos; lia|apply Z.div_lt_upper_bound; lia]. }
  destruct (nth_error l (Z.to_nat j)) as [[x f]|] eqn:NE. 2:{ apply nth_error_None in NE. lia. }
  exists (fst e), h, (first_of e), (span e), l, x, f. rewrite PAR. fold j. split; [exact P|]. split; [exact C|]. split; [exact G|]. split.
  { unfold span. destruct (fst (fst (snd e))); [|exact L]. rewrite Z.mul_comm, Z.div_mul by lia. exact L. }
  split; [exact NE|].
  assert (A1 : covers e (2 * i)) by (unfold covers; lia). assert (A2 : covers e (2 * i + 1)) by (unfold covers; lia).
  rewrite (R _ A1), (R _ A2). unfold left. unfold covers, span in A1, A2. unfold j in *. clear j. destruct (fst (fst (snd e))).
  - unfold after_parallel. rewrite L. replace ((2 * first_of e <=? 2 * i) && (2 * i <? 2 * (first_of e + 2 * lines_of e))) with true by lia. replace ((2 * first_of e <=? 2 * i + 1) && (2 * i + 1 <? 2 * (first_of e + 2 * lines_of e))) with true by lia.
    replace (2 * i + 1) with (1 + i * 2) by lia. rewrite Z.mod_add by lia. replace (2 * i) with (i * 2) by lia. rewrite Z.mod_mul, Z.div_mul by lia. cbn [Z.eqb]. change (1 mod 2 =? 0) with false. cbv iota. split; [|reflexivity]. unfold flag_at. now rewrite NE.
  - unfold after. rewrite L. replace ((2 * first_of e <=? 2 * i) && (2 * i <? 2 * (first_of e + lines_of e))) with true by lia. replace ((2 * first_of e <=? 2 * i + 1) && (2 * i + 1 <? 2 * (first_of e + lines_of e))) with true by lia.
    replace (2 * i + 1) with (1 + i * 2) by lia. rewrite Z.mod_add, Z.div_add by lia. replace (2 * i) with (i * 2) by lia. rewrite Z.mod_mul, Z.div_mul by lia. change (1 mod 2 =? 0) with false. change (1 / 2) with 0. cbn [Z.eqb orb Z.add]. unfold flag_at. rewrite NE. cbn [option_map snd]. split; [reflexivity|]. destruct (0 <? cflag (fst e)); reflexivity.
Qed.
End Acc.
