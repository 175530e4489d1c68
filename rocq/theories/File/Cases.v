(** Concrete inputs. *)
From Coq Require Import ZArith List Bool String Lia Reals Lra.
From Coquelicot Require Import Coquelicot.
From Verif Require Import Base.RSum Base.ZLoop Mem.Model Mem.Spec File.Model File.Spec File.ProofsOut File.ProofsRej.
Import ListNotations.
Local Open Scope Z_scope.

(** g Gutzwiller and j Jastrow factors, ap antiparallel and p parallel orbital parameters *)
Definition small (g j ap p : Z) : sizes :=
  {| Nsite := 2; Ne := 1; NTransfer := 2; NCoulombIntra := 0; NCoulombInter := 0; NHundCoupling := 0;
     NPairHopping := 0; NExchangeCoupling := 0; NGutzwillerIdx := g; NJastrowIdx := j;
     NDoublonHolon2siteIdx := 0; NDoublonHolon4siteIdx := 0; FlagRBM := 0; NneuronCharge := 0;
     NneuronSpin := 0; NneuronGeneral := 0; NChargeRBM_PhysLayerIdx := 0; NSpinRBM_PhysLayerIdx := 0;
     NGeneralRBM_PhysLayerIdx := 0; NChargeRBM_HiddenLayerIdx := 0; NSpinRBM_HiddenLayerIdx := 0;
     NGeneralRBM_HiddenLayerIdx := 0; NChargeRBM_PhysHiddenIdx := 0; NSpinRBM_PhysHiddenIdx := 0;
     NGeneralRBM_PhysHiddenIdx := 0; NBackFlowIdx := 0; Nrange := 0; NProjBF := 0; iFlgOrbitalGeneral := if p =? 0 then 0 else 1;
     iNOrbitalAntiParallel := ap; iNOrbitalParallel := p; NOrbitalIdx := ap + 2 * p; NQPTrans := 1; NCisAjs := 0;
     NCisAjsCktAlt := 0; NCisAjsCktAltDC := 0; NInterAll := 0; NQPOptTrans := 1; FlagOptTrans := 0;
     NSPGaussLeg := 1; NMPTrans := 1 |}.
Lemma small_valid g j ap p : 0 <= g -> 0 <= j -> 0 <= ap -> 0 <= p -> valid (small g j ap p).
Proof. intros. constructor; cbn -[Z.mul Z.add]; try lia; try (unfold NRBM, NRBM_HiddenLayerIdx, NRBM_PhysLayerIdx, NRBM_PhysHiddenIdx; cbn; lia); destruct (Z.eqb_spec p 0); lia. Qed.

Definition one_step : list R := [3; 0; 4; 0; 5; 0; 7; 0]%R.
Definition P1 (t j : Z) : C := RtoC (if j =? 0 then 5 else 7).
Lemma one_step_written : output_opt_data (small 2 0 0 0) 1 (opt_steps (small 2 0 0 0) 1 1 (fun _ => RtoC 3) (fun _ => RtoC 4) P1) = Some (one_step, []).
Proof. reflexivity. Qed.
Lemma one_step_read garbage p : exists p', read_init_parameter (small 2 0 0 0) one_step garbage p = Some p' /\ p' 0 = RtoC 7.
Proof. destruct garbage as [[a b] c]. eexists. split; reflexivity. Qed.
Lemma mean_one : mean 1 1 (fun t => P1 t 0) = RtoC 5.
Proof. unfold mean. change (zrange (1 - 1) 1) with [0]. cbn. unfold P1. cbn. apply injective_projections; cbn; field. Qed.
Lemma few_steps E E2 P : output_opt_data (small 1 0 0 0) 2 (opt_steps (small 1 0 0 0) 1 2 E E2 P) = None.
Proof. reflexivity. Qed.

(** two averaged steps, both families *)
Definition P2 (t j : Z) : C := RtoC (IZR (t + j)).
Lemma mean_two : mean 3 2 (fun t => P2 t 1) = RtoC (5 / 2).
Proof. unfold mean. change (zrange (3 - 2) 3) with [1; 2]. unfold csum. cbn [fold_right]. unfold P2. cbn. apply injective_projections; cbn; field. Qed.
Lemma two_steps_written : exists all files, output_opt_data (small 1 2 0 0) 2 (opt_steps (small 1 2 0 0) 3 2 (fun _ => RtoC 3) (fun _ => RtoC 4) P2) = Some (all, files) /\
  map fst files = ["gutzwiller"; "jastrow"]%string /\ map (fun f => fst (snd f)) files = [1; 2] /\ List.length all = 15%nat.
Proof.
  rewrite (output_ok (small 1 2 0 0) (small_valid 1 2 0 0 ltac:(lia) ltac:(lia) ltac:(lia) ltac:(lia)) 3 2 _ _ P2 ltac:(lia) ltac:(lia) ltac:(lia)). do 2 eexists. split; [reflexivity|].
  split; [reflexivity|]. split; reflexivity.
Qed.

(** files of initial values *)
Definition table_of (l : list (string * entry)) (k : string) : entry := match assoc k l with Some e => e | None => Absent end.
Definition two_families : string -> entry := table_of [("InGutzwiller", Given 1 [(0, 3%R, 0%R)]); ("InJastrow", Given 2 [(1, 5%R, 0%R); (0, 4%R, 1%R)]); ("TwoBodyG", Given 9 [])]%string.
Definition wrong_number : string -> entry := table_of [("InGutzwiller", Given 2 [(0, 3%R, 0%R); (1, 4%R, 0%R)]); ("InJastrow", Given 2 [(1, 5%R, 0%R); (0, 4%R, 1%R)])]%string.
Definition ignored : string -> entry := table_of [("InGutzwiller", Given 2 [(0, 3%R, 0%R); (1, 4%R, 0%R)]); ("OneBodyG", Given 1 [])]%string.
Definition no_lines : string -> entry := table_of [("InGutzwiller", Given 1 [])]%string.
Definition odd_header : string -> entry := table_of [("InOrbitalParallel", Given 3 [(0, 3%R, 0%R); (1, 4%R, 0%R)])]%string.
Definition cut_short : string -> entry := table_of [("InGutzwiller", Short)]%string.
Lemma ignored_read re0 im0 p : read_input_parameters (small 1 0 0 0) ignored re0 im0 p = Done p.
Proof. reflexivity. Qed.
Lemma no_lines_read re0 im0 p : read_input_parameters (small 1 1 0 0) no_lines re0 im0 p = Done (upd p 1 (re0, im0)).
Proof. reflexivity. Qed.
Lemma odd_header_read re0 im0 p : read_input_parameters (small 0 0 1 1) odd_header re0 im0 p = Done (upd (upd p 1 (3%R, 0%R)) 2 (4%R, 0%R)).
Proof. reflexivity. Qed.
Lemma cut_short_read re0 im0 p : read_input_parameters (small 1 0 0 0) cut_short re0 im0 p = Unread p.
Proof. reflexivity. Qed.

Lemma table_none l k : (forall e, In e l -> fst e <> k) -> table_of l k = Absent.
Proof.
  unfold table_of, assoc. destruct (find _ l) as [[k' e]|] eqn:F; [|reflexivity]. intros H. apply find_some in F. destruct F as [F1 F2]. apply H in F1. apply String.eqb_eq in F2. now contradiction F1.
Qed.
Definition fitting S (names : string -> entry) : Prop := forall kw, match place S kw with
  | Some (head, _, num) => names kw = Absent \/ exists body, names kw = Given head body /\ fits num body
  | None => names kw = Absent \/ exists head body, names kw = Given head body
  end.
Lemma fits_one a b : fits 1 [(0, a, b)].
Proof. split; [reflexivity|]. split; [repeat constructor; easy|]. intros i a' b' [H|[]]. injection H as <- _ _. lia. Qed.
Lemma fits_two a b c d : fits 2 [(1, a, b); (0, c, d)].
Proof. split; [reflexivity|]. split; [repeat constructor; cbn; intuition discriminate|]. intros i a' b' [H|[H|[]]]; injection H as <- _ _; lia. Qed.
Lemma two_families_fit : fitting (small 1 2 0 0) two_families /\ orbital_once two_families.
Proof.
  split; [|repeat split]. intros kw. destruct (string_dec kw "InGutzwiller") as [->|N1]. { right. eexists. split; [reflexivity|apply fits_one]. }
  destruct (string_dec kw "InJastrow") as [->|N2]. { right. eexists. split; [reflexivity|apply fits_two]. }
  destruct (string_dec kw "TwoBodyG") as [->|N3]. { right. do 2 eexists. reflexivity. }
  assert (A : two_families kw = Absent). { apply table_none. intros e [<-|[<-|[<-|[]]]] <-; cbn in *; congruence. }
  destruct (place (small 1 2 0 0) kw) as [[[h o] n]|]; left; exact A.
Qed.
Lemma two_families_read re0 im0 p : read_input_parameters (small 1 2 0 0) two_families re0 im0 p = Done (upd (upd (upd p 0 (3%R, 0%R)) 2 (5%R, 0%R)) 1 (4%R, 1%R)).
Proof. reflexivity. Qed.
Lemma wrong_number_rest : forall kw, match place (small 1 2 0 0) kw with
  | Some (head, _, num) => wrong_number kw = Absent \/ exists head' body, wrong_number kw = Given head' body /\ (head' = head \/ kw = "InOrbitalParallel"%string -> fits num body)
  | None => wrong_number kw = Absent
  end.
Proof.
  intros kw. destruct (string_dec kw "InGutzwiller") as [->|N1]. { right. do 2 eexists. split; [reflexivity|]. cbn. intros [X|X]; discriminate. }
  destruct (string_dec kw "InJastrow") as [->|N2]. { right. do 2 eexists. split; [reflexivity|]. intros _. apply fits_two. }
  assert (A : wrong_number kw = Absent). { apply table_none. intros e [<-|[<-|[]]] <-; cbn in *; congruence. }
  destruct (place (small 1 2 0 0) kw) as [[[h o] n]|]; [left|]; exact A.
Qed.
