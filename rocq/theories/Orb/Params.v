From Coq Require Import ZArith List Bool Reals Lia Lra.
From Coquelicot Require Import Complex.
From Verif Require Import Base.ZLoop Base.RSum Pf.Pfaffian Orb.Model Orb.Spec.
Import ListNotations.
Local Open Scope Z_scope.

Section Average.
Variables (n : Z) (T : tables).
Notation idx c := (Idx T (fst (fst c)) (snd (fst c))).
Notation val c := (Cmult (snd c) (RtoC (IZR (Sgn T (fst (fst c)) (snd (fst c)))))).
Notation legal_cells := (legal_cells n T).
Lemma collect_gen cells : legal_cells cells -> forall P m, exists P' m', fold_left (fun st c => collect_cell n T c st) cells (Some (P, m)) = Some (P', m') /\
  forall k, 0 <= k -> P' k = Cplus (P k) (csum (class T cells k) (fun c => val c)) /\ m' k = m k + Z.of_nat (length (class T cells k)).
Proof.
  induction cells as [|c cells IH]; intros HL P m.
  - exists P, m. split; [reflexivity|]. intros k Hk. cbn. split; [ring|lia].
  - assert (HL' : legal_cells cells) by (intros c' Hc'; apply HL; now right).
    destruct c as ((x, y), F). cbn [fold_left collect_cell].
    destruct (HL (x, y, F) (or_introl eq_refl)) as [E|E]; cbn [fst snd] in E.
    + rewrite E. cbn [Z.eqb Pos.eqb]. destruct (IH HL' P m) as (P' & m' & E1 & E2). exists P', m'. split; [exact E1|]. intros k Hk.
      unfold class. cbn [filter fst snd]. destruct (Z.eqb_spec (Idx T x y) k); [lia|]. exact (E2 k Hk).
    + destruct (Z.eqb_spec (Idx T x y) (-1)); [lia|]. destruct (Z.leb_spec 0 (Idx T x y)), (Z.ltb_spec (Idx T x y) n); try lia. cbn [andb].
      destruct (IH HL' (upd P (Idx T x y) (Cplus (P (Idx T x y)) (Cmult F (RtoC (IZR (Sgn T x y)))))) (upd m (Idx T x y) (m (Idx T x y) + 1))) as (P' & m' & E1 & E2).
      exists P', m'. split; [exact E1|]. intros k Hk. destruct (E2 k Hk) as (E3 & E4). rewrite E3, E4. unfold upd, class. cbn [filter fst snd]. rewrite (Z.eqb_sym k).
      destruct (Z.eqb_spec (Idx T x y) k) as [<-|]; [|tauto]. cbn [csum length fst snd]. split; [ring|lia].
Qed.
Lemma collect_is cells : legal_cells cells -> exists P m, collect n T cells = Some (P, m) /\
  forall k, 0 <= k -> P k = csum (class T cells k) (fun c => val c) /\ m k = Z.of_nat (length (class T cells k)).
Proof.
  intros HL. destruct (collect_gen cells HL (fun _ => RtoC 0) (fun _ => 0)) as (P & m & E & Q). exists P, m. split; [exact E|].
  intros k Hk. destruct (Q k Hk) as (-> & ->). split; [ring|lia].
Qed.
Lemma written_is rand eps lo hi cells : legal_cells cells -> 0 <= lo -> exists lines, written n T rand eps lo hi cells = Some lines /\
  Z.of_nat (length lines) = Z.max 0 (hi - lo) /\
  forall k, lo <= k < hi -> nth (Z.to_nat (k - lo)) lines None =
    match class T cells k with [] => None | c => Some (Cplus (mean T c) (RtoC (offset rand eps k))) end.
Proof.
  intros HL Hlo. destruct (collect_is cells HL) as (P & m & E & Q). unfold written. rewrite E. eexists. split; [reflexivity|]. split.
  - rewrite map_length. unfold zrange. rewrite map_length, seq_length. lia.
  - intros k Hk. rewrite (nth_indep _ None (finish rand eps P m 0)) by (rewrite map_length; unfold zrange; rewrite map_length, seq_length; lia).
    rewrite map_nth. replace (nth (Z.to_nat (k - lo)) (zrange lo hi) 0) with k.
    2:{ unfold zrange. rewrite (nth_indep _ 0 ((fun d => lo + Z.of_nat d) 0%nat)) by (rewrite map_length, seq_length; lia).
        rewrite (map_nth (fun d => lo + Z.of_nat d)), seq_nth by lia. lia. }
    unfold finish. destruct (Q k ltac:(lia)) as (-> & ->). unfold mean, offset. destruct (class T cells k) as [|c l] eqn:Ec; [reflexivity|].
    destruct (Z.eqb_spec (Z.of_nat (length (c :: l))) 0) as [E0|_]; [cbn in E0; lia|]. now rewrite INR_IZR_INZ.
Qed.
Lemma csum_constant {A} (l : list A) (f : A -> C) v : (forall c, In c l -> f c = v) -> csum l f = Cmult (RtoC (INR (length l))) v.
Proof.
  induction l as [|a l IH]; intros H; cbn [csum]; [cbn; ring|]. rewrite H, IH by (try (now left); intros; apply H; now right).
  cbn [length]. rewrite S_INR, RtoC_plus. ring.
Qed.
Lemma mean_constant cells v : cells <> [] -> (forall c, In c cells -> val c = v) -> mean T cells = v.
Proof.
  intros Hne H. unfold mean. rewrite (csum_constant cells _ v H).
  assert (N0 : RtoC (INR (length cells)) <> RtoC 0).
  { intros E. apply (f_equal fst) in E. cbn in E. destruct cells; [tauto|]. cbn [length] in E. rewrite S_INR in E. pose proof (pos_INR (length cells)). lra. }
  field. exact N0.
Qed.
End Average.

(** reading the lines back *)
Lemma read_lines_is lines off Sl k : read_lines lines off Sl k = if (off <=? k) && (k <? off + Z.of_nat (length lines)) then nth (Z.to_nat (k - off)) lines None else Sl k.
Proof.
  unfold read_lines.
  set (P := fun (i : Z) (S' : Z -> option C) => S' k = if (off <=? k) && (k <? off + i) then nth (Z.to_nat (k - off)) lines None else Sl k).
  apply (loop_inv P).
  - lia.
  - unfold P. destruct (Z.leb_spec off k), (Z.ltb_spec k (off + 0)); cbn; try reflexivity; lia.
  - unfold P. intros i S' Hi E. unfold upd. destruct (Z.eqb_spec k (off + i)) as [->|Hk].
    + replace (off + i - off) with i by lia. destruct (Z.leb_spec off (off + i)), (Z.ltb_spec (off + i) (off + (i + 1))); cbn; try reflexivity; lia.
    + rewrite E. destruct (Z.leb_spec off k); cbn; [|reflexivity]. destruct (Z.ltb_spec k (off + i)), (Z.ltb_spec k (off + (i + 1))); try reflexivity; lia.
Qed.
