(** Files of initial values that fit, files that do not. *)
From Coq Require Import ZArith List Bool String Lia Reals.
From Coquelicot Require Import Coquelicot.
From Verif Require Import Base.ZLoop Mem.Model Mem.Spec Mem.Proofs File.Model File.Spec.
Import ListNotations.
Local Open Scope Z_scope.

Section Rej.
Variable S : sizes.

(** the lines are applied in turn *)
Definition apply (off : Z) (body : list line) (p : Z -> C) : Z -> C := fold_left (fun p l => upd p (off + fst (fst l)) (snd (fst l), snd l)) body p.
Lemma read_body_lines off num body idx0 re0 im0 p : Z.of_nat (List.length body) = num -> (forall i a b, In (i, a, b) body -> 0 <= off + i < NPara S) ->
  read_body S off num idx0 body re0 im0 p = Some (apply off body p).
Proof.
  intros <-. unfold read_body. match goal with |- context [loop 0 _ ?f _] => set (F := f) end.
  enough (G : forall body c idx0 re0 im0 p, (forall i a b, In (i, a, b) body -> 0 <= off + i < NPara S) ->
    option_map snd (loop c (c + Z.of_nat (List.length body)) F (Some (body, idx0, re0, im0, p))) = Some (apply off body p)).
  { exact (G body 0 idx0 re0 im0 p). }
  clear. induction body as [|[[i a] b] body IH]; intros c idx0 re0 im0 p H.
  - rewrite loop_nil by (cbn; lia). reflexivity.
  - rewrite loop_first by (cbn [List.length]; lia). assert (B : 0 <= off + i < NPara S) by (apply (H i a b); now left).
    replace (F c (Some ((i, a, b) :: body, idx0, re0, im0, p))) with (Some (body, i, a, b, upd p (off + i) (a, b))).
    2: { unfold F. replace ((0 <=? off + i) && (off + i <? NPara S)) with true by lia. reflexivity. }
    replace (c + Z.of_nat (List.length ((i, a, b) :: body))) with (c + 1 + Z.of_nat (List.length body)) by (cbn [List.length]; lia).
    rewrite IH; [reflexivity|]. intros i' a' b' X. apply (H i' a' b'). now right.
Qed.
Lemma apply_out off body : forall p j, (forall i a b, In (i, a, b) body -> j <> off + i) -> apply off body p j = p j.
Proof.
  induction body as [|[[i a] b] body IH]; intros p j H; [reflexivity|]. change (apply off ((i, a, b) :: body) p) with (apply off body (upd p (off + i) (a, b))).
  rewrite IH. { apply upd_other. apply (H i a b). now left. } intros i' a' b' X. apply (H i' a' b'). now right.
Qed.
Lemma apply_in off body : forall p i a b, NoDup (map (fun l : line => fst (fst l)) body) -> In (i, a, b) body -> apply off body p (off + i) = (a, b).
Proof.
  induction body as [|[[i' a'] b'] body IH]; intros p i a b N H; [destruct H|]. change (apply off ((i', a', b') :: body) p) with (apply off body (upd p (off + i') (a', b'))).
  cbn [map fst] in N. inversion N as [|? ? N1 N2]; subst. destruct H as [H|H].
  - injection H as -> -> ->. rewrite apply_out; [apply upd_same|]. intros i2 a2 b2 X Y. apply N1. replace i with i2 by lia. apply (in_map (fun l : line => fst (fst l)) _ _ X).
  - now apply IH.
Qed.

Definition kwrow := (string * option ((Z -> bool) * Z * Z))%type.
Definition ok_row (names : string -> entry) (e : kwrow) : Prop :=
  names (fst e) = Absent \/
  match snd e with
  | None => exists head body, names (fst e) = Given head body
  | Some (check, off, num) => exists head body, names (fst e) = Given head body /\ check head = true /\ fits num body /\ (0 < num -> 0 <= off /\ off + num <= NPara S)
  end.
Definition apart (names : string -> entry) (e e' : kwrow) : Prop :=
  match snd e, snd e' with
  | Some (_, off, num), Some (_, off', num') => is_given (names (fst e)) = true -> is_given (names (fst e')) = true -> forall j, off <= j < off + num -> off' <= j < off' + num' -> False
  | _, _ => True
  end.
Lemma fits_read off num body idx0 re0 im0 p : fits num body -> (0 < num -> 0 <= off /\ off + num <= NPara S) -> read_body S off num idx0 body re0 im0 p = Some (apply off body p).
Proof.
  intros (H1 & H2 & H3) B. apply read_body_lines; [exact H1|]. intros i a b X. specialize (H3 i a b X). lia.
Qed.
Lemma rows_fit names re0 im0 kws : forall p, List.Forall (ok_row names) kws -> ForallOrdPairs (apart names) kws ->
  exists p', read_keywords S kws names re0 im0 0 p = Done p' /\
    (forall j, (forall k check off num, In (k, Some (check, off, num)) kws -> is_given (names k) = true -> ~ off <= j < off + num) -> p' j = p j) /\
    (forall k check off num head body i a b, In (k, Some (check, off, num)) kws -> names k = Given head body -> In (i, a, b) body -> p' (off + i) = (a, b)).
Proof.
  induction kws as [|[k fam] kws IH]; intros p H A; cbn [read_keywords].
  - exists p. split; [reflexivity|]. split; [reflexivity|]. intros ? ? ? ? ? ? ? ? ? [].
  - inversion H as [|? ? H1 H2]; subst. inversion A as [|? ? A1 A2]; subst. unfold ok_row in H1. cbn [fst snd] in H1.
    assert (Skip : (names k = Absent \/ fam = None) -> (exists p', read_keywords S kws names re0 im0 0 p = Done p' /\
      (forall j, (forall k0 check off num, In (k0, Some (check, off, num)) ((k, fam) :: kws) -> is_given (names k0) = true -> ~ off <= j < off + num) -> p' j = p j) /\
      (forall k0 check off num head body i a b, In (k0, Some (check, off, num)) ((k, fam) :: kws) -> names k0 = Given head body -> In (i, a, b) body -> p' (off + i) = (a, b)))).
    { intros W. destruct (IH p H2 A2) as (p' & E & Q1 & Q2). exists p'. split; [exact E|]. split.
      - intros j X. apply Q1. intros k0 check off num I. apply (X k0 check off num). now right.
      - intros k0 check off num head body i a b [I|I]; [|now apply Q2 with (1 := I)]. injection I as -> ->. destruct W as [W|W]; [congruence|discriminate]. }
    destruct H1 as [H1|H1]; [rewrite H1; apply Skip; now left|]. destruct fam as [[[check off] num]|].
    + destruct H1 as (head & body & H1 & Hc & Hf & Hb). rewrite H1, Hc. cbn [negb]. rewrite (fits_read off num body head re0 im0 p Hf Hb). cbn [Z.eqb].
      destruct Hf as (F1 & F2 & F3).
      destruct (IH (apply off body p) H2 A2) as (p' & E & Q1 & Q2). exists p'. split; [exact E|]. split.
      * intros j X. rewrite Q1. { apply apply_out. intros i a b I. specialize (F3 i a b I). intros ->. apply (X k check off num); [now left|now rewrite H1|lia]. }
        intros k0 check0 off0 num0 I. apply (X k0 check0 off0 num0). now right.
      * intros k0 check0 off0 num0 head0 body0 i a b [I|I] G J; [|now apply Q2 with (1 := I) (2 := G)]. injection I as -> -> -> ->. rewrite H1 in G. injection G as -> ->.
        rewrite Q1; [now apply apply_in|]. intros k1 check1 off1 num1 I1 G1 B1. apply (proj1 (Forall_forall _ _) A1) in I1. unfold apart in I1. cbn [fst snd] in I1. rewrite H1 in I1.
        apply (I1 eq_refl G1 (off0 + i)); [|exact B1]. specialize (F3 i a b J). lia.
    + destruct H1 as (head & body & H1). rewrite H1. cbv zeta. cbn [Z.eqb]. apply Skip. now right.
Qed.
(** one file with a wrong number in the header *)
Definition row (names : string -> entry) (e : kwrow) : Prop :=
  names (fst e) = Absent \/
  match snd e with
  | None => False
  | Some (check, off, num) => exists head body, names (fst e) = Given head body /\ (check head = true -> fits num body /\ (0 < num -> 0 <= off /\ off + num <= NPara S))
  end.
Lemma rows_reject names re0 im0 kws : forall info p, List.Forall (row names) kws -> info = 0 \/ info = 1 ->
  info = 1 \/ (exists k check off num head body, In (k, Some (check, off, num)) kws /\ names k = Given head body /\ check head = false) ->
  read_keywords S kws names re0 im0 info p = Aborted.
Proof.
  induction kws as [|[k fam] kws IH]; intros info p H Hi Hx; cbn [read_keywords].
  - destruct Hx as [->|(? & ? & ? & ? & ? & ? & [] & _)]; reflexivity.
  - inversion H as [|? ? H1 H2]; subst. unfold row in H1. cbn [fst snd] in H1. destruct H1 as [H1|H1].
    + rewrite H1. apply IH; [exact H2|exact Hi|]. destruct Hx as [Hx|(k' & check & off & num & head & body & [I|I] & G & B)]; [now left| |right; now exists k', check, off, num, head, body].
      injection I as -> ->. congruence.
    + destruct fam as [[[check off] num]|]; [|destruct H1]. destruct H1 as (head & body & H1 & Hf). rewrite H1. destruct (check head) eqn:Hc; cbn [negb].
      * destruct (Hf eq_refl) as [F1 F2]. rewrite (fits_read off num body head re0 im0 p F1 F2). destruct (Z.eqb_spec info 0) as [->|N]; [|reflexivity].
        apply IH; [exact H2|now left|]. right. destruct Hx as [Hx|(k' & check' & off' & num' & head' & body' & [I|I] & G & B)]; [discriminate| |now exists k', check', off', num', head', body'].
        injection I as -> -> -> ->. rewrite H1 in G. injection G as -> ->. congruence.
      * apply IH; [exact H2|now right|now left].
Qed.

(** ** the table of the code and the table of the specification *)
Hypothesis V : valid S.
Hypothesis AP : iFlgOrbitalGeneral S = 1 -> iNOrbitalAntiParallel S <= NOrbitalIdx S.
Lemma rbm : FlagRBM S * NRBM S = NRBM S.
Proof using V. clear AP. destruct V. destruct v_flag as [F|F]; rewrite F; [rewrite (v_norbm F)|]; lia. Qed.
Lemma some_inj {A} (a b : A) : Some a = Some b -> a = b.
Proof. intros H. now injection H. Qed.
Lemma pair_inj {A B C0 D} (k k' : A) (c c' : B) (o o' : C0) (n n' : D) : (k, (c, o, n)) = (k', (c', o', n')) -> k = k' /\ c = c' /\ o = o' /\ n = n'.
Proof. intros H. now injection H as -> -> -> ->. Qed.
Lemma row_inj {A B C0 D} (k k' : A) (c c' : B) (o o' : C0) (n n' : D) : (k, Some (c, o, n)) = (k', Some (c', o', n')) -> k = k' /\ c = c' /\ o = o' /\ n = n'.
Proof. intros H. now injection H as -> -> -> ->. Qed.
Lemma table k check off num : In (k, Some (check, off, num)) (input_keywords S) -> exists head off' num', place S k = Some (head, off', num') /\ off = off' /\ num = num' /\ check head = true /\
  (k <> "InOrbitalParallel"%string -> forall h, check h = true -> h = head).
Proof using V.
  clear AP. intros H. assert (R := rbm). assert (V2 : iFlgOrbitalGeneral S = 0 \/ iFlgOrbitalGeneral S = 1) by apply V. assert (B : NProjBF S = 0) by apply V.
  unfold NRBM in R.
  cbv [input_keywords In] in H. repeat (destruct H as [H|H]; [first [discriminate|apply row_inj in H; destruct H as (<- & <- & <- & <-); do 3 eexists; split; [cbv [place assoc places find option_map snd fst String.eqb Ascii.eqb Bool.eqb]; reflexivity|];
    unfold off_Proj, off_OptTrans, off_Slater, off_RBM, NSlater, NProj, NRBM, NRBM_PhysLayerIdx, NRBM_HiddenLayerIdx, NRBM_PhysHiddenIdx, is_count, is_double in *;
    destruct V2 as [V2|V2]; rewrite ?V2; cbn [Z.ltb Z.eqb Z.compare]; (split; [lia|]; split; [lia|]; split; [rewrite ?(Z.mul_comm 2), ?Z.quot_mul by lia; lia|intros N h; first [now contradiction N|lia]])]|]). destruct H.
Qed.
Lemma place_row k head off num : place S k = Some (head, off, num) -> exists check off' num', In (k, Some (check, off', num')) (input_keywords S).
Proof using.
  clear. unfold place, assoc. destruct (find _ _) as [[k' x]|] eqn:F; [|discriminate]. cbn [option_map snd]. intros _. apply find_some in F. destruct F as [F1 F2]. cbn [fst] in F2. apply String.eqb_eq in F2. subst k'.
  cbv [places In] in F1. repeat (destruct F1 as [F1|F1]; [injection F1 as <- _; do 3 eexists; cbv [input_keywords In]; repeat (first [left; reflexivity|right])|]). destruct F1.
Qed.
Lemma bound k head off num : place S k = Some (head, off, num) -> 0 < num -> 0 <= off /\ off + num <= NPara S.
Proof using V AP.
  unfold place, assoc. destruct (find _ _) as [[k' x]|] eqn:F; [|discriminate]. cbn [option_map snd]. intros X. apply some_inj in X. subst x. apply find_some in F. destruct F as [F1 _].
  assert (R := rbm). destruct V. unfold NPara, NSlater. rewrite (Z.mul_comm (NRBM S)), R, v_pbf. clear R v_norbm. unfold NRBM, NProj, NRBM_PhysLayerIdx, NRBM_HiddenLayerIdx, NRBM_PhysHiddenIdx.
  assert (T : 0 <= NOptTrans S) by (unfold NOptTrans; destruct (0 <? FlagOptTrans S); lia).
  assert (P : iNOrbitalParallel S = 0 \/ iFlgOrbitalGeneral S = 1 /\ NOrbitalIdx S = iNOrbitalAntiParallel S + 2 * iNOrbitalParallel S) by (destruct (Z.eq_dec (iNOrbitalParallel S) 0); [now left|right; now apply v_orb]).
  clear v_orb. cbv [places In] in F1. repeat (destruct F1 as [F1|F1]; [apply pair_inj in F1; destruct F1 as (_ & <- & <- & <-); destruct (Z.eqb_spec (iFlgOrbitalGeneral S) 0); lia|]). destruct F1.
Qed.
Lemma rows_nodup : NoDup (map fst (input_keywords S)).
Proof using. clear. cbv [input_keywords map fst]. repeat (constructor; [cbn; intuition discriminate|]). constructor. Qed.
Lemma ord_pairs {A B} (f : A -> B) (R : A -> A -> Prop) l : NoDup (map f l) -> (forall x y, In x l -> In y l -> f x <> f y -> R x y) -> ForallOrdPairs R l.
Proof using.
  clear. induction l as [|x l IH]; intros N H; constructor; inversion N as [|? ? N1 N2]; subst.
  - apply Forall_forall. intros y Hy. apply H; [now left|now right|]. intros E. apply N1. rewrite E. now apply in_map.
  - apply IH; [exact N2|]. intros a b Ha Hb. apply H; now right.
Qed.
(** groups: the three orbital files overlap, and the general one covers the parallel one *)
Definition orb (k : string) : bool := existsb (String.eqb k) ["InOrbital"; "InOrbitalAntiParallel"; "InOrbitalParallel"; "InOrbitalGeneral"]%string.
Definition zone (k : string) : Z * Z := match place S k with Some (_, off, num) => (off, off + num) | None => (0, 0) end.
Lemma places_apart k1 k2 h1 o1 n1 h2 o2 n2 j : place S k1 = Some (h1, o1, n1) -> place S k2 = Some (h2, o2, n2) -> k1 <> k2 ->
  orb k1 && orb k2 = false \/ (k1 = "InOrbitalParallel" /\ k2 <> "InOrbitalGeneral")%string \/ (k2 = "InOrbitalParallel" /\ k1 <> "InOrbitalGeneral")%string ->
  o1 <= j < o1 + n1 -> o2 <= j < o2 + n2 -> False.
Proof using V AP.
  unfold place, assoc. destruct (find (fun e => String.eqb (fst e) k1) _) as [[k' x]|] eqn:F; [|discriminate]. cbn [option_map snd]. intros X. apply some_inj in X. subst x. apply find_some in F. destruct F as [F1 F2]. cbn [fst] in F2. apply String.eqb_eq in F2. subst k'.
  destruct (find (fun e => String.eqb (fst e) k2) _) as [[k' x]|] eqn:F; [|discriminate]. cbn [option_map snd]. intros X. apply some_inj in X. subst x. apply find_some in F. destruct F as [G1 G2]. cbn [fst] in G2. apply String.eqb_eq in G2. subst k'.
  assert (R := rbm). destruct V. clear R v_norbm v_flag.
  assert (T : 0 <= NOptTrans S) by (unfold NOptTrans; destruct (0 <? FlagOptTrans S); lia).
  assert (P : iNOrbitalParallel S = 0 \/ iFlgOrbitalGeneral S = 1 /\ NOrbitalIdx S = iNOrbitalAntiParallel S + 2 * iNOrbitalParallel S) by (destruct (Z.eq_dec (iNOrbitalParallel S) 0); [now left|right; now apply v_orb]).
  clear v_orb v_site v_ne v_tr v_ci v_cj v_hd v_ph v_ex v_nc v_ns v_ng v_bf v_pbf v_range v_qp v_c1 v_c2 v_c3 v_ia v_qo v_gl v_mp V.
  intros N O. cbv [places In] in F1, G1. cbv zeta in F1, G1.
  intros B1 B2.
  repeat (destruct F1 as [F1|F1]; [apply pair_inj in F1; destruct F1 as (<- & _ & <- & <-);
    repeat (destruct G1 as [G1|G1]; [apply pair_inj in G1; destruct G1 as (<- & _ & <- & <-);
      first [now contradiction N|solve [clear - B1 B2 v_gu v_ja v_d2 v_d4 v_cp v_sp v_gp v_ch v_sh v_gh v_cph v_sph v_gph; lia]|solve [clear O N; destruct (Z.eqb_spec (iFlgOrbitalGeneral S) 0); lia]|cbv in O; intuition discriminate]|]); destruct G1|]). destruct F1.
Qed.
Lemma accepted names re0 im0 p :
  (forall kw, match place S kw with
              | Some (head, _, num) => names kw = Absent \/ exists body, names kw = Given head body /\ fits num body
              | None => names kw = Absent \/ exists head body, names kw = Given head body
              end) -> orbital_once names ->
  exists p', read_input_parameters S names re0 im0 p = Done p' /\
    (forall kw head off num head' body i a b, place S kw = Some (head, off, num) -> names kw = Given head' body -> In (i, a, b) body -> p' (off + i) = (a, b)) /\
    (forall j, (forall kw head off num, place S kw = Some (head, off, num) -> is_given (names kw) = true -> ~ off <= j < off + num) -> p' j = p j).
Proof using V AP.
  intros H O. unfold read_input_parameters. destruct (rows_fit names re0 im0 (input_keywords S) p) as (p' & E & Q1 & Q2).
  - apply Forall_forall. intros [k [[[check off] num]|]] I; unfold ok_row; cbn [fst snd].
    + destruct (table k check off num I) as (head & off' & num' & P & -> & -> & C1 & _). specialize (H k). rewrite P in H. destruct H as [H|(body & H & F)]; [now left|]. right. exists head, body. split; [exact H|]. split; [exact C1|]. split; [exact F|]. now apply (bound k head).
    + specialize (H k). destruct (place S k) as [[[h o] n]|] eqn:P; [|exact H]. destruct H as [H|(body & H & _)]; [now left|right; now exists h, body].
  - apply (ord_pairs fst); [exact rows_nodup|]. intros [k1 [[[c1 o1] n1]|]] [k2 [[[c2 o2] n2]|]] I1 I2 N; unfold apart; cbn [fst snd]; try exact I. cbn [fst] in N. intros G1 G2 j B1 B2.
    destruct (table k1 c1 o1 n1 I1) as (h1 & o1' & n1' & P1 & -> & -> & _). destruct (table k2 c2 o2 n2 I2) as (h2 & o2' & n2' & P2 & -> & -> & _).
    refine (places_apart k1 k2 _ _ _ _ _ _ j P1 P2 N _ B1 B2).
    destruct (orb k1 && orb k2) eqn:OO; [right|now left]. apply andb_true_iff in OO. destruct OO as [O1 O2]. unfold orbital_once in O.
    unfold orb in O1, O2. cbn [existsb] in O1, O2. rewrite !orb_true_iff, !String.eqb_eq in O1, O2. destruct O as (X1 & X2 & X3 & X4).
    destruct O1 as [O1|[O1|[O1|[O1|O1]]]]; try discriminate; subst k1; destruct O2 as [O2|[O2|[O2|[O2|O2]]]]; try discriminate; subst k2; try (exfalso; apply N; reflexivity);
      rewrite ?G1, ?G2 in *; try discriminate; first [left; split; [reflexivity|discriminate]|right; split; [reflexivity|discriminate]].
  - exists p'. split; [exact E|]. split.
    + intros kw head off num head' body i a b P G I. destruct (place_row kw head off num P) as (check & off' & num' & R). destruct (table _ _ _ _ R) as (h & o & n & P' & -> & -> & _). rewrite P in P'. injection P' as -> -> ->. now apply (Q2 kw check o n head' body i a b).
    + intros j X. apply Q1. intros k check off num I. destruct (table _ _ _ _ I) as (h & o & n & P' & -> & -> & _). now apply (X k h o n).
Qed.
Lemma rejected names re0 im0 p kw head off num head' body :
  (forall kw, match place S kw with
              | Some (head, _, num) => names kw = Absent \/ exists head' body, names kw = Given head' body /\ (head' = head \/ kw = "InOrbitalParallel"%string -> fits num body)
              | None => names kw = Absent
              end) ->
  place S kw = Some (head, off, num) -> names kw = Given head' body -> (if String.eqb kw "InOrbitalParallel" then 1 < Z.abs (head' - head) else head' <> head) ->
  read_input_parameters S names re0 im0 p = Aborted.
Proof using V AP.
  intros H P G D. unfold read_input_parameters. apply rows_reject; [|now left|right].
  - apply Forall_forall. intros [k [[[check o] n]|]] I; unfold row; cbn [fst snd].
    + destruct (table k check o n I) as (h & o' & n' & P' & -> & -> & C1 & C2). specialize (H k). rewrite P' in H. destruct H as [H|(h' & b & H & F)]; [now left|]. right. exists h', b. split; [exact H|].
      intros C3. split; [|now apply (bound k h)]. apply F. destruct (string_dec k "InOrbitalParallel") as [Y|Y]; [now right|left]. now apply C2.
    + specialize (H k). destruct (place S k) as [[[h o] n]|] eqn:P'; [|now left]. exfalso. clear - I P'.
      cbv [input_keywords In] in I. repeat (destruct I as [I|I]; [first [discriminate|injection I as <-; discriminate]|]). destruct I.
  - destruct (place_row kw head off num P) as (check & off' & num' & R). destruct (table _ _ _ _ R) as (h & o & n & P' & -> & -> & C1 & C2). rewrite P in P'. injection P' as -> -> ->.
    exists kw, check, o, n, head', body. split; [exact R|]. split; [exact G|]. destruct (check head') eqn:C3; [exfalso|reflexivity].
    destruct (String.eqb_spec kw "InOrbitalParallel") as [->|N]; [|now apply D, C2].
    clear - R D C3 P. cbv [input_keywords In] in R. repeat (destruct R as [R|R]; [first [discriminate R|apply row_inj in R; destruct R as (R & <- & <- & <-); first [discriminate R|idtac]]|]); [|destruct R].
    cbv [place assoc places find option_map snd fst String.eqb Ascii.eqb Bool.eqb] in P. apply some_inj in P. unfold is_double in C3.
    assert (h = 2 * iNOrbitalParallel S) by congruence. assert (Q := Z.quot_rem' head' 2). assert (B := Z.rem_bound_abs head' 2 ltac:(lia)). lia.
Qed.
End Rej.
