(** The name list. *)
From Coq Require Import ZArith List Bool Lia String Ascii.
From Verif Require Import Base.ZLoop Def.Model Def.Spec.
Import ListNotations.
Local Open Scope Z_scope.

(** ** C strings *)
Definition no_nul (a : str) : Prop := forall c, In c a -> c <> zero.
Lemma code_inj x y : code x = code y -> x = y.
Proof. unfold code. intros H. apply Nat2Z.inj in H. rewrite <- (ascii_nat_embedding x), <- (ascii_nat_embedding y). now rewrite H. Qed.
Lemma code_pos x : x <> zero -> 0 < code x.
Proof. intros H. assert (code x <> code zero) by (intros E; apply H; now apply code_inj). assert (code zero = 0) by reflexivity. assert (0 <= code x) by (unfold code; lia). lia. Qed.
Lemma strcmp_nil a : no_nul a -> (strcmp a [] = 0 <-> a = []).
Proof. destruct a as [|x a]; cbn; intros H; [tauto|]. assert (0 < code x) by (apply code_pos; apply H; now left). split; [lia|discriminate]. Qed.
Lemma strncmp_eq n : forall a b, no_nul a -> no_nul b -> (List.length a <= n)%nat -> (List.length b <= n)%nat -> (strncmp a b n = 0 <-> a = b).
Proof.
  induction n as [|n IH]; intros a b Ha Hb La Lb.
  - destruct a; [|cbn in La; lia]. destruct b; [|cbn in Lb; lia]. cbn. tauto.
  - destruct a as [|x a], b as [|y b]; cbn [strncmp].
    + tauto.
    + assert (0 < code y) by (apply code_pos; apply Hb; now left). split; [lia|discriminate].
    + assert (0 < code x) by (apply code_pos; apply Ha; now left). split; [lia|discriminate].
    + destruct (Ascii.eqb x y) eqn:E.
      * apply Ascii.eqb_eq in E. subst y. rewrite IH; [split; [now intros ->|intros H; now injection H]| | | |]; try (cbn in La, Lb; lia); intros c Hc; [apply Ha|apply Hb]; now right.
      * apply Ascii.eqb_neq in E. split; [intros H; exfalso; apply E; apply code_inj; lia|intros H; injection H as -> _; congruence].
Qed.
Lemma tolower_nz c : c <> zero -> tolower c <> zero.
Proof.
  unfold tolower. intros H. destruct ((65 <=? nat_of_ascii c)%nat && (nat_of_ascii c <=? 90)%nat) eqn:E; [|exact H].
  intros X. assert (Y := f_equal nat_of_ascii X). rewrite nat_ascii_embedding in Y; [|lia]. cbn in Y. lia.
Qed.
Lemma check_words_eq a b : no_nul a -> no_nul b -> (check_words a b = 0 <-> same_word b a).
Proof.
  intros Ha Hb. unfold check_words, same_word. cbv zeta. rewrite strncmp_eq; [split; intros; now symmetry| | | |].
  - intros c Hc. apply in_map_iff in Hc. destruct Hc as (d & <- & Hd). apply tolower_nz. now apply Ha.
  - intros c Hc. apply in_map_iff in Hc. destruct Hc as (d & <- & Hd). apply tolower_nz. now apply Hb.
  - rewrite map_length. destruct (Nat.ltb_spec (List.length a) (List.length (map tolower b))); lia.
  - destruct (Nat.ltb_spec (List.length a) (List.length (map tolower b))); lia.
Qed.

(** ** keywords *)
Lemma keywords_no_nul : forall v, In v keywords -> no_nul v.
Proof.
  assert (H : forallb (fun v => forallb (fun c => negb (Ascii.eqb c zero)) v) keywords = true) by (vm_compute; reflexivity).
  rewrite forallb_forall in H. intros v Hv c Hc E. specialize (H v Hv). rewrite forallb_forall in H. specialize (H c Hc). subst c. discriminate.
Qed.
Fixpoint nodupb (l : list str) : bool := match l with [] => true | x :: l => negb (existsb (fun y => if list_eq_dec ascii_dec x y then true else false) l) && nodupb l end.
Lemma nodupb_ok l : nodupb l = true -> NoDup l.
Proof.
  induction l as [|x l IH]; cbn; [constructor|]. intros H. apply andb_prop in H. destruct H as [H1 H2]. constructor; [|now apply IH]. intros Hi.
  apply negb_true_iff in H1. assert (X : existsb (fun y => if list_eq_dec ascii_dec x y then true else false) l = true); [|congruence].
  apply existsb_exists. exists x. split; [exact Hi|]. destruct (list_eq_dec ascii_dec x x); [reflexivity|congruence].
Qed.
Lemma keywords_distinct : NoDup (map (map tolower) keywords).
Proof. apply nodupb_ok. vm_compute. reflexivity. Qed.
Lemma is_keyword_unique k k' w : is_keyword k w -> is_keyword k' w -> k = k'.
Proof.
  intros (H1 & v & Hv & E) (H2 & v' & Hv' & E'). unfold same_word in *.
  assert (X : Z.to_nat k = Z.to_nat k'); [|lia].
  apply (proj1 (NoDup_nth_error (map (map tolower) keywords)) keywords_distinct).
  - rewrite map_length. apply (proj1 (nth_error_Some keywords (Z.to_nat k))). rewrite Hv. discriminate.
  - assert (M : forall n, nth_error (map (map tolower) keywords) n = option_map (map tolower) (nth_error keywords n)) by (intros; apply nth_error_map). rewrite !M, Hv, Hv'. cbn [option_map]. f_equal. rewrite E, E'. reflexivity.
Qed.
Lemma check_kw_gen w l : w <> [] -> no_nul w -> (forall v, In v l -> no_nul v) ->
  forall i st, let r := fold_left (fun (st : Z * (Z * Z)) v =>
    let '(i, (iret, idx)) := st in
    (i + 1, if strcmp w [] =? 0 then (iret, idx) else if check_words w v =? 0 then (0, i) else (iret, idx))) l (i, st) in
  ((forall v, In v l -> ~ same_word v w) /\ snd r = st) \/ exists k v, nth_error l k = Some v /\ same_word v w /\ snd r = (0, i + Z.of_nat k).
Proof.
  intros Hw Hn. assert (S0 : (strcmp w [] =? 0) = false). { apply Z.eqb_neq. intros E. apply strcmp_nil in E; [contradiction|exact Hn]. } rewrite S0.
  induction l as [|v l IH]; intros Hl i st; cbn [fold_left]; [left; split; [intros v []|reflexivity]|].
  destruct st as [iret idx]. assert (Hv : no_nul v) by (apply Hl; now left). assert (C := check_words_eq w v Hn Hv).
  destruct (IH ltac:(intros; apply Hl; now right) (i + 1) (if check_words w v =? 0 then (0, i) else (iret, idx))) as [[Ha Hb]|(k & u & Hk & Hs & Hr)].
  - rewrite Hb. destruct (check_words w v =? 0) eqn:E.
    + right. exists O, v. split; [reflexivity|]. split; [apply C; now apply Z.eqb_eq|]. now rewrite Z.add_0_r.
    + left. split; [|reflexivity]. intros u [<-|Hu]; [|now apply Ha]. intros X. apply C in X. lia.
  - right. exists (S k), u. split; [exact Hk|]. split; [exact Hs|]. rewrite Hr. f_equal. lia.
Qed.
Lemma check_kw_known w k : is_word w -> is_keyword k w -> check_kw w keywords = (0, k).
Proof.
  intros [Hw Hc] Hk. unfold check_kw. destruct (check_kw_gen w keywords Hw (fun c H => proj2 (Hc c H)) keywords_no_nul 0 (-1, -1)) as [[Ha _]|(j & v & Hj & Hs & Hr)].
  - exfalso. destruct Hk as (_ & v & Hv & E). apply (Ha v); [eapply nth_error_In; exact Hv|exact E].
  - rewrite Hr. f_equal. rewrite Z.add_0_l. apply (is_keyword_unique _ _ w); [|exact Hk]. split; [lia|]. exists v. rewrite Nat2Z.id. now split.
Qed.
Lemma check_kw_unknown w : is_word w -> (forall k, ~ is_keyword k w) -> check_kw w keywords = (-1, -1).
Proof.
  intros [Hw Hc] Hk. unfold check_kw. destruct (check_kw_gen w keywords Hw (fun c H => proj2 (Hc c H)) keywords_no_nul 0 (-1, -1)) as [[_ Hb]|(j & v & Hj & Hs & Hr)]; [exact Hb|].
  exfalso. apply (Hk (Z.of_nat j)). split; [lia|]. exists v. rewrite Nat2Z.id. now split.
Qed.
Lemma known_dec w : (exists k, is_keyword k w) \/ (forall k, ~ is_keyword k w).
Proof.
  assert (G : forall l, (exists j v, nth_error l j = Some v /\ same_word v w) \/ (forall v, In v l -> ~ same_word v w)).
  { induction l as [|v l IH]; [right; intros v []|]. destruct (list_eq_dec ascii_dec (map tolower v) (map tolower w)) as [E|E]; [left; exists O, v; now split|].
    destruct IH as [(j & u & H)|H]; [left; exists (S j), u; exact H|right; intros u [<-|Hu]; [exact E|now apply H]]. }
  destruct (G keywords) as [(j & v & H1 & H2)|H]; [left; exists (Z.of_nat j); split; [lia|]; exists v; rewrite Nat2Z.id; now split|right].
  intros k (_ & v & Hv & E). apply (H v); [eapply nth_error_In; exact Hv|exact E].
Qed.

(** ** lines and words *)
Definition spaced (r : str) : Prop := r = [] \/ exists c t, r = c :: t /\ isspace c = true.
Lemma skip_blank s r : blank s -> skip (s ++ r) = skip r.
Proof. induction s as [|c s IH]; intros H; [reflexivity|]. cbn. rewrite (H c) by now left. apply IH. intros d Hd. apply H. now right. Qed.
Lemma skip_word a r : is_word a -> skip (a ++ r) = a ++ r.
Proof. intros [H1 H2]. destruct a as [|c a]; [congruence|]. cbn. now rewrite (proj1 (H2 c (or_introl eq_refl))). Qed.
Lemma token_word a r : (forall c, In c a -> isspace c = false) -> spaced r -> token (a ++ r) = (a, r).
Proof.
  induction a as [|c a IH]; intros H Hr; cbn.
  - destruct Hr as [->|(c & t & -> & Hc)]; [reflexivity|]. cbn. now rewrite Hc.
  - rewrite (H c) by now left. rewrite IH; [reflexivity| |exact Hr]. intros d Hd. apply H. now right.
Qed.
Lemma spaced_app r t : spaced r -> spaced t -> spaced (r ++ t).
Proof. intros [->|(c & u & -> & H)] Ht; [exact Ht|]. right. exists c, (u ++ t). now split. Qed.
Lemma sscanf_two l a b nl : two_words l a b -> spaced nl -> sscanf2 (l ++ nl) = (Some a, Some b).
Proof.
  intros (s1 & s2 & s3 & -> & Ha & Hb & B1 & B2 & N2 & H3) Hnl. unfold sscanf2. rewrite <- !app_assoc. rewrite skip_blank by exact B1. rewrite skip_word by exact Ha.
  rewrite token_word; [|intros c Hc; now apply Ha|]. 2:{ right. destruct s2 as [|c s2]; [congruence|]. exists c, (s2 ++ b ++ s3 ++ nl). split; [reflexivity|]. apply B2. now left. }
  destruct a as [|c0 a0]; [now destruct Ha|]. rewrite skip_blank by exact B2. rewrite skip_word by exact Hb. rewrite token_word; [|intros d Hd; now apply Hb|].
  - destruct b; [now destruct Hb|reflexivity].
  - apply spaced_app; [|exact Hnl]. exact H3.
Qed.
Lemma sscanf_first l a nl : first_word l a -> spaced nl -> exists b, sscanf2 (l ++ nl) = (Some a, b).
Proof.
  intros (s1 & s3 & -> & Ha & B1 & H3) Hnl. unfold sscanf2. rewrite <- !app_assoc. rewrite skip_blank by exact B1. rewrite skip_word by exact Ha.
  rewrite token_word; [|intros c Hc; now apply Ha|apply spaced_app; assumption].
  destruct a as [|c0 a0]; [now destruct Ha|]. destruct (token (skip (s3 ++ nl))) as [b r]. eexists. reflexivity.
Qed.
Lemma newline_space : isspace newline = true. Proof. reflexivity. Qed.
Lemma lines_nil file : lines file = [] -> file = [].
Proof. destruct file as [|c s]; [reflexivity|]. cbn [lines]. destruct (Ascii.eqb c newline); [intros H; discriminate H|]. destruct (lines s) as [|y l]; cbn [cons_head]; intros H; discriminate H. Qed.
(** the first line is read as one piece *)
Lemma fgets_line n : forall file l ls, lines file = l :: ls -> (List.length l < n)%nat ->
  exists nl rest, fgets n file = (l ++ nl, rest) /\ lines rest = ls /\ (nl = [newline] \/ (nl = [] /\ l <> [] /\ rest = [])) /\ (List.length rest < List.length file)%nat.
Proof.
  induction n as [|n IH]; intros file l ls H Hl; [lia|]. destruct file as [|c s]; [discriminate|]. cbn [lines] in H. cbn [fgets].
  destruct (Ascii.eqb c newline) eqn:E.
  - injection H as <- <-. apply Ascii.eqb_eq in E. subst c. exists [newline], s. split; [reflexivity|]. split; [reflexivity|]. split; [now left|]. cbn. lia.
  - destruct (lines s) as [|y ys] eqn:El.
    + apply lines_nil in El. subst s. cbn in H. injection H as <- <-. exists [], []. destruct n; [cbn in Hl; lia|]. cbn. split; [reflexivity|]. split; [reflexivity|]. split; [right; split; [reflexivity|split; [discriminate|reflexivity]]|lia].
    + cbn [cons_head] in H. injection H as <- <-.
      destruct (IH s y ys El) as (nl & rest & F & L & N & K); [cbn in Hl; lia|]. exists nl, rest. rewrite F. split; [reflexivity|]. split; [exact L|].
      split; [destruct N as [N|(N & _ & R)]; [now left|right; repeat split; [exact N|discriminate|exact R]]|]. cbn. lia.
Qed.
Lemma lines_no_newline file l : In l (lines file) -> ~ In newline l.
Proof.
  revert l. induction file as [|c s IH]; intros l H; cbn [lines] in H; [destruct H|]. destruct (Ascii.eqb c newline) eqn:E.
  - destruct H as [<-|H]; [intros []|now apply IH].
  - apply Ascii.eqb_neq in E. destruct (lines s) as [|y ys]; cbn [cons_head] in H.
    + destruct H as [<-|[]]. intros [X|[]]. contradiction.
    + destruct H as [<-|H]; [|apply IH; now right]. intros [X|X]; [contradiction|]. apply (IH y); [now left|exact X].
Qed.

(** ** the whole file *)
Fixpoint run (es : list (option (str * str))) (t : Z -> str) : reading :=
  match es with
  | [] => Ok t
  | None :: es => run es t
  | Some (w, f) :: es =>
      if negb (fst (check_kw w keywords) =? 0) then Rejected
      else if negb (strcmp (t (snd (check_kw w keywords))) [] =? 0) then Rejected else run es (upd t (snd (check_kw w keywords)) f)
  end.
Lemma hash_first k : strncmp k hash 1 = 0 <-> hd_error k = Some "#"%char.
Proof.
  destruct k as [|c k]; cbn; [split; [|discriminate]; intros H; discriminate|]. destruct (Ascii.eqb c "#"%char) eqn:E.
  - apply Ascii.eqb_eq in E. subst. split; intros _; [reflexivity|]. destruct k; reflexivity.
  - apply Ascii.eqb_neq in E. split; [intros H; exfalso; apply E; apply code_inj; unfold code in H |- *; cbn in H |- *; lia|intros H; injection H as ->; congruence].
Qed.
Lemma read_run fuel : forall file es kw name t, (List.length file < fuel)%nat -> Forall2 says (lines file) es -> Forall (fun l => (List.length l <= 254)%nat) (lines file) ->
  read_lines fuel file kw name t = run es t.
Proof.
  induction fuel as [|fuel IH]; intros file es kw name t Hf H2 HL; [lia|]. cbn [read_lines]. destruct (lines file) as [|l ls] eqn:El.
  { apply lines_nil in El. subst file. inversion H2; subst. reflexivity. }
  inversion H2 as [|? e ? es' Hs Hss]; subst. inversion HL as [|? ? HLl HLs]; subst.
  destruct (fgets_line 255 file l ls El ltac:(lia)) as (nl & rest & F & L & N & K). destruct file as [|c0 s0] eqn:Efile; [discriminate|]. rewrite <- Efile in *. clear Efile c0 s0.
  assert (Hsp : spaced nl) by (destruct N as [-> | (-> & _)]; [right; now exists newline, []|now left]).
  assert (Hnn : ~ In newline l) by (apply (lines_no_newline file); rewrite El; now left).
  assert (IH' : forall kw name t, read_lines fuel rest kw name t = run es' t) by (intros; apply IH; [lia|rewrite L; exact Hss|rewrite L; exact HLs]).
  rewrite F. inversion Hs as [l' Hl E1 E2|l' a b Hw Hh La Lb E1 E2]; subst.
  - cbn [run]. destruct Hl as [->|(a & Hfw & Hh & La)].
    + assert (nl = [newline]) by (destruct N as [N|(_ & N & _)]; [exact N|congruence]). subst nl. cbn [sscanf2 app skip newline token]. change (sscanf2 [newline]) with (@None str, @None str). cbn [pick].
      replace (Ascii.eqb newline newline) with true by reflexivity. destruct kw as [k|]; [rewrite orb_true_r|]; apply IH'.
    + destruct (sscanf_first l a nl Hfw Hsp) as [b Eb]. rewrite Eb. cbn [pick]. replace (D_CharTmpReadDef <=? List.length a)%nat with false by (symmetry; apply Nat.leb_gt; exact La).
      apply hash_first in Hh. rewrite Hh. cbn [Z.eqb orb]. apply IH'.
  - rewrite (sscanf_two l a b nl Hw Hsp). cbn [pick]. replace (D_CharTmpReadDef <=? List.length a)%nat with false by (symmetry; apply Nat.leb_gt; exact La).
    destruct (Z.eqb_spec (strncmp a hash 1) 0) as [X|_]; [exfalso; apply Hh; now apply hash_first|]. cbn [orb].
    assert (Hl : match l ++ nl with [] => false | c :: _ => Ascii.eqb c newline end = false).
    { destruct Hw as (s1 & s2 & s3 & -> & Ha & _). destruct (s1 ++ a ++ s2 ++ b ++ s3) as [|c r] eqn:Ec.
      - exfalso. destruct Ha as [Ha _]. destruct s1; [|discriminate]. destruct a; [congruence|discriminate].
      - cbn [app]. apply Ascii.eqb_neq. intros ->. apply Hnn. now left. }
    rewrite Hl. assert (Wa : is_word a) by (destruct Hw as (? & ? & ? & ? & ? & _); assumption). assert (Wb : is_word b) by (destruct Hw as (? & ? & ? & ? & ? & ? & _); assumption).
    assert (Sa : strcmp a [] <> 0) by (intros X; apply strcmp_nil in X; [now destruct Wa|intros c Hc; now apply Wa]).
    assert (Sb : strcmp b [] <> 0) by (intros X; apply strcmp_nil in X; [now destruct Wb|intros c Hc; now apply Wb]).
    destruct (Z.eqb_spec (strcmp a []) 0) as [X|_]; [contradiction|]. destruct (Z.eqb_spec (strcmp b []) 0) as [X|_]; [contradiction|]. cbn [negb andb].
    destruct (Z.eqb_spec (strcmp a [] * strcmp b []) 0) as [X|_]; [nia|]. cbn [run]. destruct (check_kw a keywords) as [iret idx]. cbn [fst snd].
    destruct (negb (iret =? 0)); [reflexivity|]. destruct (negb (strcmp (t idx) [] =? 0)); [reflexivity|].
    replace (D_CharTmpReadDef <=? List.length b)%nat with false by (symmetry; apply Nat.leb_gt; exact Lb). apply IH'.
Qed.

Definition words (es : list (option (str * str))) : Prop := forall w f, In (Some (w, f)) es -> is_word w /\ is_word f.
Fixpoint distinct (es : list (option (str * str))) : Prop :=
  match es with
  | [] => True
  | None :: es => distinct es
  | Some (w, f) :: es => (forall w' f' k, In (Some (w', f')) es -> is_keyword k w -> ~ is_keyword k w') /\ distinct es
  end.
Lemma distinct_nth es : distinct es <-> (forall i j w f w' f' k, nth_error es i = Some (Some (w, f)) -> nth_error es j = Some (Some (w', f')) -> is_keyword k w -> is_keyword k w' -> i = j).
Proof.
  induction es as [|e es IH].
  - split; [|intros; exact I]. intros _ [|i]; discriminate.
  - split.
    + intros H i j w f w' f' k Hi Hj Hk Hk'. destruct e as [[w0 f0]|].
      * cbn in H. destruct H as [H1 H2]. destruct i as [|i], j as [|j]; cbn in Hi, Hj.
        -- reflexivity.
        -- injection Hi as <- <-. exfalso. apply (H1 w' f' k); [eapply nth_error_In; exact Hj|exact Hk|exact Hk'].
        -- injection Hj as <- <-. exfalso. apply (H1 w f k); [eapply nth_error_In; exact Hi|exact Hk'|exact Hk].
        -- f_equal. apply (proj1 IH H2 i j w f w' f' k); assumption.
      * cbn in H. destruct i as [|i], j as [|j]; cbn in Hi, Hj; try discriminate. f_equal. apply (proj1 IH H i j w f w' f' k); assumption.
    + intros H. assert (Ht : distinct es). { apply IH. intros i j w f w' f' k Hi Hj Hk Hk'. assert (S i = S j) by (apply (H (S i) (S j) w f w' f' k); assumption). lia. }
      destruct e as [[w0 f0]|]; [|exact Ht]. cbn. split; [|exact Ht]. intros w' f' k Hin Hk Hk'. apply In_nth_error in Hin. destruct Hin as [j Hj].
      assert (O = S j) by (apply (H O (S j) w0 f0 w' f' k); [reflexivity|exact Hj|exact Hk|exact Hk']). discriminate.
Qed.
Lemma run_ok es : forall t, words es -> (forall w f, In (Some (w, f)) es -> exists k, is_keyword k w /\ t k = []) -> distinct es ->
  exists T, run es t = Ok T /\ (forall w f k, In (Some (w, f)) es -> is_keyword k w -> T k = f) /\ (forall k, (forall w f, In (Some (w, f)) es -> ~ is_keyword k w) -> T k = t k).
Proof.
  induction es as [|[[w f]|] es IH]; intros t Hw Hk Hd; cbn [run].
  - exists t. split; [reflexivity|]. split; [intros w f k []|reflexivity].
  - destruct (Hk w f (or_introl eq_refl)) as (k & Ik & Tk). rewrite (check_kw_known w k) by (try exact Ik; apply (Hw w f); now left). cbn [fst snd Z.eqb negb]. rewrite Tk. cbn [strcmp Z.eqb negb].
    destruct Hd as [Hd1 Hd2]. destruct (IH (upd t k f)) as (T & E & E1 & E2).
    + intros w' f' Hin. apply Hw. now right.
    + intros w' f' Hin. destruct (Hk w' f' (or_intror Hin)) as (k' & Ik' & Tk'). exists k'. split; [exact Ik'|]. rewrite upd_other; [exact Tk'|]. intros <-. apply (Hd1 w' f' k' Hin); [exact Ik|exact Ik'].
    + exact Hd2.
    + exists T. split; [exact E|]. split.
      * intros w' f' k' [X|Hin] Ik'.
        -- injection X as <- <-. replace k' with k by (apply (is_keyword_unique k k' w); assumption). rewrite E2; [apply upd_same|]. intros w' f' Hin. now apply (Hd1 w' f' k Hin).
        -- now apply (E1 w' f' k').
      * intros k' Hn. rewrite E2; [|intros w' f' Hin; apply Hn with (f := f'); now right]. apply upd_other. intros X. subst k'. apply (Hn w f); [now left|exact Ik].
  - destruct (IH t) as (T & E & E1 & E2).
    + intros w' f' Hin. apply Hw. now right.
    + intros w' f' Hin. apply (Hk w' f'). now right.
    + exact Hd.
    + exists T. split; [exact E|]. split.
      * intros w' f' k' [X|Hin]; [discriminate|now apply (E1 w' f' k')].
      * intros k' Hn. apply E2. intros w' f' Hin. apply Hn with (f := f'). now right.
Qed.
Lemma run_conv es : forall t, words es -> (forall k, no_nul (t k)) ->
  (exists T, run es t = Ok T /\ (forall w f, In (Some (w, f)) es -> exists k, is_keyword k w /\ t k = []) /\ distinct es) \/ run es t = Rejected.
Proof.
  induction es as [|[[w f]|] es IH]; intros t Hw Hn; cbn [run].
  - left. exists t. split; [reflexivity|]. split; [intros w f []|exact I].
  - destruct (Hw w f (or_introl eq_refl)) as [Ww Wf]. destruct (known_dec w) as [[k Ik]|Hno]; [|rewrite (check_kw_unknown w Ww Hno); now right].
    rewrite (check_kw_known w k) by assumption. cbn [fst snd Z.eqb negb]. destruct (Z.eqb_spec (strcmp (t k) []) 0) as [E|E]; [|now right]. cbn [negb]. apply strcmp_nil in E; [|apply Hn].
    destruct (IH (upd t k f)) as [(T & R & H1 & H2)|R].
    + intros w' f' Hin. apply Hw. now right.
    + intros k'. destruct (Z.eq_dec k' k) as [->|N]; [rewrite upd_same; intros c Hc; now apply Wf|rewrite upd_other by lia; apply Hn].
    + left. exists T. split; [exact R|]. split.
      * intros w' f' [X|Hin]; [injection X as <- <-; now exists k|]. destruct (H1 w' f' Hin) as (k' & Ik' & Tk'). exists k'. split; [exact Ik'|].
        destruct (Z.eq_dec k' k) as [->|N]; [exact E|]. rewrite upd_other in Tk' by lia. exact Tk'.
      * cbn. split; [|exact H2]. intros w' f' k' Hin Ik1 Ik2. assert (k' = k) by (apply (is_keyword_unique k' k w); assumption). subst k'. destruct (H1 w' f' Hin) as (k2 & Ik' & Tk').
        assert (k2 = k) by (apply (is_keyword_unique k2 k w'); assumption). subst k2. rewrite upd_same in Tk'. destruct Wf as [Wf _]. contradiction.
    + now right.
  - destruct (IH t) as [(T & R & H1 & H2)|R]; [intros w' f' Hin; apply Hw; now right|exact Hn| |now right]. left. exists T. split; [exact R|]. split; [|exact H2]. intros w f [X|Hin]; [discriminate|now apply (H1 w f)].
Qed.
Lemma words_of file es : Forall2 says (lines file) es -> words es.
Proof.
  generalize (lines file). intros ls H. induction H as [|l e ls es Hs _ IH]; intros w f Hin; [destruct Hin|]. destruct Hin as [->|Hin]; [|now apply (IH w f)].
  inversion Hs as [|l' a b Hw Hh La Lb]; subst. destruct Hw as (? & ? & ? & ? & Ha & Hb & _). now split.
Qed.
Lemma name_list file es : well_formed file es ->
  ((exists T, get_file_name file = Ok T) <-> acceptable es) /\ (~ acceptable es -> get_file_name file = Rejected) /\
  (forall T, get_file_name file = Ok T -> (forall w f k, In (Some (w, f)) es -> is_keyword k w -> T k = f) /\ (forall k, (forall w f, In (Some (w, f)) es -> ~ is_keyword k w) -> T k = [])).
Proof.
  intros [H1 H2]. assert (W := words_of file es H1). unfold get_file_name. rewrite (read_run _ file es None None (fun _ => []) (Nat.lt_succ_diag_r _) H1 H2).
  assert (A : acceptable es <-> (forall w f, In (Some (w, f)) es -> exists k, is_keyword k w /\ (fun _ : Z => @nil ascii) k = []) /\ distinct es).
  { unfold acceptable. rewrite <- distinct_nth. split; intros [A B]; (split; [|exact B]); intros w f Hin; destruct (A w f Hin) as [k Hk]; exists k; [now split|now destruct Hk]. }
  destruct (run_conv es (fun _ => []) W ltac:(intros k c [])) as [(T & R & C1 & C2)|R].
  - destruct (run_ok es (fun _ => []) W C1 C2) as (T' & R' & T1 & T2). rewrite R in R'. injection R' as <-. split; [|split].
    + split; [intros _; apply A; now split|intros _; now exists T].
    + intros N. exfalso. apply N. apply A. now split.
    + intros T0 E. rewrite R in E. injection E as <-. now split.
  - split; [|split].
    + split; [intros [T E]; congruence|]. intros HA. apply A in HA. destruct HA as [C1 C2]. destruct (run_ok es (fun _ => []) W C1 C2) as (T & R' & _). congruence.
    + intros _. exact R.
    + intros T E. congruence.
Qed.

(** ** any file *)
Lemma token_in s : forall c, In c (fst (token s)) -> In c s.
Proof. induction s as [|d s IH]; cbn; [easy|]. destruct (isspace d); [easy|]. destruct (token s) as [a r]. cbn in IH |- *. intros c [H|H]; [now left|right; now apply IH]. Qed.
Lemma token_rest s : forall c, In c (snd (token s)) -> In c s.
Proof. induction s as [|d s IH]; cbn; [easy|]. destruct (isspace d); [easy|]. destruct (token s) as [a r]. cbn in IH |- *. intros c H. right. now apply IH. Qed.
Lemma skip_in s : forall c, In c (skip s) -> In c s.
Proof. induction s as [|d s IH]; cbn; [easy|]. destruct (isspace d); [|easy]. intros c H. right. now apply IH. Qed.
Definition oknn (o : option str) : Prop := match o with Some k => k <> [] /\ no_nul k | None => True end.
Lemma sscanf_nn s : no_nul s -> oknn (fst (sscanf2 s)) /\ oknn (snd (sscanf2 s)).
Proof.
  intros H. unfold sscanf2. assert (I1 := token_in (skip s)). assert (I2 := token_rest (skip s)). destruct (token (skip s)) as [a r]. cbn [fst snd] in *.
  assert (I3 := token_in (skip r)). destruct (token (skip r)) as [b r']. cbn [fst] in I3.
  assert (Ha : no_nul a) by (intros c Hc; apply H; apply skip_in; now apply I1).
  assert (Hb : no_nul b) by (intros c Hc; apply H; apply skip_in; apply I2; apply skip_in; now apply I3).
  destruct a; [split; exact I|]. destruct b; cbn; repeat split; assumption || discriminate.
Qed.
Lemma fgets_split n : forall s, s = fst (fgets n s) ++ snd (fgets n s).
Proof.
  induction n as [|n IH]; intros s; cbn [fgets]; [reflexivity|]. destruct s as [|c s]; [reflexivity|]. destruct (Ascii.eqb c newline); [reflexivity|].
  specialize (IH s). destruct (fgets n s) as [a r]. cbn in IH |- *. now f_equal.
Qed.
Lemma sound fuel : forall file kw name t T, (List.length file < fuel)%nat -> Forall (fun l => (List.length l <= 254)%nat) (lines file) -> no_nul file -> oknn kw -> oknn name ->
  (forall k, no_nul (t k)) -> read_lines fuel file kw name t = Ok T ->
  (forall l w, In l (lines file) -> first_word l w -> hd_error w <> Some "#"%char -> exists k, is_keyword k w /\ t k = []) /\
  (forall i j l l' w w' k, nth_error (lines file) i = Some l -> nth_error (lines file) j = Some l' -> first_word l w -> first_word l' w' ->
     hd_error w <> Some "#"%char -> hd_error w' <> Some "#"%char -> is_keyword k w -> is_keyword k w' -> i = j).
Proof.
  induction fuel as [|fuel IH]; intros file kw name t T Hf HL HN Hkw Hname Ht; [lia|]. cbn [read_lines]. destruct (lines file) as [|l ls] eqn:El.
  { intros _. split; [intros l w []|]. intros [|i]; discriminate. }
  inversion HL as [|? ? HLl HLs]; subst.
  destruct (fgets_line 255 file l ls El ltac:(lia)) as (nl & rest & F & L & N & K). destruct file as [|c0 s0] eqn:Efile; [discriminate|]. rewrite <- Efile in *. clear Efile c0 s0.
  assert (Hsp : spaced nl) by (destruct N as [-> | (-> & _)]; [right; now exists newline, []|now left]).
  assert (Hnn : ~ In newline l) by (apply (lines_no_newline file); rewrite El; now left).
  assert (Sp := fgets_split 255 file). rewrite F in Sp |- *. cbn [fst snd] in Sp.
  assert (Hl : no_nul (l ++ nl)) by (intros c Hc; apply HN; rewrite Sp; apply in_or_app; now left).
  assert (Hr : no_nul rest) by (intros c Hc; apply HN; rewrite Sp; apply in_or_app; now right).
  destruct (sscanf_nn _ Hl) as [Na Nb]. destruct (sscanf2 (l ++ nl)) as [a b] eqn:Es. cbn [fst snd] in Na, Nb.
  destruct (match a with Some t0 => (D_CharTmpReadDef <=? List.length t0)%nat | None => false end) eqn:Eo; [discriminate|].
  assert (Nk : oknn (pick kw a)) by (destruct a; [exact Na|exact Hkw]). assert (Nn : oknn (pick name b)) by (destruct b; [exact Nb|exact Hname]).
  assert (IH' := fun t Ht => IH rest (pick kw a) (pick name b) t T ltac:(lia) ltac:(rewrite L; exact HLs) Hr Nk Nn Ht). rewrite L in IH'. clear IH.
  (* lines that say nothing here *)
  assert (Skip : (forall w, first_word l w -> hd_error w = Some "#"%char) -> read_lines fuel rest (pick kw a) (pick name b) t = Ok T ->
    (forall l0 w, In l0 (l :: ls) -> first_word l0 w -> hd_error w <> Some "#"%char -> exists k, is_keyword k w /\ t k = []) /\
    (forall i j l0 l' w w' k, nth_error (l :: ls) i = Some l0 -> nth_error (l :: ls) j = Some l' -> first_word l0 w -> first_word l' w' ->
     hd_error w <> Some "#"%char -> hd_error w' <> Some "#"%char -> is_keyword k w -> is_keyword k w' -> i = j)).
  { intros Hh R. destruct (IH' t Ht R) as [A B]. split.
    - intros l0 w [<-|Hin] Hw Hn; [exfalso; apply Hn; now apply Hh|now apply (A l0 w)].
    - intros [|i] [|j] l0 l' w w' k Hi Hj Hw Hw' Hn Hn' Ik Ik'; cbn in Hi, Hj; [reflexivity| | |f_equal; apply (B i j l0 l' w w' k); assumption].
      + injection Hi as <-. exfalso. apply Hn. now apply Hh.
      + injection Hj as <-. exfalso. apply Hn'. now apply Hh. }
  set (fin := match l ++ nl with [] => false | c :: _ => Ascii.eqb c newline end).
  assert (Hfin : fin = true -> forall w, ~ first_word l w).
  { intros E w (s1 & s3 & E1 & Hw & _). unfold fin in E. destruct l as [|c l0]; [|cbn in E; apply Ascii.eqb_eq in E; subst c; apply Hnn; now left].
    destruct s1; [|discriminate]. destruct Hw as [Hw _]. destruct w; [congruence|discriminate]. }
  assert (Hfw : forall w, first_word l w -> a = Some w). { intros w Hw. destruct (sscanf_first l w nl Hw Hsp) as [b' E]. rewrite Es in E. congruence. }
  destruct (pick kw a) as [k|] eqn:Ek.
  2:{ fold fin. destruct fin eqn:Ef; [|discriminate]. intros R. apply Skip; [|exact R]. intros w Hw. exfalso. now apply (Hfin eq_refl w). }
  fold fin. destruct (Z.eqb_spec (strncmp k hash 1) 0) as [Eh|Eh]; cbn [orb].
  { intros R. apply Skip; [|exact R]. intros w Hw. apply Hfw in Hw. subst a. cbn in Ek. injection Ek as ->. now apply hash_first. }
  destruct fin eqn:Ef. { intros R. apply Skip; [|exact R]. intros w Hw. exfalso. now apply (Hfin eq_refl w). }
  destruct (pick name b) as [f|] eqn:En; [|discriminate].
  destruct Nk as [Nk0 Nk]. destruct Nn as [Nn0 Nn].
  destruct (Z.eqb_spec (strcmp k []) 0) as [E1|E1]; cbn [negb andb]; [exfalso; apply Nk0; now apply strcmp_nil|].
  destruct (Z.eqb_spec (strcmp f []) 0) as [E2|E2]; cbn [negb andb]; [exfalso; apply Nn0; now apply strcmp_nil|].
  destruct (Z.eqb_spec (strcmp k [] * strcmp f []) 0) as [E3|_]; [discriminate|].
  destruct (check_kw k keywords) as [iret idx] eqn:Ec. destruct (Z.eqb_spec iret 0) as [Ei|Ei]; cbn [negb]; [|discriminate]. subst iret.
  destruct (Z.eqb_spec (strcmp (t idx) []) 0) as [Et|Et]; cbn [negb]; [|discriminate]. apply strcmp_nil in Et; [|apply Ht].
  destruct (D_CharTmpReadDef <=? List.length f)%nat; [discriminate|]. intros R.
  assert (Ht' : forall j, no_nul (upd t idx f j)) by (intros j; destruct (Z.eq_dec j idx) as [->|X]; [rewrite upd_same; exact Nn|rewrite upd_other by lia; apply Ht]).
  destruct (IH' (upd t idx f) Ht' R) as [A B].
  assert (A' : forall l0 w, In l0 ls -> first_word l0 w -> hd_error w <> Some "#"%char -> exists k0, is_keyword k0 w /\ t k0 = [] /\ k0 <> idx).
  { intros l0 w Hin Hw Hn. destruct (A l0 w Hin Hw Hn) as (k0 & I0 & T0). destruct (Z.eq_dec k0 idx) as [->|X]; [rewrite upd_same in T0; contradiction|]. rewrite upd_other in T0 by lia. now exists k0. }
  assert (Hl0 : forall w, first_word l w -> is_keyword idx w).
  { intros w Hw. assert (Ww : is_word w) by (destruct Hw as (? & ? & _ & ? & _); assumption). apply Hfw in Hw. subst a. cbn in Ek. injection Ek as ->.
    destruct (known_dec k) as [[k0 I0]|Hno]; [|rewrite (check_kw_unknown k Ww Hno) in Ec; discriminate]. rewrite (check_kw_known k k0 Ww I0) in Ec. injection Ec as <-. exact I0. }
  split.
  - intros l0 w [<-|Hin] Hw Hn; [exists idx; split; [now apply Hl0|exact Et]|]. destruct (A' l0 w Hin Hw Hn) as (k0 & I0 & T0 & _). now exists k0.
  - intros [|i] [|j] l0 l' w w' k0 Hi Hj Hw Hw' Hn Hn' Ik Ik'; cbn in Hi, Hj; [reflexivity| | |f_equal; apply (B i j l0 l' w w' k0); assumption].
    + injection Hi as <-. exfalso. destruct (A' l' w' (nth_error_In _ _ Hj) Hw' Hn') as (k1 & I1 & _ & X1). apply X1. rewrite (is_keyword_unique k1 k0 w' I1 Ik'). apply (is_keyword_unique k0 idx w Ik). now apply Hl0.
    + injection Hj as <-. exfalso. destruct (A' l0 w (nth_error_In _ _ Hi) Hw Hn) as (k1 & I1 & _ & X1). apply X1. rewrite (is_keyword_unique k1 k0 w I1 Ik). apply (is_keyword_unique k0 idx w' Ik'). now apply Hl0.
Qed.
Lemma accepts_only file T : no_nul file -> Forall (fun l => (List.length l <= 254)%nat) (lines file) -> get_file_name file = Ok T ->
  (forall l w, In l (lines file) -> first_word l w -> hd_error w <> Some "#"%char -> exists k, is_keyword k w) /\
  (forall i j l l' w w' k, nth_error (lines file) i = Some l -> nth_error (lines file) j = Some l' -> first_word l w -> first_word l' w' ->
     hd_error w <> Some "#"%char -> hd_error w' <> Some "#"%char -> is_keyword k w -> is_keyword k w' -> i = j).
Proof.
  intros HN HL R. destruct (sound _ file None None (fun _ => []) T (Nat.lt_succ_diag_r _) HL HN I I ltac:(intros k c []) R) as [A B]. split; [|exact B].
  intros l w Hin Hw Hn. destruct (A l w Hin Hw Hn) as (k & Ik & _). now exists k.
Qed.
Lemma fgets_less n s : s <> [] -> (List.length (snd (fgets (S n) s)) < List.length s)%nat.
Proof.
  destruct s as [|c s]; [congruence|]. intros _. cbn [fgets]. destruct (Ascii.eqb c newline); [cbn; lia|]. assert (F := fgets_split n s). destruct (fgets n s) as [a r]. cbn [fst snd] in *.
  rewrite F. cbn. rewrite app_length. lia.
Qed.
Lemma terminates fuel : forall file kw name t, (List.length file < fuel)%nat -> read_lines fuel file kw name t <> OutOfFuel.
Proof.
  induction fuel as [|fuel IH]; intros file kw name t Hf; [lia|]. cbn [read_lines]. destruct file as [|c s] eqn:Ef; [discriminate|]. rewrite <- Ef in *. assert (H := fgets_less 254 file ltac:(rewrite Ef; discriminate)).
  destruct (fgets 255 file) as [line rest]. cbn [snd] in H. destruct (sscanf2 line) as [a b]. destruct (match a with Some t0 => _ | None => false end); [discriminate|].
  assert (G : forall kw name t, read_lines fuel rest kw name t <> OutOfFuel) by (intros; apply IH; lia).
  destruct (pick kw a) as [k|]; [|destruct (match line with c0 :: _ => _ | [] => false end); [apply G|discriminate]].
  destruct ((strncmp k hash 1 =? 0) || _); [apply G|]. destruct (pick name b) as [f|]; [|discriminate]. destruct (negb _); [apply G|]. destruct (_ =? 0); [discriminate|].
  destruct (check_kw k keywords) as [iret idx]. destruct (negb (iret =? 0)); [discriminate|]. destruct (negb _); [discriminate|]. destruct (_ <=? _)%nat; [discriminate|apply G].
Qed.
