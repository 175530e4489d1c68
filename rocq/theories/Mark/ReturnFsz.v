(** General spins: exchanges, and the stream that leads back. *)
From Coq Require Import ZArith List Bool Lia Reals.
From Verif Require Import Base.ZLoop Base.Checked Proj.Model Proj.Spec Samp.Prog Samp.Model Samp.Spec Samp.Hoare Samp.Config Samp.Exch Mark.Model Mark.Spec Mark.Words Mark.Reverse Mark.ReverseStd Mark.ReverseFsz.
Import ListNotations.
Local Open Scope Z_scope.

Section Fsz.
Variable I : input.
Variable Orc : oracles.
Hypothesis wf : wf_input I.
Notation N := (Nsite (T I)).
Notation Ne := (Samp.Model.Ne I).
Let HN : 0 < N := wf_sites I wf.
Let HNe : 0 < Ne := wf_ne I wf.
Variable n : nat.
Notation O r := (with_stream Orc r n).
Variables w w' : walker.
Hypothesis Hc : consistent_fsz N Ne w.
Hypothesis Hc' : consistent_fsz N Ne w'.
Hypothesis Hl : locals_single I w.
Let HC := proj1 (consistent_fsz_Cons N Ne w) Hc.
Let HC' := proj1 (consistent_fsz_Cons N Ne w') Hc'.

(** two electrons exchanged *)
Record two_facts (mi mj ri rj s : Z) : Prop := {
  tf_mi : 0 <= mi < 2 * Ne; tf_mj : 0 <= mj < 2 * Ne; tf_s : 0 <= s <= 1; tf_ri : 0 <= ri < N; tf_rj : 0 <= rj < N;
  tf_idx : eleIdx w mi = ri; tf_spn : eleSpn w mi = s; tf_idxj : eleIdx w mj = rj; tf_spnj : eleSpn w mj = 1 - s;
  tf_free : eleCfg w (ri + (1 - s) * N) = -1; tf_freej : eleCfg w (rj + s * N) = -1; tf_cfg : eleCfg w (rj + (1 - s) * N) = mj
}.
Lemma exchange_fsz_info r p p1 mi ri rj s : make_candidate_exchange_fsz I (O r) w p = Ret (p1, Some (mi, ri, rj, s)) -> exists mj, two_facts mi mj ri rj s.
Proof.
  intros E. destruct (exchange_legal_fsz I wf w Hc (O r) p [] (Done (p1, Some (mi, ri, rj, s)))) as (_ & L); [rewrite E; constructor|].
  destruct (L _ _ _ _ _ eq_refl) as (A1 & A2 & A3 & (B1 & B2 & B3 & B4) & (C1 & _ & C3 & C4)). replace (1 - (1 - s)) with s in C4 by lia.
  destruct (f_site _ _ _ Hc rj (1 - s) C1 ltac:(lia)) as [(_ & X)|(m & M1 & M2 & _ & M3 & M4)]; [lia|].
  exists m. constructor; try assumption.
  - destruct (f_site _ _ _ Hc ri (1 - s) B1 ltac:(lia)) as [(X & _)|(m' & _ & _ & X & _)]; [exact X|lia].
  - destruct (f_site _ _ _ Hc rj s C1 B2) as [(X & _)|(m' & _ & _ & X & _)]; [exact X|lia].
Qed.
Lemma partner_search r t fuel p p1 mj rj : 0 <= t <= 1 -> search fuel (pick_partner_fsz I (O r) w t) p = Ret (p1, (mj, rj)) -> 0 <= mj < 2 * Ne /\ eleIdx w mj = rj /\ eleSpn w mj = t.
Proof.
  intros Ht. revert p. induction fuel as [|fuel IH]; intros q; cbn [search]; [discriminate|]. rewrite (pick_partner_fsz_eq I Orc wf n r w t q Hc Ht). cbn [bindP fst snd]. cbv zeta.
  destruct (Z.eqb_spec (eleSpn w (r q mod (2 * Ne))) t) as [Q|Q]; cbn [andb]; [|apply IH]. destruct (_ =? -1); [|apply IH].
  intros X. remember (r q mod (2 * Ne)) as m eqn:Hm. injection X as _ <- <-. split; [|auto]. rewrite Hm. apply Z.mod_pos_bound. lia.
Qed.
Lemma exchange_fsz_reverse r p p1 mi mj ri rj s : make_candidate_exchange_fsz I (O r) w p = Ret (p1, Some (mi, ri, rj, s)) -> two_facts mi mj ri rj s ->
  (forall m, 0 <= m < 2 * Ne -> eleIdx w' m = upd (upd (eleIdx w) mi rj) mj ri m) -> (forall m, 0 <= m < 2 * Ne -> eleSpn w' m = eleSpn w m) ->
  make_candidate_exchange_fsz I (O r) w' p = Ret (p1, Some (mi, rj, ri, s)).
Proof.
  intros E [A1 A2 A3 A4 A5 A6 A7 A8 A9 A10 A11 A12] Ei Es.
  assert (FR : forall z, 0 <= z < 2 * Ne -> (eleCfg w (eleIdx w z + (1 - eleSpn w z) * N) =? -1) = (eleCfg w' (eleIdx w' z + (1 - eleSpn w' z) * N) =? -1)).
  { apply (exch_free N (2 * Ne) 0 _ _ _ _ _ _ _ _ HC HC' mi mj A1 A2).
    - now rewrite A7, A9.
    - now rewrite A7, A6.
    - rewrite A9, A8. now replace (1 - (1 - s)) with s by lia.
    - intros z Hz. now rewrite A6, A8, Ei.
    - exact Es. }
  assert (Hxy : mi <> mj) by (intros ->; lia).
  assert (Ix : eleIdx w' mi = rj) by (rewrite (Ei _ A1), upd_other by exact Hxy; apply upd_same).
  assert (Iy : eleIdx w' mj = ri) by (rewrite (Ei _ A2); apply upd_same).
  unfold make_candidate_exchange_fsz in *. cbn [fuel with_stream] in *.
  apply bind_ret in E. destruct E as (f & E0 & E). destruct (Z.eqb_spec f 1) as [Ef|Ef]; [discriminate|].
  apply bind_ret in E. destruct E as ((p0, ((mi', s'), ri')) & E1 & E). apply bind_ret in E. destruct E as ((p1', (mj', rj')) & E2 & E). injection E as -> -> -> -> ->.
  assert (Hz : forall x, In x (zrange 0 N) -> 0 <= x < N) by (intros x; apply zrange_in).
  assert (Sx : single N w' rj s).
  { rewrite <- Ix, <- A7, <- (Es mi A1). apply (elec_single_fsz I w' Hc'); [exact A1|]. apply Z.eqb_eq. rewrite <- FR by exact A1. apply Z.eqb_eq. now rewrite A6, A7. }
  assert (Sy : single N w' ri (1 - s)).
  { rewrite <- Iy, <- A9, <- (Es mj A2). apply (elec_single_fsz I w' Hc'); [exact A2|]. apply Z.eqb_eq. rewrite <- FR by exact A2. apply Z.eqb_eq. rewrite A8, A9. now replace (1 - (1 - s)) with s by lia. }
  destruct (scan_opposite_spec I w' Hc' (O r) (zrange 0 N) 0 0 Hz ltac:(lia)) as [(Esc & _)|(_ & H)].
  2:{ exfalso. apply H. assert (s = 0 \/ s = 1) as [-> | ->] by lia; split; right.
      - exists rj. split; [now apply zrange_in|exact Sx].
      - exists ri. split; [now apply zrange_in|exact Sy].
      - exists ri. split; [now apply zrange_in|exact Sy].
      - exists rj. split; [now apply zrange_in|exact Sx]. }
  rewrite Esc. cbn [bindP Z.eqb].
  destruct (search_sim (pick_single_fsz I (O r) w) (pick_single_fsz I (O r) w') (pick_map w') n p p0 (mi, s, ri) (pick_single_fsz_mono I Orc wf n r w Hc) E1) as (_ & S).
  { intros q q' o _ _. rewrite !(pick_single_fsz_eq I Orc wf) by assumption. intros Eo. apply ret_inj in Eo. destruct Eo as (<- & <-). cbv zeta.
    set (m := r q mod (2 * Ne)). assert (Hm : 0 <= m < 2 * Ne) by (apply Z.mod_pos_bound; lia).
    rewrite <- (FR m Hm). destruct (_ =? _); reflexivity. }
  rewrite S. cbn [bindP pick_map]. rewrite Ix, (Es mi A1), A7.
  destruct (search_sim (pick_partner_fsz I (O r) w (1 - s)) (pick_partner_fsz I (O r) w' (1 - s)) (fun a => (fst a, eleIdx w' (fst a))) n p0 p1 (mj', rj)
    (pick_partner_fsz_mono I Orc wf n r w (1 - s) Hc ltac:(lia)) E2) as (_ & S2).
  { intros q q' o _ _. rewrite !(pick_partner_fsz_eq I Orc wf) by (assumption || lia). intros Eo. apply ret_inj in Eo. destruct Eo as (<- & <-). cbv zeta.
    set (m := r q mod (2 * Ne)). assert (Hm : 0 <= m < 2 * Ne) by (apply Z.mod_pos_bound; lia).
    rewrite <- (FR m Hm), (Es m Hm). destruct (_ && _); reflexivity. }
  rewrite S2. cbn [bindP fst]. do 2 f_equal. f_equal. f_equal. f_equal.
  assert (Hmj : mj' = mj); [|now rewrite Hmj].
  destruct (partner_search r (1 - s) n p0 p1 mj' rj ltac:(lia) E2) as (M1 & M2 & M3).
  destruct (elec_range I w mj' Hc M1) as (_ & _ & X). rewrite M2, M3 in X. congruence.
Qed.

(** ** the stream that leads back *)
Definition differs (m : Z) : bool := negb ((eleIdx w m =? eleIdx w' m) && (eleSpn w m =? eleSpn w' m)).
Definition first_change : (Z * Z) * (Z * Z) :=
  match find differs (zrange 0 (2 * Ne)) with Some m => ((eleIdx w m, eleSpn w m), (eleIdx w' m, eleSpn w' m)) | None => ((0, 0), (0, 0)) end.
Lemma first_change_range : (0 <= fst (fst first_change) < N /\ 0 <= snd (fst first_change) <= 1) /\ (0 <= fst (snd first_change) < N /\ 0 <= snd (snd first_change) <= 1).
Proof.
  unfold first_change. destruct (find _ _) as [m|] eqn:E; [|cbn; lia]. apply find_some in E. destruct E as (E & _). apply zrange_in in E. cbn [fst snd].
  destruct (elec_range I w m Hc E) as (A1 & A2 & _), (elec_range I w' m Hc' E) as (B1 & B2 & _). auto.
Qed.
Lemma first_change_one x ri s rj t : 0 <= x < 2 * Ne -> eleIdx w x = ri -> eleSpn w x = s -> (rj <> ri \/ t <> s) -> (forall m, 0 <= m < 2 * Ne -> eleIdx w' m = upd (eleIdx w) x rj m) ->
  (forall m, 0 <= m < 2 * Ne -> eleSpn w' m = upd (eleSpn w) x t m) -> first_change = ((ri, s), (rj, t)).
Proof.
  intros Hx E1 E2 Hne Ei Es. unfold first_change. destruct (find _ _) as [m|] eqn:E.
  - apply find_some in E. destruct E as (F1 & F2). apply zrange_in in F1. unfold differs in F2. rewrite (Ei m F1), (Es m F1), !upd_get in F2 |- *. destruct (Z.eqb_spec m x) as [->|]; [|now rewrite !Z.eqb_refl in F2].
    now rewrite E1, E2.
  - exfalso. assert (Q := find_none _ _ E x). unfold differs in Q. rewrite zrange_in, (Ei x Hx), (Es x Hx), !upd_same, E1, E2 in Q. specialize (Q Hx). apply negb_false_iff, andb_prop in Q. rewrite !Z.eqb_eq in Q. destruct Q, Hne; congruence.
Qed.
Definition pos_fsz (l : list Z) : option Z :=
  let (p, ut) := get_update_type I (O (word_at l)) 0 in
  match ut with
  | HOPPING =>
    if TwoSz I =? -1 then
      if coin (word_at l p) =? 0 then match search n (pick_hop_fsz I (O (word_at l)) w) (p + 1) with Ret (p0, _) => Some p0 | _ => None end else None
    else match search n (pick_hop_fsz I (O (word_at l)) w) p with Ret (p0, _) => Some p0 | _ => None end
  | _ => None
  end.
Definition turn (l : list Z) : list Z :=
  let '((a, s), (b, t)) := first_change in if TwoSz I =? -1 then swap_pairs wordsize N a b s t l else swap_words wordsize N a b l.
Definition back_fsz : list Z -> list Z := change pos_fsz turn.
Lemma turn_ok m : Forall (word wordsize) m -> length (turn m) = length m /\ Forall (word wordsize) (turn m) /\ turn (turn m) = m.
Proof.
  unfold turn. destruct first_change_range as ((A1 & A2) & A3 & A4). destruct first_change as ((a, s), (b, t)). cbn [fst snd] in *. destruct (TwoSz I =? -1).
  - apply swap_pairs_ok; try assumption. reflexivity.
  - now apply swap_words_ok.
Qed.
Lemma turn_nil : turn [] = []. Proof. unfold turn. destruct first_change as ((a, s), (b, t)). now destruct (_ =? _). Qed.
Lemma search_agree r r' p p0 a : (forall i, p <= i < p0 -> r' i = r i) -> search n (pick_hop_fsz I (O r) w) p = Ret (p0, a) -> search n (pick_hop_fsz I (O r') w) p = Ret (p0, a).
Proof.
  intros Ag Es. destruct (search_sim (pick_hop_fsz I (O r) w) (pick_hop_fsz I (O r') w) (fun a => a) n p p0 a (pick_hop_fsz_mono I Orc wf n r w Hc) Es) as (_ & S); [|exact S].
  intros i i' o Hi Hi'. rewrite !(pick_hop_fsz_eq I Orc wf) by assumption. intros Eo. apply ret_inj in Eo. destruct Eo as (<- & <-). rewrite !Ag by lia. cbv zeta. now destruct (_ =? _).
Qed.
Lemma back_fsz_words l : In l (words wordsize n) -> In (back_fsz l) (words wordsize n) /\ back_fsz (back_fsz l) = l.
Proof.
  apply change_words; [exact turn_ok|].
  intros l' _ p E. unfold pos_fsz in *. destruct (get_update_type I (O (word_at l')) 0) as (q, ut) eqn:Eq. destruct ut; try discriminate.
  set (l2 := tail_map (Z.to_nat p) turn l'). destruct (type_agree I Orc (word_at l') (word_at l2) n 0 q HOPPING Eq) as (Q0 & Q).
  assert (Ag : forall i, 0 <= i < p -> word_at l2 i = word_at l' i) by (intros i Hi; apply tail_map_below; [apply turn_nil|lia]).
  destruct (TwoSz I =? -1).
  - destruct (coin (word_at l' q) =? 0) eqn:Ec; [|discriminate].
    destruct (search n (pick_hop_fsz I (O (word_at l')) w) (q + 1)) as [(p0, a)| | | |] eqn:Es; try discriminate. injection E as ->.
    assert (Hq := search_pos _ _ _ _ _ (pick_hop_fsz_mono I Orc wf n (word_at l') w Hc) Es).
    rewrite Q by (intros i Hi; apply Ag; lia). rewrite (Ag q) by lia. rewrite Ec. rewrite (search_agree (word_at l') (word_at l2) (q + 1) p a); [reflexivity|intros i Hi; apply Ag; lia|exact Es].
  - destruct (search n (pick_hop_fsz I (O (word_at l')) w) q) as [(p0, a)| | | |] eqn:Es; try discriminate. injection E as ->.
    assert (Hq := search_pos _ _ _ _ _ (pick_hop_fsz_mono I Orc wf n (word_at l') w Hc) Es).
    rewrite Q by (intros i Hi; apply Ag; lia). rewrite (search_agree (word_at l') (word_at l2) q p a); [reflexivity|intros i Hi; apply Ag; lia|exact Es].
Qed.
Hypothesis Hl' : locals_single I w'.
Lemma one_back mi ri rj s t r (q : Prog.prog (K (O r)) (event (L (O r))) (Z * (Z * Z * Z * Z * Z) * Z)) p1 : one_facts I w mi ri rj s t ->
  (forall m, 0 <= m < 2 * Ne -> eleIdx w' m = upd (eleIdx w) mi rj m) -> (forall m, 0 <= m < 2 * Ne -> eleSpn w' m = upd (eleSpn w) mi t m) ->
  eval q = Some (p1, (mi, rj, ri, t, s), 0) ->
  exists c' w1', (c <- eval q;; one_fsz I (O r) w' c) = Some (p1, c') /\ proposed c' = Some w1' /\ same_idx_spn Ne w1' w = true.
Proof.
  intros [F1 F2 F3 F4 F5 F6 F7 F8 _] Ei Es ->. cbn [bind]. unfold one_fsz. cbn [Z.eqb]. rewrite (update_fsz_eval I Orc wf n r mi rj ri t s w' F1 F3 F2 F5 F4). cbn [eval bind].
  do 2 eexists. split; [reflexivity|]. split; [reflexivity|]. apply same_idx_spn_spec. unfold put_elec. cbn [eleIdx eleSpn]. intros m Hm.
  rewrite !upd_get, (Ei m Hm), (Es m Hm), !upd_get. destruct (Z.eqb_spec m mi) as [->|]; auto.
Qed.
Lemma propose_fsz_reverse l p c w1 : In l (words wordsize n) -> good N l -> propose_fsz I (O (word_at l)) w 0 = Some (p, c) -> p <= Z.of_nat n -> proposed c = Some w1 -> same_idx_spn Ne w1 w' = true ->
  exists c' w1', propose_fsz I (O (word_at (back_fsz l))) w' 0 = Some (p, c') /\ proposed c' = Some w1' /\ same_idx_spn Ne w1' w = true.
Proof.
  intros Hw Hgd E Hp Ec Hs. assert (Hs' := proj1 (same_idx_spn_spec _ _ _) Hs). unfold propose_fsz in *. unfold back_fsz, change, pos_fsz.
  destruct (get_update_type I (O (word_at l)) 0) as (q, ut) eqn:Eq.
  (* a single move *)
  assert (ONE : forall gen mi ri rj s t p1 flag, one_fsz I (O (word_at l)) w (p1, (mi, ri, rj, s, t), flag) = Some (p, c) ->
    (gen = make_candidate_hopping_fsz I (O (word_at l)) w (q + 1) \/ gen = make_candidate_hopping_csz I (O (word_at l)) w q \/
     gen = make_candidate_flip_localspin I (O (word_at l)) w q \/ gen = make_candidate_flip_conduction I (O (word_at l)) w (q + 1)) ->
    gen = Ret (p1, (mi, ri, rj, s, t), flag) -> p1 = p /\ flag <> 1 /\ one_facts I w mi ri rj s t /\
    (forall m, 0 <= m < 2 * Ne -> eleIdx w' m = upd (eleIdx w) mi rj m) /\ (forall m, 0 <= m < 2 * Ne -> eleSpn w' m = upd (eleSpn w) mi t m)).
  { intros gen mi ri rj s t p1 flag E1 Hg Eg. unfold one_fsz in E1. destruct (Z.eqb_spec flag 1) as [Ef|Ef]; [injection E1 as _ <-; discriminate|].
    assert (F : one_facts I w mi ri rj s t).
    { destruct Hg as [->|[->|[->| ->]]]; [apply (one_info I Orc wf n w Hc Hl (word_at l) (q + 1) p1 mi ri rj s t flag _ (or_introl eq_refl) Eg Ef)|
        apply (one_info I Orc wf n w Hc Hl (word_at l) q p1 mi ri rj s t flag _ (or_intror (or_introl eq_refl)) Eg Ef)|
        apply (one_info I Orc wf n w Hc Hl (word_at l) q p1 mi ri rj s t flag _ (or_intror (or_intror (or_introl eq_refl))) Eg Ef)|
        apply (one_info I Orc wf n w Hc Hl (word_at l) (q + 1) p1 mi ri rj s t flag _ (or_intror (or_intror (or_intror eq_refl))) Eg Ef)]. }
    assert (F' := F). destruct F' as [F1 F2 F3 F4 F5 F6 F7 F8 _]. rewrite (update_fsz_eval I Orc wf n (word_at l) mi ri rj s t w F1 F2 F3 F4 F5) in E1. cbn [eval bind] in E1.
    remember (put_elec I mi ri rj s t w) as wp eqn:Hwp. injection E1 as -> <-. cbn [proposed] in Ec. assert (Ew : w1 = wp) by congruence. rewrite Ew, Hwp in Hs'. unfold put_elec in Hs'. cbn [eleIdx eleSpn] in Hs'.
    split; [reflexivity|]. split; [exact Ef|]. split; [exact F|]. split; intros m Hm; symmetry; now apply Hs'. }
  assert (SELF : forall mi ri rj s t, one_facts I w mi ri rj s t -> rj <> ri \/ t <> s).
  { intros mi ri rj s t [F1 F2 F3 F4 F5 F6 F7 F8 _]. destruct (elec_range I w mi Hc F1) as (_ & _ & X). rewrite F6, F7 in X. destruct (Z.eq_dec rj ri) as [->|]; [|now left]. destruct (Z.eq_dec t s) as [->|]; [lia|now right]. }
  destruct ut; [| | |injection E as _ <-; discriminate].
  - unfold propose_hop_fsz in E |- *. destruct (Z.eqb_spec (TwoSz I) (-1)) as [Z2|Z2].
    + cbn [rnd with_stream] in E |- *. destruct (coin (word_at l q) =? 0) eqn:Eco.
      * destruct (eval (make_candidate_hopping_fsz I (O (word_at l)) w (q + 1))) as [((p1, ((((mi, ri), rj), s), t)), flag)|] eqn:Em; [|discriminate]. cbn [bind] in E. apply eval_some in Em.
        destruct (ONE _ mi ri rj s t p1 flag E (or_introl eq_refl) Em) as (-> & Ef & F & Ei & Es).
        destruct (hop_fsz_reverse I Orc wf n w w' Hc Hc' mi ri rj s t F Ei Es (word_at l) (q + 1) p flag Em Ef) as (p0 & S0 & P0 & RV). rewrite S0.
        set (l2 := tail_map (Z.to_nat p0) turn l). destruct (type_agree I Orc (word_at l) (word_at l2) n 0 q HOPPING Eq) as (Q0 & Q).
        assert (Ag : forall i, 0 <= i < p0 -> word_at l2 i = word_at l i) by (intros i Hi; apply tail_map_below; [apply turn_nil|lia]).
        rewrite Q by (intros i Hi; apply Ag; lia). rewrite (Ag q) by lia. rewrite Eco.
        apply (one_back mi ri rj s t _ _ p F Ei Es). rewrite (RV (word_at l2)); [reflexivity|intros i Hi; apply Ag; lia|].
        intros i Hi1 Hi2 Hi3. unfold l2. assert (FC := first_change_one mi ri s rj t (of_mi _ _ _ _ _ _ _ F) (of_idx _ _ _ _ _ _ _ F) (of_spn _ _ _ _ _ _ _ F) (SELF _ _ _ _ _ F) Ei Es).
        assert (TU : turn = swap_pairs wordsize N ri rj s t) by (unfold turn; rewrite FC; now rewrite (proj2 (Z.eqb_eq _ _) Z2)). rewrite TU.
        destruct F as [F1 F2 F3 F4 F5 F6 F7 F8 _].
        apply (swap_pairs_at wordsize N HN ri rj F4 F5 eq_refl s t F2 F3 n p0 l i Hw); try lia. apply (good_word N n l i Hgd Hw). lia.
      * destruct (eval (make_candidate_flip_conduction I (O (word_at l)) w (q + 1))) as [((p1, ((((mi, ri), rj), s), t)), flag)|] eqn:Em; [|discriminate]. cbn [bind] in E. apply eval_some in Em.
        destruct (ONE _ mi ri rj s t p1 flag E (or_intror (or_intror (or_intror eq_refl))) Em) as (-> & Ef & F & Ei & Es).
        rewrite Eq. cbn [rnd with_stream]. rewrite Eco. apply (one_back mi ri rj s t _ _ p F Ei Es).
        rewrite (flip_reverse I Orc wf n w w' Hc Hc' mi ri rj s t F Ei Es (word_at l) (q + 1) p flag Em Ef). reflexivity.
    + destruct (eval (make_candidate_hopping_csz I (O (word_at l)) w q)) as [((p1, ((((mi, ri), rj), s), t)), flag)|] eqn:Em; [|discriminate]. cbn [bind] in E. apply eval_some in Em.
      destruct (ONE _ mi ri rj s t p1 flag E (or_intror (or_introl eq_refl)) Em) as (-> & Ef & F & Ei & Es).
      destruct (hop_csz_reverse I Orc wf n w w' Hc Hc' mi ri rj s t F Ei Es (word_at l) q p flag Em Ef) as (p0 & S0 & P0 & RV). rewrite S0.
      set (l2 := tail_map (Z.to_nat p0) turn l). destruct (type_agree I Orc (word_at l) (word_at l2) n 0 q HOPPING Eq) as (Q0 & Q).
      assert (Ag : forall i, 0 <= i < p0 -> word_at l2 i = word_at l i) by (intros i Hi; apply tail_map_below; [apply turn_nil|lia]).
      rewrite Q by (intros i Hi; apply Ag; lia).
      apply (one_back mi ri rj s t _ _ p F Ei Es). rewrite (RV (word_at l2)); [reflexivity|intros i Hi; apply Ag; lia|].
      intros i Hi. unfold l2. assert (FC := first_change_one mi ri s rj t (of_mi _ _ _ _ _ _ _ F) (of_idx _ _ _ _ _ _ _ F) (of_spn _ _ _ _ _ _ _ F) (SELF _ _ _ _ _ F) Ei Es).
      assert (TU : turn = swap_words wordsize N ri rj) by (unfold turn; rewrite FC; now rewrite (proj2 (Z.eqb_neq _ _) Z2)). rewrite TU.
      destruct F as [F1 F2 F3 F4 F5 F6 F7 F8 _].
      rewrite (swap_words_at wordsize N ri rj n p0 l i Hw) by lia. apply (swap_word_mod wordsize N HN ri rj F4 F5). apply (good_word N n l i Hgd Hw). lia.
  - unfold propose_exchange_fsz in E. destruct (eval (make_candidate_exchange_fsz I (O (word_at l)) w q)) as [(p1, [(((mi, ri), rj), s)|])|] eqn:Em; [| |discriminate]; cbn [bind] in E; [|injection E as _ <-; discriminate].
    apply eval_some in Em. destruct (exchange_fsz_info _ _ _ _ _ _ _ Em) as (mj & F). assert (F' := F). destruct F' as [A1 A2 A3 A4 A5 A6 A7 A8 A9 A10 A11 A12].
    rewrite rd_ok in E by nia. cbn [bind] in E. rewrite A12 in E. rewrite (update_fsz_eval I Orc wf n _ mi ri rj s s w) in E by assumption. cbn [eval bind] in E.
    rewrite (update_fsz_eval I Orc wf n _ mj rj ri (1 - s) (1 - s)) in E by (assumption || lia). cbn [eval bind] in E.
    remember (put_elec I mj rj ri (1 - s) (1 - s) (put_elec I mi ri rj s s w)) as w2 eqn:Hw2. remember (put_elec I mi ri rj s s w) as w0 eqn:Hw0. injection E as -> <-. cbn [proposed] in Ec. assert (Ew : w1 = w2) by congruence. rewrite Ew, Hw2, Hw0 in Hs'. unfold put_elec in Hs'. cbn [eleIdx eleSpn] in Hs'.
    assert (Ei : forall m, 0 <= m < 2 * Ne -> eleIdx w' m = upd (upd (eleIdx w) mi rj) mj ri m) by (intros m Hm; symmetry; now apply Hs').
    assert (Es : forall m, 0 <= m < 2 * Ne -> eleSpn w' m = eleSpn w m).
    { intros m Hm. destruct (Hs' m Hm) as (_ & X). rewrite <- X, !upd_get. destruct (Z.eqb_spec m mj) as [->|]; [now symmetry|]. destruct (Z.eqb_spec m mi) as [->|]; [now symmetry|reflexivity]. }
    rewrite Eq. unfold propose_exchange_fsz. rewrite (exchange_fsz_reverse (word_at l) q p mi mj ri rj s Em F Ei Es).
    cbn [eval bind]. rewrite rd_ok by nia. cbn [bind].
    assert (Em' : eleCfg w' (ri + (1 - s) * N) = mj).
    { destruct (elec_range I w' mj Hc' A2) as (_ & _ & X). rewrite (Ei _ A2), upd_same, (Es _ A2), A9 in X. exact X. }
    rewrite Em', (update_fsz_eval I Orc wf n _ mi rj ri s s w') by assumption. cbn [eval bind]. rewrite (update_fsz_eval I Orc wf n _ mj ri rj (1 - s) (1 - s)) by (assumption || lia). cbn [eval bind].
    do 2 eexists. split; [reflexivity|]. split; [reflexivity|]. apply same_idx_spn_spec. unfold put_elec. cbn [eleIdx eleSpn]. intros m Hm. rewrite !upd_get, (Ei m Hm), (Es m Hm), !upd_get.
    destruct (Z.eqb_spec m mj) as [->|]; [now rewrite A8, A9|]. destruct (Z.eqb_spec m mi) as [->|]; [now rewrite A6, A7|auto].
  - unfold propose_flip_fsz in E |- *. destruct (eval (make_candidate_flip_localspin I (O (word_at l)) w q)) as [((p1, ((((mi, ri), rj), s), t)), flag)|] eqn:Em; [|discriminate]. cbn [bind] in E. apply eval_some in Em.
    destruct (ONE _ mi ri rj s t p1 flag E (or_intror (or_intror (or_introl eq_refl))) Em) as (-> & Ef & F & Ei & Es).
    rewrite Eq. apply (one_back mi ri rj s t _ _ p F Ei Es).
    destruct (local_reverse I Orc wf n w w' Hc Hc' mi ri rj s t F Ei Es (word_at l) q p flag Em) as (_ & ->). reflexivity.
Qed.
End Fsz.
