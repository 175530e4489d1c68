(** Safe pushes, the start, and sequences of trials. *)
From Coq Require Import ZArith List Bool Lia Reals.
From Coquelicot Require Import Complex.
From Verif Require Import Base.ZLoop Base.Checked Base.RSum Pf.Pfaffian Pf.Spec Pf.Proofs Ltl.Model Ltl.Spec Ltl.Arr Ltl.Proofs Ltl.Frame Blk.Model Blk.Spec Blk.Alg Blk.Kernel Blk.Arr Blk.State Blk.Ratio Blk.Proofs Blk.ProofsMerge.
Import ListNotations.
Local Open Scope Z_scope.

Section Run.
Variables (norbs n mmax : Z) (X junk : Z -> C).
Variable sktrf : Z -> Z -> (Z -> C) -> (Z -> C) * (Z -> Z).
Variable skpfa : Z -> Z -> (Z -> C) -> C * (Z -> C).
Variables (trtri : bool -> Z -> Z -> (Z -> C) -> Z -> C) (npanel : Z).
Hypothesis HX : skew_array norbs X.
Hypothesis Hn : 0 < n.
Hypothesis Heven : Z.Even n.
Hypothesis Hm : 1 <= mmax < 2 ^ 64.
Hypothesis Htrf : factorises_upper sktrf.
Hypothesis Hpfa : pfaffian_of_upper skpfa.
Hypothesis Htri : inverts trtri.
Local Notation amp := (amplitudes norbs X).
Local Notation shape := (shape norbs n mmax).
Local Notation good := (good norbs n mmax X).
Local Notation value c := (pf (amp c) (zrange 0 n)).
Local Notation merge_updates := (merge_updates n mmax junk sktrf trtri npanel).
Local Notation push_update := (push_update norbs n mmax X skpfa).
Local Notation pop_update := (pop_update norbs n mmax X skpfa).

Lemma pending_spec s m : pending s m = false <-> forall l, 0 <= l < tK s -> tFrom s l <> m.
Proof.
  unfold pending. split.
  - intros E l Hl F. assert (existsb (fun l => tFrom s l =? m) (zrange 0 (tK s)) = true) by (apply existsb_exists; exists l; split; [now apply zrange_in|now apply Z.eqb_eq]). congruence.
  - intros H. destruct (existsb _ _) eqn:E; [|reflexivity]. apply existsb_exists in E. destruct E as (l & Hl & F). apply zrange_in in Hl. apply Z.eqb_eq in F. now apply H in F.
Qed.
Lemma merged s : good s -> value (cur s) <> RtoC 0 -> exists s', merge_updates s = Some s' /\ good s' /\ tK s' = 0 /\ cur s' = cur s.
Proof.
  intros G V. destruct (merge_ok norbs n mmax X junk sktrf trtri npanel HX Hn Htrf Htri s G V) as (s' & E & G' & K & C & _). exists s'. split; [exact E|]. split; [exact G'|]. split; [exact K|]. unfold cur at 1. rewrite K, loop_nil by lia. exact C.
Qed.
(** a hop, with its undoing *)
Lemma undo_hop compute s : good s -> 1 <= tK s -> exists s', pop_update compute s = Some s' /\ good s' /\ tK s' = tK s - 1 /\ tCfg s' = tCfg s /\ tFrom s' = tFrom s /\ tTo s' = tTo s.
Proof.
  intros G K. destruct (pop_ok norbs n mmax X skpfa HX Hn Hpfa compute s G K) as (s' & E & G' & K' & C' & F' & T' & _). exists s'. tauto.
Qed.
Lemma cur_is s s' : tK s' = tK s -> tCfg s' = tCfg s -> (forall l, 0 <= l < tK s -> tFrom s' l = tFrom s l /\ tTo s' l = tTo s l) -> cur s' = cur s.
Proof. intros EK EC H. unfold cur. rewrite EK, EC. apply loop_ext. intros l c Hl. destruct (H l Hl) as (-> & ->). reflexivity. Qed.

Lemma hop_ok osi msj s : good s -> value (cur s) <> RtoC 0 -> 0 <= osi < norbs -> 0 <= msj < n ->
  exists s', push_update_safe norbs n mmax X junk sktrf skpfa trtri npanel osi msj true s = Some s' /\ good s' /\ cur s' = upd (cur s) msj osi /\ get_pfa s' = value (upd (cur s) msj osi) /\
  exists s'', pop_update false s' = Some s'' /\ good s'' /\ cur s'' = cur s.
Proof.
  intros G V Ho Hj. unfold push_update_safe.
  assert (R : exists s0, bind (if mmax <=? tK s then merge_updates s else Some s) (fun s => bind (if pending s msj then merge_updates s else Some s) (fun s => push_update osi msj true s)) = push_update osi msj true s0 /\
    good s0 /\ cur s0 = cur s /\ tK s0 < mmax /\ (forall l, 0 <= l < tK s0 -> tFrom s0 l <> msj)).
  { destruct (Z.leb_spec mmax (tK s)) as [L|L].
    - destruct (merged s G V) as (s1 & -> & G1 & K1 & C1). cbn [bind]. assert (P1 : pending s1 msj = false) by (apply pending_spec; lia). rewrite P1. cbn [bind]. exists s1. split; [reflexivity|]. split; [exact G1|]. split; [exact C1|]. split; lia.
    - cbn [bind]. destruct (pending s msj) eqn:P.
      + destruct (merged s G V) as (s1 & -> & G1 & K1 & C1). cbn [bind]. exists s1. split; [reflexivity|]. split; [exact G1|]. split; [exact C1|]. split; lia.
      + cbn [bind]. exists s. split; [reflexivity|]. split; [exact G|]. split; [reflexivity|]. split; [exact L|now apply pending_spec]. }
  destruct R as (s0 & -> & G0 & C0 & K0 & P0).
  destruct (push_ok norbs n mmax X skpfa HX Hn Hpfa osi msj true s0 G0 K0 Ho Hj P0) as (s1 & E1 & G1 & C1 & K1 & Cf1 & F1 & T1 & V1).
  exists s1. split; [exact E1|]. split; [exact G1|]. split; [now rewrite C1, C0|]. split; [rewrite <- C0; now apply V1|].
  assert (HK0 : 0 <= tK s0) by apply (shK _ _ _ s0 (proj1 G0)).
  destruct (undo_hop false s1 G1 ltac:(lia)) as (s2 & E2 & G2 & K2 & Cf2 & F2 & T2). exists s2. split; [exact E2|]. split; [exact G2|]. rewrite <- C0. apply cur_is; [lia|congruence|].
  intros l Hl. rewrite F2, T2, F1, T1. rewrite !upd_other by lia. split; reflexivity.
Qed.
Lemma pair_ok osi msj osk msl s : good s -> value (cur s) <> RtoC 0 -> 2 <= mmax -> 0 <= osi < norbs -> 0 <= msj < n -> 0 <= osk < norbs -> 0 <= msl < n -> msj <> msl ->
  let c := upd (upd (cur s) msj osi) msl osk in
  exists s', push_pair norbs n mmax X junk sktrf skpfa trtri npanel osi msj osk msl true s = Some s' /\ good s' /\ cur s' = c /\ get_pfa s' = value c /\
  exists s'', bind (pop_update false s') (pop_update false) = Some s'' /\ good s'' /\ cur s'' = cur s.
Proof.
  intros G V H2 Ho Hj Hok Hl Hne c. unfold push_pair. rewrite Z.mod_small by lia.
  assert (R : exists s0, bind (if mmax - 2 <? tK s then merge_updates s else if pending s msj || pending s msl then merge_updates s else Some s) (fun s => bind (push_update osi msj false s) (fun s => push_update osk msl true s)) = bind (push_update osi msj false s0) (fun s => push_update osk msl true s) /\
    good s0 /\ cur s0 = cur s /\ tK s0 + 1 < mmax /\ (forall l, 0 <= l < tK s0 -> tFrom s0 l <> msj) /\ (forall l, 0 <= l < tK s0 -> tFrom s0 l <> msl)).
  { assert (M : exists s1, merge_updates s = Some s1 /\ good s1 /\ cur s1 = cur s /\ tK s1 + 1 < mmax /\ (forall l, 0 <= l < tK s1 -> tFrom s1 l <> msj) /\ (forall l, 0 <= l < tK s1 -> tFrom s1 l <> msl)).
    { destruct (merged s G V) as (s1 & E & G1 & K1 & C1). exists s1. split; [exact E|]. split; [exact G1|]. split; [exact C1|]. repeat split; lia. }
    destruct (Z.ltb_spec (mmax - 2) (tK s)) as [L|L]; [destruct M as (s1 & -> & M); exists s1; split; [reflexivity|exact M]|].
    destruct (pending s msj || pending s msl) eqn:P; [destruct M as (s1 & -> & M); exists s1; split; [reflexivity|exact M]|].
    apply orb_false_iff in P. destruct P as (P1 & P2). exists s. split; [reflexivity|]. split; [exact G|]. split; [reflexivity|]. split; [lia|]. split; now apply pending_spec. }
  destruct R as (s0 & -> & G0 & C0 & K0 & P1 & P2). assert (HK0 : 0 <= tK s0) by apply (shK _ _ _ s0 (proj1 G0)).
  destruct (push_ok norbs n mmax X skpfa HX Hn Hpfa osi msj false s0 G0 ltac:(lia) Ho Hj P1) as (s1 & E1 & G1 & C1 & K1 & Cf1 & F1 & T1 & _). rewrite E1. cbn [bind].
  assert (P3 : forall l, 0 <= l < tK s1 -> tFrom s1 l <> msl).
  { intros l Hl'. rewrite F1. destruct (Z.eq_dec l (tK s0)) as [->|]; [now rewrite upd_same|]. rewrite upd_other by assumption. apply P2. lia. }
  destruct (push_ok norbs n mmax X skpfa HX Hn Hpfa osk msl true s1 G1 ltac:(lia) Hok Hl P3) as (s2 & E2 & G2 & C2 & K2 & Cf2 & F2 & T2 & V2).
  exists s2. split; [exact E2|]. split; [exact G2|]. assert (EC : upd (cur s1) msl osk = c) by (unfold c; now rewrite C1, C0). split; [now rewrite C2|]. split; [rewrite <- EC; now apply V2|].
  destruct (undo_hop false s2 G2 ltac:(lia)) as (s3 & E3 & G3 & K3 & Cf3 & F3 & T3). rewrite E3. cbn [bind]. destruct (undo_hop false s3 G3 ltac:(lia)) as (s4 & E4 & G4 & K4 & Cf4 & F4 & T4). exists s4. split; [exact E4|]. split; [exact G4|]. rewrite <- C0. apply cur_is; [lia|congruence|].
  intros l Hl'. rewrite F4, T4, F3, T3, F2, T2, F1, T1, K1. rewrite !upd_other by lia. split; reflexivity.
Qed.

Lemma try_ok t accept s : good s -> value (cur s) <> RtoC 0 -> legal norbs n mmax t ->
  exists s', try norbs n mmax X junk sktrf skpfa trtri npanel t accept s = Some (Copp (value (proposed (cur s) t)), s') /\ good s' /\ cur s' = kept (cur s) (t, accept).
Proof.
  intros G V Hl. unfold try. destruct t as [osi msj|osi msj osk msl]; cbn [legal] in Hl.
  - destruct (hop_ok osi msj s G V (proj1 Hl) (proj2 Hl)) as (s1 & -> & G1 & C1 & V1 & s2 & E2 & G2 & C2). cbn [bind]. destruct accept; cbn [bind].
    + exists s1. rewrite V1. split; [reflexivity|]. split; [exact G1|exact C1].
    + rewrite E2. cbn [bind]. exists s2. rewrite V1. split; [reflexivity|]. split; [exact G2|exact C2].
  - destruct Hl as (L1 & L2 & L3 & L4 & L5 & L6). destruct (pair_ok osi msj osk msl s G V L1 L2 L3 L4 L5 L6) as (s1 & -> & G1 & C1 & V1 & s2 & E2 & G2 & C2). cbn [bind]. destruct accept; cbn [bind].
    + exists s1. rewrite V1. split; [reflexivity|]. split; [exact G1|exact C1].
    + rewrite E2. cbn [bind]. exists s2. rewrite V1. split; [reflexivity|]. split; [exact G2|exact C2].
Qed.
Lemma trials_ok l : forall s, good s -> value (cur s) <> RtoC 0 -> Forall (fun t => legal norbs n mmax (fst t)) l -> kept_regular (fun c => value c <> RtoC 0) (cur s) l ->
  exists s', trials norbs n mmax X junk sktrf skpfa trtri npanel l s = Some (map (fun c => Copp (value c)) (tried (cur s) l), s') /\ good s' /\ cur s' = final (cur s) l /\ value (cur s') <> RtoC 0.
Proof.
  induction l as [|(t, a) l IH]; intros s G V HL HR.
  - exists s. split; [reflexivity|]. split; [exact G|]. split; [reflexivity|exact V].
  - apply Forall_cons_iff in HL. destruct HL as (HL & HLs). cbn [fst] in HL. destruct HR as (R1 & R2). destruct (try_ok t a s G V HL) as (s1 & E1 & G1 & C1).
    cbn [trials]. rewrite E1. cbn [bind fst snd]. rewrite <- C1 in R1, R2. destruct (IH s1 G1 R1 HLs R2) as (s2 & E2 & G2 & C2 & V2). rewrite E2. cbn [bind fst snd]. exists s2. split; [|split; [exact G2|split; [|exact V2]]].
    + cbn [tried map fst]. rewrite <- C1. reflexivity.
    + rewrite C2, C1. reflexivity.
Qed.

(** ** the start *)
Lemma initialize_ok M0 cfg : (forall i, 0 <= i < n -> 0 <= cfg i < norbs) ->
  (value cfg <> RtoC 0 -> exists s, initialize norbs n X junk sktrf trtri npanel M0 cfg = Some s /\ good s /\ cur s = cfg) /\
  (value cfg = RtoC 0 -> initialize norbs n X junk sktrf trtri npanel M0 cfg = None).
Proof.
  intros Hc. unfold initialize. set (M := loop 0 n _ M0).
  assert (HM : forall i j, 0 <= i < j -> j < n -> at_ M n i j = amp cfg i j).
  { set (P := fun m V => forall i j, 0 <= i < j -> j < m -> at_ V n i j = amp cfg i j). assert (G : P n M); [|exact G]. apply (loop_inv P); [lia| |].
    - intros i j Hi Hj. lia.
    - intros m V Hm' IH i j Hi Hj. rewrite at_put by lia.
      destruct (Z.eqb_spec i m), (Z.eqb_spec j m) as [->|N]; cbn [andb]; try lia.
      + rewrite (loop_column n 0 m m _ (fun i _ => xij norbs X (cfg i) (cfg m))); [|lia|lia|reflexivity|reflexivity|lia]. rewrite Z.eqb_refl. destruct (Z.leb_spec 0 i), (Z.ltb_spec i m); cbn [andb]; try lia. apply (xij_is norbs X HX); apply Hc; lia.
      + rewrite (loop_column n 0 m m _ (fun i _ => xij norbs X (cfg i) (cfg m))); [|lia|lia|reflexivity|reflexivity|lia]. destruct (Z.eqb_spec j m); [contradiction|]. cbn [andb]. apply IH; lia. }
  assert (HF : forall i j, 0 <= i < n -> 0 <= j < n -> full M n i j = amp cfg i j) by (apply full_of; [exact (amp_skew norbs n X HX cfg Hc)|exact HM]).
  assert (EV : pf (full M n) (zrange 0 n) = value cfg). { apply (pf_ext _ _ (length (zrange 0 n))); [lia|]. intros i j Hi Hj. apply zrange_in in Hi. apply zrange_in in Hj. now apply HF. }
  pose proof (Htrf n n M Heven ltac:(lia)) as HT. destruct (sktrf n n M) as (R, piv). cbn [fst snd] in HT. split.
  - intros V. assert (NF : pf (full M n) (zrange 0 n) <> RtoC 0) by (now rewrite EV).
    destruct (inverse_when trtri npanel Htri true n (full M n) R n piv junk n Heven ltac:(lia) ltac:(lia) ltac:(lia) HT NF) as (Y & EY & HY). unfold inverse_of in EY. rewrite EY. cbn [bind]. eexists. split; [reflexivity|].
    pose proof (pfaffian_is true n _ R n piv Heven ltac:(lia) HT) as EP. unfold pfaffian_of in EP. rewrite EV in EP.
    split; [|unfold cur; cbn [tK tCfg]; now rewrite loop_nil by lia]. split; [|split].
    + constructor; cbn [tK tNq tCfg]; try lia; assumption.
    + constructor; cbn [tK tNq tCfg tM tPfa]; try lia; [|exact EP]. pose proof (inverse_ext_r n _ _ _ HF HY) as HI. revert HI. apply inverse_ext. intros i j Hi Hj. symmetry. apply full_of; [exact (proj2 (proj2 HY))|reflexivity|assumption|assumption].
    + constructor; cbn [tK tRatio]; [|reflexivity|lia]. intros _. unfold get_pfa, cur. cbn [tPfa tRatio tK tCfg]. rewrite loop_nil by lia. rewrite EP. ring.
  - intros V. assert (NF : inverse_of trtri npanel true n R n piv junk n = None) by (apply (singular_iff trtri npanel Htri true n (full M n) R n piv junk n Heven); try lia; [exact HT|now rewrite EV]). unfold inverse_of in NF. rewrite NF. reflexivity.
Qed.

(** ** a whole run: initialise, try moves, merge *)
Theorem run_ok M0 cfg l : (forall i, 0 <= i < n -> 0 <= cfg i < norbs) -> value cfg <> RtoC 0 -> Forall (fun t => legal norbs n mmax (fst t)) l -> kept_regular (fun c => value c <> RtoC 0) cfg l ->
  exists s0 s s', initialize norbs n X junk sktrf trtri npanel M0 cfg = Some s0 /\ get_pfa s0 = value cfg /\
    trials norbs n mmax X junk sktrf skpfa trtri npanel l s0 = Some (map (fun c => Copp (value c)) (tried cfg l), s) /\
    merge_updates s = Some s' /\ (forall i, 0 <= i < n -> tCfg s' i = final cfg l i) /\ tK s' = 0 /\ get_pfa s' = value (final cfg l) /\ is_inverse n (full (tM s') n) (amp (final cfg l)).
Proof.
  intros Hc V HL HR. destruct (proj1 (initialize_ok M0 cfg Hc) V) as (s0 & E0 & G0 & C0). rewrite <- C0 in V, HR.
  destruct (trials_ok l s0 G0 V HL HR) as (s & E & G & C1 & V1).
  destruct (merge_ok norbs n mmax X junk sktrf trtri npanel HX Hn Htrf Htri s G V1) as (s' & E' & G' & K & C' & P').
  exists s0, s, s'. split; [exact E0|]. split.
  { rewrite <- C0. apply (raR _ _ _ _ s0 (proj2 (proj2 G0))). unfold initialize in E0. destruct (sktrf n n _). destruct (utu2inv _ _ _ _ _ _ _ _); [|discriminate]. cbn [bind] in E0. injection E0 as <-. cbn [tRatio]. intros F. injection F as F. Lra.lra. }
  split; [rewrite <- C0; exact E|]. split; [exact E'|]. rewrite C1, C0 in C', P'. split; [intros i _; now rewrite C'|]. split; [exact K|]. split; [exact P'|]. rewrite <- C'. apply (tbM _ _ _ _ s' (proj1 (proj2 G'))).
Qed.
End Run.
Theorem initialize_iff norbs n X junk sktrf trtri npanel M0 cfg : skew_array norbs X -> 0 < n -> Z.Even n -> factorises_upper sktrf -> inverts trtri ->
  (forall i, 0 <= i < n -> 0 <= cfg i < norbs) ->
  (initialize norbs n X junk sktrf trtri npanel M0 cfg = None <-> pf (amplitudes norbs X cfg) (zrange 0 n) = RtoC 0).
Proof.
  intros HX Hn He Ht Hi Hc. destruct (initialize_ok norbs n 1 X junk sktrf trtri npanel HX Hn He ltac:(lia) Ht Hi M0 cfg Hc) as (A & B). split; [|exact B].
  intros E. destruct (Ceq_dec (pf (amplitudes norbs X cfg) (zrange 0 n)) (RtoC 0)) as [Z|N]; [exact Z|]. destruct (A N) as (s & Es & _). congruence.
Qed.
