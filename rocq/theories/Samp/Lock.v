(** Groups of processes in lockstep: generic part. *)
From Coq Require Import ZArith List Bool Lia.
From Verif Require Import Base.ZLoop Base.Checked Samp.Prog.
Import ListNotations.
Local Open Scope Z_scope.

Section Local.
Context {K E : Type}.
Notation prog := (Prog.prog K E).
(** collective-free programs *)
Fixpoint local {A} (p : prog A) : Prop :=
  match p with Ret _ => True | Sum _ _ => False | Max _ _ => False | Emit _ k => local k | Stop _ => True end.
Lemma local_ret {A} (a : A) : local (Ret a).
Proof. exact I. Qed.
Lemma local_stop {A} w : local (Stop w : prog A).
Proof. exact I. Qed.
Lemma local_bind {A B} (p : prog A) (f : A -> prog B) : local p -> (forall a, local (f a)) -> local (bindP p f).
Proof. intros Hp Hf. induction p; cbn in *; auto; contradiction. Qed.
Lemma local_get n a i : local (get n a i).
Proof. unfold get. destruct (rd n a i); exact I. Qed.
Lemma local_put n a i v : local (put n a i v).
Proof. unfold put. destruct (wr n a i v); exact I. Qed.
Lemma local_umod w n : local (umod w n).
Proof. unfold umod. destruct (0 <? n); exact I. Qed.
Lemma local_ofOpt {A} (o : option A) : local (ofOpt o).
Proof. destruct o; exact I. Qed.
Lemma local_forM {S} l f (s : S) : (forall i s, local (f i s)) -> local (forM l f s).
Proof. intros H. revert s. induction l; intros s; cbn; [exact I|]. apply local_bind; auto. Qed.
Lemma local_search {A} n body p : (forall p, local (body p : prog (Z * option A))) -> local (search n body p).
Proof.
  intros H. revert p. induction n; intros p; cbn [search]; [exact I|].
  apply local_bind; [auto|]. intros (q, [a|]); cbn; auto.
Qed.
End Local.

Section Group.
Context {K E : Type}.
Notation prog := (Prog.prog K E).
Variables (kzero : K) (kadd : K -> K -> K).
Notation gruns := (gruns kzero kadd).
(** ranks of the group *)
Variable rs : list Z.
Hypothesis rs_ne : rs <> [].
Definition total (x : Z -> K) : K := fold_right kadd kzero (map x rs).
Definition maxi (x : Z -> Z) : Z := fold_left Z.max (tl (map x rs)) (hd 0 (map x rs)).

(** ** Families of programs that make the same observations and the same collectives *)
Inductive LS {A} (R : (Z -> A) -> Prop) : (Z -> prog A) -> Prop :=
| LS_ret P a : (forall r, In r rs -> P r = Ret (a r)) -> R a -> LS R P
| LS_stop P w : (forall r, In r rs -> P r = Stop w) -> LS R P
| LS_emit P e k : (forall r, In r rs -> P r = Emit e (k r)) -> LS R k -> LS R P
| LS_sum P x k : (forall r, In r rs -> P r = Sum (x r) (k r)) -> LS R (fun r => k r (total x)) -> LS R P
| LS_max P x k : (forall r, In r rs -> P r = Max (x r) (k r)) -> LS R (fun r => k r (maxi x)) -> LS R P.

(** the same, compared with one process that works alone, as long as it observes nothing [Bad] *)
Inductive LS2 {A} (Bad : E -> Prop) (R : (Z -> A) -> A -> Prop) : (Z -> prog A) -> prog A -> Prop :=
| LS2_ret P a b : (forall r, In r rs -> P r = Ret (a r)) -> R a b -> LS2 Bad R P (Ret b)
| LS2_stop P w : (forall r, In r rs -> P r = Stop w) -> LS2 Bad R P (Stop w)
| LS2_emit P e k k1 : (forall r, In r rs -> P r = Emit e (k r)) -> (~ Bad e -> LS2 Bad R k k1) -> LS2 Bad R P (Emit e k1)
| LS2_sum P p x k : (forall r, In r rs -> P r = Sum (x r) (k r)) -> LS2 Bad R (fun r => k r (total x)) p -> LS2 Bad R P p
| LS2_max P p x k : (forall r, In r rs -> P r = Max (x r) (k r)) -> LS2 Bad R (fun r => k r (maxi x)) p -> LS2 Bad R P p.

Lemma LS_ext {A} (R : (Z -> A) -> Prop) P P' : (forall r, In r rs -> P' r = P r) -> LS R P -> LS R P'.
Proof.
  intros E0 H. revert P' E0. induction H; intros P' E0.
  - eapply LS_ret; [|eassumption]. intros r Hr. rewrite E0 by assumption. auto.
  - eapply LS_stop. intros r Hr. rewrite E0 by assumption. auto.
  - eapply LS_emit; [|apply IHLS; reflexivity]. intros r Hr. rewrite E0 by assumption. auto.
  - eapply LS_sum; [|apply IHLS; reflexivity]. intros r Hr. rewrite E0 by assumption. auto.
  - eapply LS_max; [|apply IHLS; reflexivity]. intros r Hr. rewrite E0 by assumption. auto.
Qed.
Lemma LS2_ext {A} Bad (R : (Z -> A) -> A -> Prop) P P' p : (forall r, In r rs -> P' r = P r) -> LS2 Bad R P p -> LS2 Bad R P' p.
Proof.
  intros E0 H. revert P' E0. induction H; intros P' E0.
  - eapply LS2_ret; [|eassumption]. intros r Hr. rewrite E0 by assumption. auto.
  - eapply LS2_stop. intros r Hr. rewrite E0 by assumption. auto.
  - eapply LS2_emit; [|intros Hb; apply H1; [exact Hb|reflexivity]]. intros r Hr. rewrite E0 by assumption. auto.
  - eapply LS2_sum; [|apply IHLS2; reflexivity]. intros r Hr. rewrite E0 by assumption. auto.
  - eapply LS2_max; [|apply IHLS2; reflexivity]. intros r Hr. rewrite E0 by assumption. auto.
Qed.

Lemma LS_bind {A B} (R : (Z -> A) -> Prop) (R' : (Z -> B) -> Prop) P f :
  LS R P -> (forall a, R a -> LS R' (fun r => f r (a r))) -> LS R' (fun r => bindP (P r) (f r)).
Proof.
  intros H Hf. induction H.
  - eapply LS_ext; [|apply Hf; eassumption]. intros r Hr. cbn. now rewrite H.
  - eapply LS_stop. intros r Hr. now rewrite H.
  - eapply LS_emit; [|exact IHLS]. intros r Hr. now rewrite H.
  - apply (LS_sum _ _ x (fun r y => bindP (k r y) (f r))); [|exact IHLS]. intros r Hr. now rewrite H.
  - apply (LS_max _ _ x (fun r y => bindP (k r y) (f r))); [|exact IHLS]. intros r Hr. now rewrite H.
Qed.
Lemma LS2_bind {A B} Bad (R : (Z -> A) -> A -> Prop) (R' : (Z -> B) -> B -> Prop) P p f g :
  LS2 Bad R P p -> (forall a b, R a b -> LS2 Bad R' (fun r => f r (a r)) (g b)) ->
  LS2 Bad R' (fun r => bindP (P r) (f r)) (bindP p g).
Proof.
  intros H Hf. induction H; cbn [bindP].
  - eapply LS2_ext; [|apply Hf; eassumption]. intros r Hr. cbn. now rewrite H.
  - eapply LS2_stop. intros r Hr. now rewrite H.
  - eapply LS2_emit; [|exact H1]. intros r Hr. now rewrite H.
  - apply (LS2_sum _ _ _ _ x (fun r y => bindP (k r y) (f r))); [|exact IHLS2]. intros r Hr. now rewrite H.
  - apply (LS2_max _ _ _ _ x (fun r y => bindP (k r y) (f r))); [|exact IHLS2]. intros r Hr. now rewrite H.
Qed.

Lemma LS_local_bind {A B} (R : (Z -> B) -> Prop) (p : prog A) f : local p ->
  (forall a, LS R (fun r => f r a)) -> LS R (fun r => bindP p (f r)).
Proof.
  intros Hp Hf. induction p; cbn in Hp; try contradiction.
  - eapply LS_ext; [|apply (Hf a)]. reflexivity.
  - eapply LS_emit; [|apply IHp; assumption]. reflexivity.
  - eapply LS_stop. reflexivity.
Qed.
Lemma LS2_local_bind {A B} Bad (R : (Z -> B) -> B -> Prop) (p : prog A) f g : local p ->
  (forall a, LS2 Bad R (fun r => f r a) (g a)) -> LS2 Bad R (fun r => bindP p (f r)) (bindP p g).
Proof.
  intros Hp Hf. induction p; cbn in Hp; try contradiction; cbn [bindP].
  - eapply LS2_ext; [|apply (Hf a)]. reflexivity.
  - eapply LS2_emit; [|intros _; apply IHp; assumption]. reflexivity.
  - eapply LS2_stop. reflexivity.
Qed.

Lemma LS_forM {S} (R : (Z -> S) -> Prop) l (f : Z -> Z -> S -> prog S) s : R s ->
  (forall i s, In i l -> R s -> LS R (fun r => f r i (s r))) -> LS R (fun r => forM l (f r) (s r)).
Proof.
  revert s. induction l as [|i l IH]; intros s H0 Hf; cbn [forM].
  - eapply LS_ret; [reflexivity|exact H0].
  - eapply LS_bind; [apply Hf; [now left|exact H0]|]. intros a Ha. apply IH; [exact Ha|].
    intros; apply Hf; [now right|assumption].
Qed.
Lemma LS2_forM {S} Bad (R : (Z -> S) -> S -> Prop) l (f : Z -> Z -> S -> prog S) g s s1 : R s s1 ->
  (forall i s s1, In i l -> R s s1 -> LS2 Bad R (fun r => f r i (s r)) (g i s1)) ->
  LS2 Bad R (fun r => forM l (f r) (s r)) (forM l g s1).
Proof.
  revert s s1. induction l as [|i l IH]; intros s s1 H0 Hf; cbn [forM].
  - eapply LS2_ret; [reflexivity|exact H0].
  - eapply LS2_bind; [apply Hf; [now left|exact H0]|]. intros a b Ha. apply IH; [exact Ha|].
    intros; apply Hf; [now right|assumption].
Qed.

(** ** From the relation to executions *)
Lemma zipapp_length (a b : list (list E)) : length a = length b -> length (zipapp a b) = length a.
Proof.
  revert b. induction a; intros [|y b] H; try discriminate; [reflexivity|].
  cbn in *. f_equal. apply IHa. lia.
Qed.
Lemma zipapp_cons e (a b : list (list E)) : zipapp (map (cons e) a) b = map (cons e) (zipapp a b).
Proof. revert b. induction a; intros [|y b]; cbn; try reflexivity. now rewrite IHa. Qed.
Lemma zipapp_nil {X} (l : list X) (b : list (list E)) : length b = length l -> zipapp (map (fun _ => []) l) b = b.
Proof.
  revert b. induction l; intros [|y b] H; try discriminate; [reflexivity|].
  cbn in *. f_equal. apply IHl. lia.
Qed.
Lemma gruns_length {A} (ps : list (prog A)) trs os : gruns ps trs os -> length trs = length ps /\ length os = length ps.
Proof.
  induction 1.
  - apply (f_equal (@length _)) in H. rewrite !map_length in H. now rewrite map_length.
  - pose proof (f_equal (@length _) H) as HL. rewrite !map_length in HL.
    destruct IHgruns as (I1 & I2). rewrite map_length in I1, I2.
    rewrite zipapp_length by (rewrite map_length; lia). rewrite map_length. lia.
  - pose proof (f_equal (@length _) H) as HL. rewrite !map_length in HL.
    destruct IHgruns as (I1 & I2). rewrite map_length in I1, I2.
    rewrite zipapp_length by (rewrite map_length; lia). rewrite map_length. lia.
Qed.

Lemma map_ended_done {A} (a : Z -> A) (l : list Z) os :
  map (fun r => Ret (a r) : prog A) l = map ended os -> os = map (fun r => Done (a r)) l.
Proof.
  revert os. induction l as [|r l IH]; intros [|o os] H; try discriminate; [reflexivity|].
  cbn in H. injection H as H1 H2. destruct o; [|discriminate]. injection H1 as <-. cbn. f_equal. now apply IH.
Qed.
Lemma map_ended_stop {A} w (l : list Z) os :
  map (fun r => Stop w : prog A) l = map ended os -> os = map (fun r => Stopped w) l.
Proof.
  revert os. induction l as [|r l IH]; intros [|o os] H; try discriminate; [reflexivity|].
  cbn in H. injection H as H1 H2. destruct o; [discriminate|]. injection H1 as <-. cbn. f_equal. now apply IH.
Qed.
Lemma map_ext_rs {X} (f g : Z -> X) : (forall r, In r rs -> f r = g r) -> map f rs = map g rs.
Proof. apply map_ext_in. Qed.
Lemma map_sum_inv {A} (x : Z -> K) (k : Z -> K -> prog A) (l : list Z) xks :
  map (fun r => Sum (x r) (k r)) l = map (fun xk => Sum (fst xk) (snd xk)) xks ->
  xks = map (fun r => (x r, k r)) l.
Proof.
  revert xks. induction l as [|r l IH]; intros [|(y, k') xks] H; try discriminate; [reflexivity|].
  cbn in H. injection H as H1 H2 H3. subst. cbn. f_equal. now apply IH.
Qed.
Lemma map_max_inv {A} (x : Z -> Z) (k : Z -> Z -> prog A) (l : list Z) xks :
  map (fun r => Max (x r) (k r)) l = map (fun xk => Max (fst xk) (snd xk)) xks ->
  xks = map (fun r => (x r, k r)) l.
Proof.
  revert xks. induction l as [|r l IH]; intros [|(y, k') xks] H; try discriminate; [reflexivity|].
  cbn in H. injection H as H1 H2 H3. subst. cbn. f_equal. now apply IH.
Qed.

(** inversions of group executions of families with the same head *)
Lemma gruns_emit {A} e (k : Z -> prog A) (l : list Z) trs os : gruns (map (fun r => Emit e (k r)) l) trs os ->
  exists trs', gruns (map k l) trs' os /\ trs = map (cons e) trs'.
Proof.
  intros H. inversion H; subst.
  - exists (map (fun p => fst (strip p)) (map k l)). split.
    + constructor. rewrite map_map in H0 |- *. exact H0.
    + now rewrite !map_map.
  - exists (zipapp (map (fun p => fst (strip p)) (map k l)) trs0). split.
    + econstructor; [|exact H1]. rewrite map_map in H0 |- *. exact H0.
    + rewrite <- zipapp_cons. now rewrite !map_map.
  - exists (zipapp (map (fun p => fst (strip p)) (map k l)) trs0). split.
    + econstructor; [|exact H1]. rewrite map_map in H0 |- *. exact H0.
    + rewrite <- zipapp_cons. now rewrite !map_map.
Qed.
Lemma emit_gruns {A} e (k : Z -> prog A) (l : list Z) trs os : gruns (map k l) trs os ->
  gruns (map (fun r => Emit e (k r)) l) (map (cons e) trs) os.
Proof.
  intros H. inversion H; subst.
  - replace (map (cons e) (map (fun p => fst (strip p)) (map k l)))
      with (map (fun p => fst (strip p)) (map (fun r => Emit e (k r)) l)) by now rewrite !map_map.
    constructor. rewrite map_map in H0 |- *. exact H0.
  - rewrite <- zipapp_cons.
    replace (map (cons e) (map (fun p => fst (strip p)) (map k l)))
      with (map (fun p => fst (strip p)) (map (fun r => Emit e (k r)) l)) by now rewrite !map_map.
    econstructor; [|exact H1]. rewrite map_map in H0 |- *. exact H0.
  - rewrite <- zipapp_cons.
    replace (map (cons e) (map (fun p => fst (strip p)) (map k l)))
      with (map (fun p => fst (strip p)) (map (fun r => Emit e (k r)) l)) by now rewrite !map_map.
    econstructor; [|exact H1]. rewrite map_map in H0 |- *. exact H0.
Qed.
Lemma cons_ne {X} (f : Z -> X) l : l <> [] -> map f l <> [].
Proof. destruct l; [contradiction|discriminate]. Qed.
Lemma gruns_sum {A} (x : Z -> K) (k : Z -> K -> prog A) trs os : gruns (map (fun r => Sum (x r) (k r)) rs) trs os ->
  gruns (map (fun r => k r (total x)) rs) trs os.
Proof.
  intros H. inversion H; subst; rewrite map_map in H0; cbn in H0.
  - exfalso. destruct rs as [|r l]; [now apply rs_ne|]. destruct os as [|[a|w] os]; discriminate.
  - apply map_sum_inv in H0. subst xks. rewrite !map_map in H1. cbn in H1.
    pose proof (gruns_length _ _ _ H1) as (HL & _). rewrite map_length in HL.
    rewrite map_map. cbn. rewrite zipapp_nil by assumption. exact H1.
  - exfalso. destruct rs as [|r l]; [now apply rs_ne|]. discriminate.
Qed.
Lemma sum_gruns {A} (x : Z -> K) (k : Z -> K -> prog A) trs os : gruns (map (fun r => k r (total x)) rs) trs os ->
  gruns (map (fun r => Sum (x r) (k r)) rs) trs os.
Proof.
  intros H. pose proof (gruns_length _ _ _ H) as (HL & _). rewrite map_length in HL.
  rewrite <- (zipapp_nil rs trs HL).
  replace (map (fun _ => []) rs) with (map (fun p => fst (strip p)) (map (fun r => Sum (x r) (k r)) rs))
    by now rewrite map_map.
  eapply g_sum with (xks := map (fun r => (x r, k r)) rs).
  - now rewrite !map_map.
  - rewrite !map_map. exact H.
Qed.
Lemma gruns_max {A} (x : Z -> Z) (k : Z -> Z -> prog A) trs os : gruns (map (fun r => Max (x r) (k r)) rs) trs os ->
  gruns (map (fun r => k r (maxi x)) rs) trs os.
Proof.
  intros H. inversion H; subst; rewrite map_map in H0; cbn [strip snd] in H0.
  - exfalso. destruct rs as [|r l]; [now apply rs_ne|]. destruct os as [|[a|w] os]; discriminate.
  - exfalso. destruct rs as [|r l]; [now apply rs_ne|]. destruct xks; discriminate.
  - apply map_max_inv in H0.
    pose proof (gruns_length _ _ _ H1) as (HL & _). rewrite map_length in HL. rewrite H0, map_length in HL.
    assert (Em : fold_left Z.max (map fst xks) x0 = maxi x).
    { unfold maxi. replace (map x rs) with (map fst ((x0, k0) :: xks)) by (now rewrite H0, map_map). reflexivity. }
    rewrite Em, H0, !map_map in H1. cbn in H1.
    rewrite map_map. cbn. rewrite zipapp_nil by assumption. exact H1.
Qed.
Lemma max_gruns {A} (x : Z -> Z) (k : Z -> Z -> prog A) trs os : gruns (map (fun r => k r (maxi x)) rs) trs os ->
  gruns (map (fun r => Max (x r) (k r)) rs) trs os.
Proof.
  intros H. pose proof (gruns_length _ _ _ H) as (HL & _). rewrite map_length in HL.
  rewrite <- (zipapp_nil rs trs HL).
  replace (map (fun _ => []) rs) with (map (fun p => fst (strip p)) (map (fun r => Max (x r) (k r)) rs))
    by now rewrite map_map.
  destruct rs as [|r0 l] eqn:Er; [now contradiction rs_ne|].
  eapply g_max with (x0 := x r0) (k0 := k r0) (xks := map (fun r => (x r, k r)) l).
  - cbn. now rewrite !map_map.
  - unfold maxi in H. rewrite Er in H. cbn [map fst snd hd tl] in H |- *. rewrite !map_map. exact H.
Qed.

Lemma g_rets {A} (a : Z -> A) : gruns (map (fun r => Ret (a r) : prog A) rs) (map (fun _ => []) rs) (map (fun r => Done (a r)) rs).
Proof.
  replace (map (fun _ => []) rs) with (map (fun p => fst (strip p)) (map (fun r => Ret (a r) : prog A) rs)) by now rewrite map_map.
  constructor. now rewrite !map_map.
Qed.
Lemma g_stops {A} w : gruns (map (fun r => Stop w : prog A) rs) (map (fun _ => []) rs) (map (fun r => Stopped w) rs).
Proof.
  replace (map (fun _ => []) rs) with (map (fun p => fst (strip p)) (map (fun r => Stop w : prog A) rs)) by now rewrite map_map.
  constructor. now rewrite !map_map.
Qed.

(** same traces, related outcomes *)
Definition agreed {A} (R : (Z -> A) -> Prop) (trs : list (list E)) (os : list (outcome A)) : Prop :=
  exists tr, trs = map (fun _ => tr) rs /\
    ((exists a, os = map (fun r => Done (a r)) rs /\ R a) \/ (exists w, os = map (fun _ => Stopped w) rs)).

Lemma LS_all {A} (R : (Z -> A) -> Prop) P : LS R P -> forall trs os, gruns (map P rs) trs os -> agreed R trs os.
Proof.
  induction 1; intros trs os G; rewrite (map_ext_rs P _ H) in G.
  - inversion G; subst.
    + rewrite map_map in H1. apply map_ended_done in H1. exists []. split; [now rewrite map_map|]. left. eauto.
    + exfalso. destruct rs as [|r l]; [now apply rs_ne|]. destruct xks; discriminate.
    + exfalso. destruct rs as [|r l]; [now apply rs_ne|]. discriminate.
  - inversion G; subst.
    + rewrite map_map in H0. apply map_ended_stop in H0. exists []. split; [now rewrite map_map|]. right. eauto.
    + exfalso. destruct rs as [|r l]; [now apply rs_ne|]. destruct xks; discriminate.
    + exfalso. destruct rs as [|r l]; [now apply rs_ne|]. discriminate.
  - apply gruns_emit in G. destruct G as (trs' & G & ->). destruct (IHLS _ _ G) as (tr & -> & Ho).
    exists (e :: tr). split; [now rewrite map_map|exact Ho].
  - apply gruns_sum in G. exact (IHLS _ _ G).
  - apply gruns_max in G. exact (IHLS _ _ G).
Qed.
Lemma LS_some {A} (R : (Z -> A) -> Prop) P : LS R P -> exists trs os, gruns (map P rs) trs os.
Proof.
  induction 1; rewrite (map_ext_rs P _ H).
  - eauto using g_rets.
  - eauto using g_stops.
  - destruct IHLS as (trs & os & G). eauto using emit_gruns.
  - destruct IHLS as (trs & os & G). eauto using sum_gruns.
  - destruct IHLS as (trs & os & G). eauto using max_gruns.
Qed.
(** the single process makes the observations of the group *)
Lemma LS2_run {A} Bad (R : (Z -> A) -> A -> Prop) P p : LS2 Bad R P p -> forall tr o, alone p tr o ->
  Forall (fun e => ~ Bad e) tr ->
  gruns (map P rs) (map (fun _ => tr) rs)
    (match o with Stopped w => map (fun _ => Stopped w) rs | Done b => [] end) /\ (exists w, o = Stopped w) \/
  exists a b, o = Done b /\ R a b /\ gruns (map P rs) (map (fun _ => tr) rs) (map (fun r => Done (a r)) rs).
Proof.
  induction 1; intros tr o S F.
  - inversion S; subst. right. exists a, b. rewrite (map_ext_rs P _ H). auto using g_rets.
  - inversion S; subst. left. rewrite (map_ext_rs P _ H). eauto using g_stops.
  - inversion S as [| |? ? tr0 ? S0]; subst. inversion F as [|? ? F1 F2]; subst. rewrite (map_ext_rs P _ H).
    destruct (H1 F1 _ _ S0 F2) as [(G & Hw)|(a & b & -> & HR & G)].
    + left. split; [|exact Hw]. apply (emit_gruns e) in G. rewrite map_map in G. exact G.
    + right. exists a, b. split; [reflexivity|]. split; [exact HR|]. apply (emit_gruns e) in G. rewrite map_map in G. exact G.
  - rewrite (map_ext_rs P _ H). destruct (IHLS2 _ _ S F) as [(G & Hw)|(a & b & -> & HR & G)].
    + left. split; [|exact Hw]. now apply sum_gruns.
    + right. exists a, b. split; [reflexivity|]. split; [exact HR|]. now apply sum_gruns.
  - rewrite (map_ext_rs P _ H). destruct (IHLS2 _ _ S F) as [(G & Hw)|(a & b & -> & HR & G)].
    + left. split; [|exact Hw]. now apply max_gruns.
    + right. exists a, b. split; [reflexivity|]. split; [exact HR|]. now apply max_gruns.
Qed.

(** executions of such families are unique *)
Lemma LS_unique {A} (R : (Z -> A) -> Prop) P : LS R P -> forall trs os trs' os',
  gruns (map P rs) trs os -> gruns (map P rs) trs' os' -> trs = trs' /\ os = os'.
Proof.
  induction 1; intros trs os trs' os' G G'; rewrite (map_ext_rs P _ H) in G, G'.
  - assert (U : forall t o, gruns (map (fun r => Ret (a r) : prog A) rs) t o -> t = map (fun _ => []) rs /\ o = map (fun r => Done (a r)) rs).
    { intros t o G0. inversion G0; subst.
      - rewrite map_map in H1. apply map_ended_done in H1. split; [now rewrite map_map|assumption].
      - exfalso. destruct rs as [|r l]; [now apply rs_ne|]. destruct xks; discriminate.
      - exfalso. destruct rs as [|r l]; [now apply rs_ne|]. discriminate. }
    destruct (U _ _ G) as (-> & ->), (U _ _ G') as (-> & ->). auto.
  - assert (U : forall t o, gruns (map (fun r => Stop w : prog A) rs) t o -> t = map (fun _ => []) rs /\ o = map (fun r => Stopped w) rs).
    { intros t o G0. inversion G0; subst.
      - rewrite map_map in H0. apply map_ended_stop in H0. split; [now rewrite map_map|assumption].
      - exfalso. destruct rs as [|r l]; [now apply rs_ne|]. destruct xks; discriminate.
      - exfalso. destruct rs as [|r l]; [now apply rs_ne|]. discriminate. }
    destruct (U _ _ G) as (-> & ->), (U _ _ G') as (-> & ->). auto.
  - apply gruns_emit in G. destruct G as (t & G & ->). apply gruns_emit in G'. destruct G' as (t' & G' & ->).
    destruct (IHLS _ _ _ _ G G') as (-> & ->). auto.
  - apply gruns_sum in G, G'. eapply IHLS; eassumption.
  - apply gruns_max in G, G'. eapply IHLS; eassumption.
Qed.
End Group.
