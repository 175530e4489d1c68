(** Reasoning about programs of one process. *)
From Coq Require Import ZArith List Bool Lia.
From Verif Require Import Base.ZLoop Base.Checked Samp.Prog.
Import ListNotations.
Local Open Scope Z_scope.

Section Hoare.
Context {K E : Type}.
Notation prog := (Prog.prog K E).

(** for all replies of collectives: no undefined behaviour, all observations satisfy [Ev], results [Q] *)
Fixpoint safe {A} (Ev : E -> Prop) (Q : A -> Prop) (p : prog A) : Prop :=
  match p with
  | Ret a => Q a
  | Sum _ k => forall y, safe Ev Q (k y)
  | Max _ k => forall y, safe Ev Q (k y)
  | Emit e k => Ev e /\ safe Ev Q k
  | Stop Undefined => False
  | Stop _ => True
  end.

Lemma safe_runs {A} Ev Q (p : prog A) tr o : safe Ev Q p -> runs p tr o ->
  Forall Ev tr /\ match o with Done a => Q a | Stopped w => w <> Undefined end.
Proof.
  intros H R. induction R; cbn in H.
  - auto.
  - split; [constructor|]. destruct w; [discriminate|discriminate|destruct H].
  - destruct H as (H1 & H2). destruct (IHR H2). split; [constructor|]; auto.
  - auto.
  - auto.
Qed.

Lemma safe_bind {A B} Ev (Q : A -> Prop) (Q' : B -> Prop) (p : prog A) f :
  safe Ev Q p -> (forall a, Q a -> safe Ev Q' (f a)) -> safe Ev Q' (bindP p f).
Proof.
  intros H Hf. induction p; cbn in *; auto.
  destruct H; auto.
Qed.

Lemma safe_mono {A} (Ev Ev' : E -> Prop) (Q Q' : A -> Prop) (p : prog A) :
  safe Ev Q p -> (forall e, Ev e -> Ev' e) -> (forall a, Q a -> Q' a) -> safe Ev' Q' p.
Proof.
  intros H He Hq. induction p; cbn in *; auto.
  destruct H; auto.
Qed.
Lemma safe_post {A} (Ev : E -> Prop) (Q Q' : A -> Prop) (p : prog A) :
  safe Ev Q p -> (forall a, Q a -> Q' a) -> safe Ev Q' p.
Proof. intros H Hq. eapply safe_mono; eauto. Qed.

Lemma get_ok n a i : 0 <= i < n -> (get n a i : prog Z) = Ret (a i).
Proof. intros H. unfold get. now rewrite rd_ok. Qed.
Lemma put_ok n a i v : 0 <= i < n -> (put n a i v : prog _) = Ret (upd a i v).
Proof. intros H. unfold put. now rewrite wr_ok. Qed.
Lemma umod_ok w n : 0 < n -> (umod w n : prog Z) = Ret (w mod n).
Proof. intros H. unfold umod. now rewrite (proj2 (Z.ltb_lt 0 n) H). Qed.

Lemma safe_umod Ev n w : 0 < n -> safe Ev (fun i => 0 <= i < n) (umod w n : prog Z).
Proof. intros H. rewrite umod_ok by assumption. cbn. now apply Z.mod_pos_bound. Qed.

Lemma safe_forM {S} Ev (P : Z -> S -> Prop) a b f (s : S) : a <= b -> P a s ->
  (forall i s, a <= i < b -> P i s -> safe Ev (P (i + 1)) (f i s)) ->
  safe Ev (P b) (forM (zrange a b) f s : prog S).
Proof.
  intros Hab. replace b with (a + Z.of_nat (Z.to_nat (b - a))) by lia.
  generalize (Z.to_nat (b - a)) as n. clear Hab. intros n. revert a s.
  induction n as [|n IH]; intros a s H0 Hs.
  - rewrite zrange_nil by lia. cbn [forM safe]. now rewrite Z.add_0_r.
  - rewrite zrange_cons by lia. cbn [forM].
    eapply safe_bind; [apply Hs; [lia|assumption]|].
    intros s' H'. replace (a + Z.of_nat (Datatypes.S n)) with (a + 1 + Z.of_nat n) in * by lia.
    apply IH; [assumption|]. intros; apply Hs; [lia|assumption].
Qed.

Lemma safe_forM_inv {S} Ev (P : S -> Prop) l f (s : S) : P s ->
  (forall i s, In i l -> P s -> safe Ev P (f i s)) -> safe Ev P (forM l f s : prog S).
Proof.
  revert s. induction l as [|i l IH]; intros s H0 Hs; [exact H0|].
  cbn [forM]. eapply safe_bind; [apply Hs; [now left|assumption]|].
  intros s' H'. apply IH; [assumption|]. intros; apply Hs; [now right|assumption].
Qed.

Lemma safe_search {A} Ev (Q : A -> Prop) fuel body p :
  (forall p, safe Ev (fun r => forall a, snd r = Some a -> Q a) (body p)) ->
  safe Ev (fun r => Q (snd r)) (search fuel body p : prog (Z * A)).
Proof.
  intros H. revert p. induction fuel as [|fuel IH]; intros p; [exact I|].
  cbn [search]. eapply safe_bind; [apply H|].
  intros (p', [a|]) Ha; cbn [snd fst] in *; [cbn; now apply Ha|apply IH].
Qed.

(** inversion of executions *)
Lemma runs_bind {A B} (p : prog A) (f : A -> prog B) tr o : runs (bindP p f) tr o ->
  (exists tr1 tr2 a, tr = tr1 ++ tr2 /\ runs p tr1 (Done a) /\ runs (f a) tr2 o) \/
  (exists w, o = Stopped w /\ runs p tr (Stopped w)).
Proof.
  revert tr. induction p; intros tr R; cbn [bindP] in R.
  - left. exists [], tr, a. repeat split; auto. constructor.
  - inversion R; subst. destruct (H _ _ H4) as [(t1 & t2 & a & -> & R1 & R2)|(w & -> & R1)].
    + left. exists t1, t2, a. repeat split; auto. econstructor; eassumption.
    + right. exists w. split; auto. econstructor; eassumption.
  - inversion R; subst. destruct (H _ _ H4) as [(t1 & t2 & a & -> & R1 & R2)|(w & -> & R1)].
    + left. exists t1, t2, a. repeat split; auto. econstructor; eassumption.
    + right. exists w. split; auto. econstructor; eassumption.
  - inversion R; subst. destruct (IHp _ H3) as [(t1 & t2 & a & -> & R1 & R2)|(w & -> & R1)].
    + left. exists (e :: t1), t2, a. repeat split; auto. econstructor; eassumption.
    + right. exists w. split; auto. econstructor; eassumption.
  - inversion R; subst. right. exists why. split; auto. constructor.
Qed.
Lemma runs_bind_done {A B} (p : prog A) (f : A -> prog B) tr b : runs (bindP p f) tr (Done b) ->
  exists tr1 tr2 a, tr = tr1 ++ tr2 /\ runs p tr1 (Done a) /\ runs (f a) tr2 (Done b).
Proof. intros R. destruct (runs_bind _ _ _ _ R) as [H|(w & E0 & _)]; [exact H|discriminate]. Qed.

End Hoare.
