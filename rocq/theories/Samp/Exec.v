(** An executor, used for the examples: collectives return the process's own value. *)
From Coq Require Import ZArith List Bool Lia.
From Verif Require Import Base.ZLoop Proj.Model Proj.Spec Proj.Properties Samp.Prog Samp.Model Samp.Spec.
Import ListNotations.
Local Open Scope Z_scope.

Fixpoint exec {K E A} (p : prog K E A) : list E * outcome A :=
  match p with
  | Ret a => ([], Done a)
  | Stop w => ([], Stopped w)
  | Emit e k => let r := exec k in (e :: fst r, snd r)
  | Sum x k => exec (k x)
  | Max x k => exec (k x)
  end.
Lemma exec_runs {K E A} (p : prog K E A) : runs p (fst (exec p)) (snd (exec p)).
Proof. induction p; cbn; econstructor; eauto. Qed.
(** a process alone, if no collective is called *)
Fixpoint alone_ok {K E A} (p : prog K E A) : bool :=
  match p with Ret _ | Stop _ => true | Emit _ k => alone_ok k | Sum _ _ | Max _ _ => false end.
Lemma exec_alone {K E A} (p : prog K E A) : alone_ok p = true -> alone p (fst (exec p)) (snd (exec p)).
Proof. induction p; cbn; intros H0; try discriminate; constructor; auto. Qed.
Definition is_done {A} (o : outcome A) : bool := match o with Done _ => true | Stopped _ => false end.

(** 3 sites, site 1 a local spin, 2 up and 2 down electrons *)
Definition ex_input (path sz : Z) : input := Input ex_tables 2 (fun r => if r =? 1 then 1 else 0) sz 1 path 2 3 1 4.
Lemma ex_input_wf path sz : wf_input (ex_input path sz).
Proof.
  constructor; cbn; [apply ex_tables_wf|lia..|]. intros r _. destruct (r =? 1); auto.
Qed.
(** pseudo random words; amplitudes are integers; the word decides about acceptance *)
Definition ex_rnd (seed p : Z) : Z := ((p * p * 2654435761 + p * 40503 + seed * 7919) * 69069 + 12345) mod 4294967296.
Definition ex_orc (seed : Z) : oracles :=
  Oracles (ex_rnd seed) 200 (fun _ => 99) Z Z Z 0 Z.add
    (fun w q _ => (eleIdx w 0 + q, 0)) (fun q m => q + m) (fun q m _ _ => q + 2 * m) (fun q m _ _ => m + 1)
    (fun k => k) (fun _ => true) (fun _ _ _ _ r => Z.odd (r / 16)).
Definition ex_walker : walker := Walker (fun _ => 0) (fun _ => 0) (fun _ => 0) (fun _ => 0) (fun _ => 0).
Definition ex_run (seed path : Z) (burn : option walker) :=
  exec (vmc_make_sample (ex_input path 0) (ex_orc seed) 0 1 burn ex_walker (fun _ => 0) 0).
Definition ex_run_fsz (seed path sz : Z) :=
  exec (vmc_make_sample_fsz (ex_input path sz) (ex_orc seed) 0 1 None ex_walker (fun _ => 0) 0).
Definition occupation (N : Z) (w : walker) : list Z := map (eleNum w) (zrange 0 (2 * N)).
Definition nth_shown {L} (n : nat) (tr : list (event L)) : walker := walker_of (nth n tr (AtStep ex_walker)).
Lemma nth_shown_ok {L A B} n (tr : list (event L)) (o : outcome (A * walker * B)) : Nat.ltb n (length tr) = true ->
  shown tr o (nth_shown n tr).
Proof. intros H. left. exists (nth n tr (AtStep ex_walker)). split; [apply nth_In, Nat.ltb_lt, H|reflexivity]. Qed.
Lemma ex_run_runs seed path burn :
  runs (vmc_make_sample (ex_input path 0) (ex_orc seed) 0 1 burn ex_walker (fun _ => 0) 0) (fst (ex_run seed path burn)) (snd (ex_run seed path burn)).
Proof. unfold ex_run. apply exec_runs. Qed.
Lemma ex_run_fsz_runs seed path sz :
  runs (vmc_make_sample_fsz (ex_input path sz) (ex_orc seed) 0 1 None ex_walker (fun _ => 0) 0) (fst (ex_run_fsz seed path sz)) (snd (ex_run_fsz seed path sz)).
Proof. unfold ex_run_fsz. apply exec_runs. Qed.

(** executor of a group *)
Section Group.
Context {K E A : Type}.
Variables (kzero : K) (kadd : K -> K -> K).
Fixpoint traverse {X Y} (f : X -> option Y) (l : list X) : option (list Y) :=
  match l with
  | [] => Some []
  | x :: l => match f x, traverse f l with Some y, Some l' => Some (y :: l') | _, _ => None end
  end.
Lemma traverse_ok {X Y} (f : X -> option Y) (g : Y -> X) : (forall x y, f x = Some y -> x = g y) ->
  forall l l', traverse f l = Some l' -> l = map g l'.
Proof.
  intros H. induction l as [|x l IH]; cbn; intros l' E'.
  - now inversion E'.
  - destruct (f x) eqn:Ex; [|discriminate]. destruct (traverse f l) eqn:El; [|discriminate]. inversion E'; subst; clear E'.
    cbn. rewrite (H _ _ Ex). now rewrite <- (IH _ eq_refl).
Qed.
Definition to_end (p : prog K E A) : option (outcome A) := match p with Ret a => Some (Done a) | Stop w => Some (Stopped w) | _ => None end.
Definition to_sum (p : prog K E A) : option (K * (K -> prog K E A)) := match p with Sum x k => Some (x, k) | _ => None end.
Definition to_max (p : prog K E A) : option (Z * (Z -> prog K E A)) := match p with Max x k => Some (x, k) | _ => None end.
Fixpoint gexec (n : nat) (ps : list (prog K E A)) : option (list (list E) * list (outcome A)) :=
  match n with
  | 0%nat => None
  | S n =>
    let pre := map (fun p => fst (strip p)) ps in
    let qs := map (fun p => snd (strip p)) ps in
    match traverse to_end qs with
    | Some os => Some (pre, os)
    | None =>
      match traverse to_sum qs with
      | Some xks =>
        match gexec n (map (fun xk => snd xk (fold_right kadd kzero (map fst xks))) xks) with
        | Some (trs, os) => Some (zipapp pre trs, os) | None => None end
      | None =>
        match traverse to_max qs with
        | Some ((x0, k0) :: xks) =>
          match gexec n (map (fun xk => snd xk (fold_left Z.max (map fst xks) x0)) ((x0, k0) :: xks)) with
          | Some (trs, os) => Some (zipapp pre trs, os) | None => None end
        | _ => None
        end
      end
    end
  end.
Lemma gexec_gruns n : forall ps trs os, gexec n ps = Some (trs, os) -> gruns kzero kadd ps trs os.
Proof.
  induction n as [|n IH]; intros ps trs os; cbn; [discriminate|].
  destruct (traverse to_end _) eqn:E1.
  - intros H. inversion H; subst; clear H. apply g_done. apply traverse_ok with (f := to_end); [|exact E1].
    intros [a| | | |w] y Hy; cbn in Hy; inversion Hy; reflexivity.
  - clear E1. destruct (traverse to_sum _) as [xks|] eqn:E1.
    + destruct (gexec n _) as [(trs', os')|] eqn:E2; [|discriminate]. intros H. inversion H; subst; clear H.
      apply g_sum with (xks := xks).
      * apply traverse_ok with (f := to_sum); [|exact E1]. intros [a|x k| | |w] y Hy; cbn in Hy; inversion Hy; reflexivity.
      * apply IH, E2.
    + clear E1. destruct (traverse to_max _) as [[|(x0, k0) xks]|] eqn:E1; try discriminate.
      destruct (gexec n _) as [(trs', os')|] eqn:E2; [|discriminate]. intros H. inversion H; subst; clear H.
      apply g_max with (x0 := x0) (k0 := k0) (xks := xks).
      * apply traverse_ok with (f := to_max); [|exact E1]. intros [a|x k|x k| |w] y Hy; cbn in Hy; inversion Hy; reflexivity.
      * apply IH, E2.
Qed.
End Group.

(** up electrons 0, 1 on sites 0, 1; down electrons 0, 1 on sites 0, 2 *)
Definition ex_w : walker :=
  Walker (fun x => if x =? 1 then 1 else if x =? 3 then 2 else 0)
         (fun i => if (i =? 0) || (i =? 3) then 0 else if (i =? 1) || (i =? 5) then 1 else -1) ex_ele (fun _ => 0)
         (fun x => if x <? 2 then 0 else 1).
(** as ex_orc; projection 0 is singular at ex_w *)
Definition ex_orc_sing (seed : Z) : oracles :=
  Oracles (ex_rnd seed) 200 (fun _ => 99) Z Z Z 0 Z.add
    (fun w q a => if (q =? 0) && (eleIdx w 1 =? 1) && (eleIdx w 3 =? 2) then (a, 1) else (eleIdx w 0 + q, 0))
    (fun q m => q + m) (fun q m _ _ => q + 2 * m) (fun q m _ _ => m + 1)
    (fun k => k) (fun _ => true) (fun _ _ l _ r => Z.odd (l + r / 16)).
Definition trs_of {X Y} (g : option (list X * list Y)) : list X := match g with Some (trs, _) => trs | None => [] end.
Definition os_of {X Y} (g : option (list X * list Y)) : list Y := match g with Some (_, os) => os | None => [] end.
Lemma gexec_of {K E A} kzero kadd n (ps : list (prog K E A)) g : g = gexec kzero kadd n ps ->
  (match g with Some _ => true | None => false end) = true -> gruns kzero kadd ps (trs_of g) (os_of g).
Proof. intros -> H. destruct (gexec _ _ n ps) as [(a, b)|] eqn:E'; [|discriminate]. exact (gexec_gruns kzero kadd n ps a b E'). Qed.
Definition ex_alone_sing := exec (vmc_make_sample (ex_input 1 0) (ex_orc_sing 2) 0 1 (Some ex_w) ex_walker (fun _ => 7) 0).
Definition ex_group_sing :=
  gexec 0 Z.add 1000 (map (fun r => vmc_make_sample (ex_input 1 0) (ex_orc_sing 2) r 2 (Some ex_w) ex_walker (fun _ => 7) 0) (zrange 0 2)).
Lemma ex_alone_sing_ok : alone (vmc_make_sample (ex_input 1 0) (ex_orc_sing 2) 0 1 (Some ex_w) ex_walker (fun _ => 7) 0)
  (fst ex_alone_sing) (snd ex_alone_sing).
Proof. unfold ex_alone_sing. apply exec_alone. vm_compute. reflexivity. Qed.
Lemma ex_group_sing_ok : gruns 0 Z.add
  (map (fun r => vmc_make_sample (ex_input 1 0) (ex_orc_sing 2) r 2 (Some ex_w) ex_walker (fun _ => 7) 0) (zrange 0 2))
  (trs_of ex_group_sing) (os_of ex_group_sing).
Proof. apply (gexec_of 0 Z.add 1000); [unfold ex_group_sing; reflexivity|vm_compute; reflexivity]. Qed.
