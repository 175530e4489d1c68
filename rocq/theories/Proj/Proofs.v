From Coq Require Import ZArith List Bool Lia.
From Verif Require Import Base.ZLoop Base.Checked Proj.Model Proj.Spec.
Import ListNotations.
Local Open Scope Z_scope.

(** ** computations that add a state-independent amount to every cell *)
Definition adds (f : (Z -> Z) -> option (Z -> Z)) (d : Z -> Z) : Prop :=
  forall c, exists c', f c = Some c' /\ forall j, c' j = c j + d j.

Lemma adds_skip : adds (fun c => Some c) (fun _ => 0).
Proof. intros c. exists c. split; [reflexivity|intros; lia]. Qed.

Lemma adds_inc n i v : 0 <= i < n -> adds (fun c => inc n c i v) (fun j => if i =? j then v else 0).
Proof. intros H c. exists (addto c i v). split; [now apply inc_ok|]. intros j. apply addto_get. Qed.

Lemma adds_seq f g d e : adds f d -> adds g e -> adds (fun c => bind (f c) g) (fun j => d j + e j).
Proof.
  intros Hf Hg c. destruct (Hf c) as (c1 & E1 & H1). destruct (Hg c1) as (c2 & E2 & H2).
  exists c2. rewrite E1. split; [exact E2|]. intros j. rewrite H2, H1. lia.
Qed.

Lemma adds_loopM a b f d : (forall i, a <= i < b -> adds (f i) (d i)) ->
  adds (loopM a b f) (fun j => zsum (zrange a b) (fun i => d i j)).
Proof.
  intros H c. unfold loopM.
  assert (Hl : forall i, In i (zrange a b) -> adds (f i) (d i)) by (intros i Hi; apply H; now apply zrange_in).
  clear H. revert c. induction (zrange a b) as [|x l IH]; intros c.
  - exists c. split; [reflexivity|]. intros; cbn; lia.
  - cbn [fold_left zsum]. change (bind (Some c) (f x)) with (f x c).
    destruct (Hl x (or_introl eq_refl) c) as (c1 & -> & H1).
    destruct (IH (fun i Hi => Hl i (or_intror Hi)) c1) as (c2 & E2 & H2).
    exists c2. split; [exact E2|]. intros j. rewrite H2, H1. lia.
Qed.

Lemma adds_ext f g d e : (forall c, g c = f c) -> (forall j, e j = d j) -> adds f d -> adds g e.
Proof.
  intros Hf Hd H c. destruct (H c) as (c' & E & Hc). exists c'. rewrite Hf. split; [exact E|].
  intros j. rewrite Hd. apply Hc.
Qed.

Section Proofs.
Variable T : tables.
Hypothesis WF : wf_tables T.
Local Notation N := (Nsite T).
Local Notation NG := (NGutzwillerIdx T).
Local Notation NJ := (NJastrowIdx T).
Local Notation N2 := (NDoublonHolon2siteIdx T).
Local Notation N4 := (NDoublonHolon4siteIdx T).

Lemma NProj_eq : NProj T = NG + NJ + 6 * N2 + 10 * N4.
Proof. unfold NProj. lia. Qed.

Lemma sizes_nonneg : 0 <= N /\ 0 <= NG /\ 0 <= NJ /\ 0 <= N2 /\ 0 <= N4.
Proof. destruct WF; auto. Qed.

Lemma jast_ok ri rj : 0 <= ri < N -> 0 <= rj < N -> jast T ri rj = Some (JastrowIdx T ri rj).
Proof. intros. unfold jast. rewrite inb_true by lia. now apply rd_ok. Qed.

Lemma jast_cell ri rj : 0 < NJ -> 0 <= ri < N -> 0 <= rj < N -> ri <> rj ->
  0 <= NG + JastrowIdx T ri rj < NProj T.
Proof.
  intros. pose proof (wf_j T WF ltac:(lia) ri rj). rewrite NProj_eq.
  pose proof (wf_ng T WF). pose proof (wf_n2 T WF). pose proof (wf_n4 T WF). lia.
Qed.

Definition b2z (b : bool) : Z := if b then 1 else 0.

Lemma count2 (p : Z -> bool) : count [0; 1] p = b2z (p 0) + b2z (p 1).
Proof. unfold count, b2z. cbn. lia. Qed.

Lemma count4 (p : Z -> bool) : count [0; 1; 2; 3] p = b2z (p 0) + b2z (p 1) + b2z (p 2) + b2z (p 3).
Proof. unfold count, b2z. cbn. lia. Qed.

Lemma b2z_range b : 0 <= b2z b <= 1.
Proof. destruct b; cbn; lia. Qed.

Definition idx2 (xn xi xm : Z) : Z := NG + NJ + xn + (xi + 2 * xm) * N2.

Definition idx4 (xn xi xm : Z) : Z := NG + NJ + 6 * N2 + xn + (xi + 2 * xm) * N4.

Lemma idx2_range xn xi xm : 0 <= xn < N2 -> 0 <= xi <= 1 -> 0 <= xm <= 2 ->
  NG + NJ <= idx2 xn xi xm < NG + NJ + 6 * N2.
Proof. intros. unfold idx2. nia. Qed.

Lemma idx4_range xn xi xm : 0 <= xn < N4 -> 0 <= xi <= 1 -> 0 <= xm <= 4 ->
  NG + NJ + 6 * N2 <= idx4 xn xi xm < NProj T.
Proof. intros. unfold idx4. rewrite NProj_eq. nia. Qed.

Lemma idx2_inj xn xi xm xn' xi' xm' :
  0 <= xn < N2 -> 0 <= xn' < N2 -> 0 <= xi <= 1 -> 0 <= xi' <= 1 ->
  idx2 xn xi xm = idx2 xn' xi' xm' -> xn = xn' /\ xi = xi' /\ xm = xm'.
Proof.
  unfold idx2. intros H1 H2 H3 H4 E.
  assert (xi + 2 * xm = xi' + 2 * xm') by nia. nia.
Qed.

Lemma idx4_inj xn xi xm xn' xi' xm' :
  0 <= xn < N4 -> 0 <= xn' < N4 -> 0 <= xi <= 1 -> 0 <= xi' <= 1 ->
  idx4 xn xi xm = idx4 xn' xi' xm' -> xn = xn' /\ xi = xi' /\ xm = xm'.
Proof.
  unfold idx4. intros H1 H2 H3 H4 E.
  assert (xi + 2 * xm = xi' + 2 * xm') by nia. nia.
Qed.

Lemma zero_fill_ok a b c : 0 <= a -> b <= NProj T ->
  exists c', zero_fill T a b c = Some c' /\
  forall j, c' j = if (a <=? j) && (j <? b) then 0 else c j.
Proof.
  intros Ha Hb. unfold zero_fill.
  exists (loop a b (fun i c => upd c i 0) c). split.
  - apply loopM_pure. intros i s Hi. apply wr_ok. lia.
  - intros j. destruct (Z.le_gt_cases b a) as [Hle|Hlt].
    + rewrite loop_nil by lia. replace ((a <=? j) && (j <? b)) with false by lia. reflexivity.
    + revert j.
      apply (loop_inv (fun i s => forall j, s j = if (a <=? j) && (j <? i) then 0 else c j)); [lia| |].
      * intros j. replace ((a <=? j) && (j <? a)) with false by lia. reflexivity.
      * intros i s Hi Hs j. rewrite upd_get, Hs.
        destruct (j =? i) eqn:?, ((a <=? j) && (j <? i)) eqn:?, ((a <=? j) && (j <? i + 1)) eqn:?;
          try reflexivity; lia.
Qed.


Section Cfg.
Variable e : Z -> Z.

Lemma n0_ok r : 0 <= r < N -> n0 T e r = Some (e r).
Proof. intros. unfold n0. apply rd_ok. lia. Qed.
Lemma n1_ok r : 0 <= r < N -> n1 T e r = Some (e (r + N)).
Proof. intros. unfold n1. apply rd_ok. lia. Qed.

Definition d_gutz (j : Z) : Z :=
  if 0 <? NG then zsum (zrange 0 N) (fun r => if GutzwillerIdx T r =? j then e r * e (r + N) else 0) else 0.

Lemma make_gutz_adds : adds (make_gutz T e) d_gutz.
Proof.
  unfold make_gutz, d_gutz. destruct (0 <? NG) eqn:E; [|apply adds_skip].
  apply adds_loopM. intros r Hr.
  eapply adds_ext; [..|apply adds_inc with (n := NProj T) (i := GutzwillerIdx T r)].
  - intros c. unfold gutz. rewrite rd_ok by lia. cbn [bind]. rewrite n0_ok, n1_ok by lia. reflexivity.
  - intros j. reflexivity.
  - pose proof (wf_g T WF ltac:(lia) r Hr). rewrite NProj_eq.
    pose proof (wf_nj T WF). pose proof (wf_n2 T WF). pose proof (wf_n4 T WF). lia.
Qed.

Definition xo (r : Z) : Z := e r + e (r + N) - 1.

Definition d_jast (j : Z) : Z :=
  if 0 <? NJ then
    zsum (zrange 0 N) (fun ri => zsum (zrange (ri + 1) N) (fun rj =>
      if NG + JastrowIdx T ri rj =? j then xo ri * xo rj else 0))
  else 0.



Lemma make_jast_adds : adds (make_jast T e) d_jast.
Proof.
  unfold make_jast, d_jast. destruct (0 <? NJ) eqn:E; [|apply adds_skip].
  apply adds_loopM. intros ri Hri.
  destruct (Z.eqb_spec (xo ri) 0) as [Hx|Hx].
  - eapply adds_ext; [..|apply adds_skip].
    + intros c. rewrite n0_ok, n1_ok by lia. cbn [bind]. fold (xo ri). rewrite Hx. reflexivity.
    + intros j. cbn beta. apply zsum_zero. intros rj _. rewrite Hx. destruct (_ =? _); lia.
  - eapply adds_ext; [..|apply adds_loopM with (a := ri + 1) (b := N)
      (f := fun rj c => a' <- n0 T e rj;; b' <- n1 T e rj;; jt <- jast T ri rj;;
                        inc (NProj T) c (NG + jt) ((e ri + e (ri + N) - 1) * (a' + b' - 1)))].
    + intros c. rewrite n0_ok, n1_ok by lia. cbn [bind]. fold (xo ri).
      replace (xo ri =? 0) with false by lia. reflexivity.
    + intros j. reflexivity.
    + intros rj Hrj. eapply adds_ext; [..|apply adds_inc with (n := NProj T) (i := NG + JastrowIdx T ri rj)].
      * intros c. rewrite n0_ok, n1_ok, jast_ok by lia. cbn [bind]. reflexivity.
      * intros j. reflexivity.
      * apply jast_cell; lia.
Qed.

Lemma partners2_range xn xi r : 0 <= partners2 T e xn xi r <= 2.
Proof.
  unfold partners2. rewrite count2.
  match goal with |- context [b2z ?a + b2z ?b] => pose proof (b2z_range a); pose proof (b2z_range b) end. lia.
Qed.

Lemma partners4_range xn xi r : 0 <= partners4 T e xn xi r <= 4.
Proof.
  unfold partners4. rewrite count4.
  match goal with |- context [b2z ?a + b2z ?b + b2z ?c + b2z ?d] =>
    pose proof (b2z_range a); pose proof (b2z_range b); pose proof (b2z_range c); pose proof (b2z_range d) end.
  lia.
Qed.

Definition xi_of (r : Z) : Z := if occ T e r =? 0 then 0 else 1.

Lemma xi_range r : 0 <= xi_of r <= 1.
Proof. unfold xi_of. destruct (_ =? _); lia. Qed.

Lemma d_jast_spec k : 0 <= k < NJ -> d_jast (NG + k) = spec_jast T e k.
Proof.
  intros Hk. unfold d_jast. replace (0 <? NJ) with true by lia.
  unfold spec_jast. apply zsum_ext. intros ri Hri. apply zsum_ext. intros rj Hrj.
  unfold xo, occ.
  destruct (Z.eqb_spec (NG + JastrowIdx T ri rj) (NG + k)), (Z.eqb_spec (JastrowIdx T ri rj) k); lia.
Qed.

Lemma d_gutz_out k : ~ (0 <= k < NG) -> d_gutz k = 0.
Proof.
  intros Hk. unfold d_gutz. destruct (0 <? NG) eqn:E; [|reflexivity].
  apply zsum_zero. intros r Hr. apply zrange_in in Hr.
  pose proof (wf_g T WF ltac:(lia) r Hr).
  destruct (Z.eqb_spec (GutzwillerIdx T r) k); [lia|reflexivity].
Qed.

Lemma d_jast_out k : ~ (NG <= k < NG + NJ) -> d_jast k = 0.
Proof.
  intros Hk. unfold d_jast. destruct (0 <? NJ) eqn:E; [|reflexivity].
  apply zsum_zero. intros ri Hri. apply zrange_in in Hri.
  apply zsum_zero. intros rj Hrj. apply zrange_in in Hrj.
  pose proof (wf_j T WF ltac:(lia) ri rj ltac:(lia) ltac:(lia) ltac:(lia)).
  destruct (Z.eqb_spec (NG + JastrowIdx T ri rj) k); [lia|reflexivity].
Qed.

Definition d_dh2 (xn j : Z) : Z :=
  zsum (zrange 0 N) (fun r => if occ T e r =? 1 then 0
                              else if idx2 xn (xi_of r) (partners2 T e xn (xi_of r) r) =? j then 1 else 0).


Definition d_dh4 (xn j : Z) : Z :=
  zsum (zrange 0 N) (fun r => if occ T e r =? 1 then 0
                              else if idx4 xn (xi_of r) (partners4 T e xn (xi_of r) r) =? j then 1 else 0).


Definition d_dh2s (j : Z) : Z := zsum (zrange 0 N2) (fun xn => d_dh2 xn j).

Definition d_dh4s (j : Z) : Z := zsum (zrange 0 N4) (fun xn => d_dh4 xn j).

Lemma d_dh2_out j : ~ (NG + NJ <= j < NG + NJ + 6 * N2) -> d_dh2s j = 0.
Proof.
  intros Hj. unfold d_dh2s. apply zsum_zero. intros xn Hxn. apply zrange_in in Hxn.
  unfold d_dh2. apply zsum_zero. intros r Hr. destruct (occ T e r =? 1); [reflexivity|].
  pose proof (idx2_range xn (xi_of r) _ Hxn (xi_range r) (partners2_range xn (xi_of r) r)).
  destruct (Z.eqb_spec (idx2 xn (xi_of r) (partners2 T e xn (xi_of r) r)) j); [lia|reflexivity].
Qed.

Lemma d_dh4_out j : ~ (NG + NJ + 6 * N2 <= j < NProj T) -> d_dh4s j = 0.
Proof.
  intros Hj. unfold d_dh4s. apply zsum_zero. intros xn Hxn. apply zrange_in in Hxn.
  unfold d_dh4. apply zsum_zero. intros r Hr. destruct (occ T e r =? 1); [reflexivity|].
  pose proof (idx4_range xn (xi_of r) _ Hxn (xi_range r) (partners4_range xn (xi_of r) r)).
  destruct (Z.eqb_spec (idx4 xn (xi_of r) (partners4 T e xn (xi_of r) r)) j); [lia|reflexivity].
Qed.


(** doublon-holon parts *)
Hypothesis OCC : occ01 N e.

Lemma e01 r : 0 <= r < N -> (e r = 0 \/ e r = 1) /\ (e (r + N) = 0 \/ e (r + N) = 1).
Proof. intros H. split; apply OCC; lia. Qed.

Lemma occ_cases r : 0 <= r < N -> occ T e r = 0 \/ occ T e r = 1 \/ occ T e r = 2.
Proof. intros H. unfold occ. destruct (e01 r H). lia. Qed.


Lemma dbl_ok r : 0 <= r < N -> dbl T e r = Some (b2z (doublon T e r)).
Proof.
  intros H. unfold dbl. rewrite n0_ok, n1_ok by lia. cbn [bind]. f_equal.
  unfold doublon, occ, b2z. destruct (e01 r H) as [[-> | ->] [-> | ->]]; reflexivity.
Qed.

Lemma hol_ok r : 0 <= r < N -> hol T e r = Some (b2z (holon T e r)).
Proof.
  intros H. unfold hol. rewrite n0_ok, n1_ok by lia. cbn [bind]. f_equal.
  unfold holon, occ, b2z. destruct (e01 r H) as [[-> | ->] [-> | ->]]; reflexivity.
Qed.


Lemma quot_occ r : 0 <= r < N -> occ T e r =? 1 = false -> Z.quot (occ T e r) 2 = xi_of r.
Proof.
  intros H H1. unfold xi_of. destruct (occ_cases r H) as [E|[E|E]]; rewrite E in *; try reflexivity; discriminate.
Qed.







Lemma dh2_body_adds xn : 0 <= xn < N2 -> adds (dh2_body T e xn) (d_dh2 xn).
Proof.
  intros Hxn. unfold dh2_body, d_dh2. apply adds_loopM. intros r Hr.
  destruct (occ T e r =? 1) eqn:E1.
  - eapply adds_ext; [..|apply adds_skip].
    + intros c. rewrite n0_ok, n1_ok by lia. cbn [bind]. fold (occ T e r). rewrite E1. reflexivity.
    + intros j. reflexivity.
  - eapply adds_ext; [..|apply adds_inc with (n := NProj T)
        (i := idx2 xn (xi_of r) (partners2 T e xn (xi_of r) r)) (v := 1)].
    + intros c. rewrite n0_ok, n1_ok by lia. cbn [bind]. fold (occ T e r). rewrite E1.
      unfold dh2. rewrite inb_true by lia. rewrite !rd_ok by lia. cbn [bind].
      rewrite quot_occ by assumption.
      pose proof (wf_2 T WF xn (2 * r) Hxn ltac:(lia)).
      pose proof (wf_2 T WF xn (2 * r + 1) Hxn ltac:(lia)).
      rewrite !dbl_ok, !hol_ok by assumption.
      unfold partners2. rewrite count2.
      replace (2 * r + 0) with (2 * r) by lia.
      destruct (xi_of r =? 0); cbn [bind]; unfold idx2; reflexivity.
    + intros j. reflexivity.
    + pose proof (idx2_range xn (xi_of r) _ Hxn (xi_range r) (partners2_range xn (xi_of r) r)).
      rewrite NProj_eq. pose proof (wf_ng T WF). pose proof (wf_nj T WF). pose proof (wf_n4 T WF). lia.
Qed.

Lemma dh4_body_adds xn : 0 <= xn < N4 -> adds (dh4_body T e xn) (d_dh4 xn).
Proof.
  intros Hxn. unfold dh4_body, d_dh4. apply adds_loopM. intros r Hr.
  destruct (occ T e r =? 1) eqn:E1.
  - eapply adds_ext; [..|apply adds_skip].
    + intros c. rewrite n0_ok, n1_ok by lia. cbn [bind]. fold (occ T e r). rewrite E1. reflexivity.
    + intros j. reflexivity.
  - eapply adds_ext; [..|apply adds_inc with (n := NProj T)
        (i := idx4 xn (xi_of r) (partners4 T e xn (xi_of r) r)) (v := 1)].
    + intros c. rewrite n0_ok, n1_ok by lia. cbn [bind]. fold (occ T e r). rewrite E1.
      unfold dh4. rewrite inb_true by lia. rewrite !rd_ok by lia. cbn [bind].
      rewrite quot_occ by assumption.
      pose proof (wf_4 T WF xn (4 * r) Hxn ltac:(lia)).
      pose proof (wf_4 T WF xn (4 * r + 1) Hxn ltac:(lia)).
      pose proof (wf_4 T WF xn (4 * r + 2) Hxn ltac:(lia)).
      pose proof (wf_4 T WF xn (4 * r + 3) Hxn ltac:(lia)).
      rewrite !dbl_ok, !hol_ok by assumption.
      unfold partners4. rewrite count4.
      replace (4 * r + 0) with (4 * r) by lia.
      destruct (xi_of r =? 0); cbn [bind]; unfold idx4; reflexivity.
    + intros j. reflexivity.
    + pose proof (idx4_range xn (xi_of r) _ Hxn (xi_range r) (partners4_range xn (xi_of r) r)).
      pose proof (wf_ng T WF). pose proof (wf_nj T WF). pose proof (wf_n2 T WF). lia.
Qed.


Lemma dh2_loop_adds : adds (loopM 0 N2 (dh2_body T e)) d_dh2s.
Proof. apply adds_loopM. apply dh2_body_adds. Qed.
Lemma dh4_loop_adds : adds (loopM 0 N4 (dh4_body T e)) d_dh4s.
Proof. apply adds_loopM. apply dh4_body_adds. Qed.

Lemma make_dh2_adds : adds (make_dh2 T e) d_dh2s.
Proof.
  unfold make_dh2. destruct (0 <? N2) eqn:E; [apply dh2_loop_adds|].
  eapply adds_ext; [..|apply adds_skip]; [reflexivity|].
  intros j. unfold d_dh2s. rewrite zrange_nil by lia. reflexivity.
Qed.
Lemma make_dh4_adds : adds (make_dh4 T e) d_dh4s.
Proof.
  unfold make_dh4. destruct (0 <? N4) eqn:E; [apply dh4_loop_adds|].
  eapply adds_ext; [..|apply adds_skip]; [reflexivity|].
  intros j. unfold d_dh4s. rewrite zrange_nil by lia. reflexivity.
Qed.


Definition d_all (j : Z) : Z := d_gutz j + d_jast j + d_dh2s j + d_dh4s j.

Lemma make_cells c : exists c', make_proj_cnt T c e = Some c' /\
  forall j, c' j = (if (0 <=? j) && (j <? NProj T) then 0 else c j) + d_all j.
Proof.
  unfold make_proj_cnt.
  destruct (zero_fill_ok 0 (NProj T) c ltac:(lia) ltac:(lia)) as (c0 & -> & H0). cbn [bind].
  destruct (make_gutz_adds c0) as (c1 & -> & H1). cbn [bind].
  destruct (make_jast_adds c1) as (c2 & -> & H2). cbn [bind].
  destruct (make_dh2_adds c2) as (c3 & -> & H3). cbn [bind].
  destruct (make_dh4_adds c3) as (c4 & -> & H4).
  exists c4. split; [reflexivity|]. intros j. rewrite H4, H3, H2, H1, H0. unfold d_all. lia.
Qed.

(** values of the parts in the cells of each family *)
Lemma d_gutz_spec k : 0 <= k < NG -> d_gutz k = spec_gutz T e k.
Proof.
  intros Hk. unfold d_gutz. replace (0 <? NG) with true by lia.
  unfold spec_gutz, count. apply zsum_ext. intros r Hr. apply zrange_in in Hr.
  destruct (GutzwillerIdx T r =? k); cbn [andb]; [|reflexivity].
  unfold doublon, occ. destruct (e01 r Hr) as [[-> | ->] [-> | ->]]; reflexivity.
Qed.





Lemma site_type r xi : 0 <= r < N -> 0 <= xi <= 1 ->
  (if xi =? 0 then holon T e else doublon T e) r = negb (occ T e r =? 1) && (xi_of r =? xi).
Proof.
  intros Hr Hxi. unfold xi_of, holon, doublon.
  assert (xi = 0 \/ xi = 1) as [-> | ->] by lia;
    cbn [Z.eqb]; destruct (occ_cases r Hr) as [-> | [-> | ->]]; reflexivity.
Qed.

Lemma d_dh2_spec xn0 xi xm : 0 <= xn0 < N2 -> 0 <= xi <= 1 ->
  d_dh2s (idx2 xn0 xi xm) = spec_dh2 T e xn0 xi xm.
Proof.
  intros Hxn Hxi. unfold d_dh2s.
  rewrite (zsum_range_split1 0 N2 xn0) by assumption.
  rewrite (zsum_zero (zrange 0 N2)).
  - unfold d_dh2, spec_dh2, count. rewrite Z.add_0_r. apply zsum_ext. intros r Hr. apply zrange_in in Hr.
    rewrite site_type by assumption.
    destruct (occ T e r =? 1); [reflexivity|]. cbn [negb andb].
    destruct (Z.eqb_spec (xi_of r) xi) as [<-|Hne]; cbn [andb].
    + destruct (Z.eqb_spec (partners2 T e xn0 (xi_of r) r) xm) as [->|Hne2].
      * rewrite Z.eqb_refl. reflexivity.
      * destruct (Z.eqb_spec (idx2 xn0 (xi_of r) (partners2 T e xn0 (xi_of r) r)) (idx2 xn0 (xi_of r) xm)) as [E|];
          [|reflexivity].
        apply idx2_inj in E; [tauto|..]; auto using xi_range.
    + destruct (Z.eqb_spec (idx2 xn0 (xi_of r) (partners2 T e xn0 (xi_of r) r)) (idx2 xn0 xi xm)) as [E|];
        [|reflexivity].
      apply idx2_inj in E; [tauto|..]; auto using xi_range.
  - intros xn Hxn'. apply zrange_in in Hxn'. destruct (Z.eqb_spec xn xn0) as [|Hne]; [reflexivity|].
    unfold d_dh2. apply zsum_zero. intros r Hr. destruct (occ T e r =? 1); [reflexivity|].
    destruct (Z.eqb_spec (idx2 xn (xi_of r) (partners2 T e xn (xi_of r) r)) (idx2 xn0 xi xm)) as [E|];
      [|reflexivity].
    apply idx2_inj in E; [tauto|..]; auto using xi_range.
Qed.


Lemma d_dh4_spec xn0 xi xm : 0 <= xn0 < N4 -> 0 <= xi <= 1 ->
  d_dh4s (idx4 xn0 xi xm) = spec_dh4 T e xn0 xi xm.
Proof.
  intros Hxn Hxi. unfold d_dh4s.
  rewrite (zsum_range_split1 0 N4 xn0) by assumption.
  rewrite (zsum_zero (zrange 0 N4)).
  - unfold d_dh4, spec_dh4, count. rewrite Z.add_0_r. apply zsum_ext. intros r Hr. apply zrange_in in Hr.
    rewrite site_type by assumption.
    destruct (occ T e r =? 1); [reflexivity|]. cbn [negb andb].
    destruct (Z.eqb_spec (xi_of r) xi) as [<-|Hne]; cbn [andb].
    + destruct (Z.eqb_spec (partners4 T e xn0 (xi_of r) r) xm) as [->|Hne2].
      * rewrite Z.eqb_refl. reflexivity.
      * destruct (Z.eqb_spec (idx4 xn0 (xi_of r) (partners4 T e xn0 (xi_of r) r)) (idx4 xn0 (xi_of r) xm)) as [E|];
          [|reflexivity].
        apply idx4_inj in E; [tauto|..]; auto using xi_range.
    + destruct (Z.eqb_spec (idx4 xn0 (xi_of r) (partners4 T e xn0 (xi_of r) r)) (idx4 xn0 xi xm)) as [E|];
        [|reflexivity].
      apply idx4_inj in E; [tauto|..]; auto using xi_range.
  - intros xn Hxn'. apply zrange_in in Hxn'. destruct (Z.eqb_spec xn xn0) as [|Hne]; [reflexivity|].
    unfold d_dh4. apply zsum_zero. intros r Hr. destruct (occ T e r =? 1); [reflexivity|].
    destruct (Z.eqb_spec (idx4 xn (xi_of r) (partners4 T e xn (xi_of r) r)) (idx4 xn0 xi xm)) as [E|];
      [|reflexivity].
    apply idx4_inj in E; [tauto|..]; auto using xi_range.
Qed.



Lemma d_all_is : is_proj_cnt T e d_all.
Proof.
  pose proof sizes_nonneg as (? & ? & ? & ? & ?). pose proof NProj_eq.
  split; intros; unfold d_all.
  - rewrite d_gutz_spec, d_jast_out, d_dh2_out, d_dh4_out by lia. lia.
  - rewrite d_gutz_out, d_jast_spec, d_dh2_out, d_dh4_out by lia. lia.
  - fold (idx2 xn xi xm). pose proof (idx2_range xn xi xm ltac:(lia) ltac:(lia) ltac:(lia)).
    rewrite d_gutz_out, d_jast_out, d_dh2_spec, d_dh4_out by lia. lia.
  - fold (idx4 xn xi xm). pose proof (idx4_range xn xi xm ltac:(lia) ltac:(lia) ltac:(lia)).
    rewrite d_gutz_out, d_jast_out, d_dh2_out, d_dh4_spec by lia. lia.
Qed.

Lemma make_correct c : exists c', make_proj_cnt T c e = Some c' /\ is_proj_cnt T e c' /\
  forall j, ~ (0 <= j < NProj T) -> c' j = c j.
Proof.
  destruct (make_cells c) as (c' & E & H). exists c'. split; [exact E|].
  pose proof sizes_nonneg as (? & ? & ? & ? & ?). pose proof NProj_eq.
  split.
  - destruct d_all_is as [A B C D].
    split; intros; rewrite H.
    + replace ((0 <=? k) && (k <? NProj T)) with true by lia. rewrite A by lia. lia.
    + replace ((0 <=? NG + k) && (NG + k <? NProj T)) with true by lia. rewrite B by lia. lia.
    + rewrite C by assumption. fold (idx2 xn xi xm).
      pose proof (idx2_range xn xi xm ltac:(lia) ltac:(lia) ltac:(lia)).
      replace ((0 <=? idx2 xn xi xm) && (idx2 xn xi xm <? NProj T)) with true by lia. lia.
    + rewrite D by assumption. fold (idx4 xn xi xm).
      pose proof (idx4_range xn xi xm ltac:(lia) ltac:(lia) ltac:(lia)).
      replace ((0 <=? idx4 xn xi xm) && (idx4 xn xi xm <? NProj T)) with true by lia. lia.
  - intros j Hj. rewrite H. replace ((0 <=? j) && (j <? NProj T)) with false by lia.
    unfold d_all. rewrite d_gutz_out, d_jast_out, d_dh2_out, d_dh4_out by lia. lia.
Qed.

End Cfg.

(** every cell below NProj belongs to one of the families *)
Lemma cell_cases j : 0 <= j < NProj T ->
  (0 <= j < NG) \/ (exists k, 0 <= k < NJ /\ j = NG + k)
  \/ (exists xn xi xm, 0 <= xn < N2 /\ 0 <= xi <= 1 /\ 0 <= xm <= 2 /\ j = idx2 xn xi xm)
  \/ (exists xn xi xm, 0 <= xn < N4 /\ 0 <= xi <= 1 /\ 0 <= xm <= 4 /\ j = idx4 xn xi xm).
Proof.
  intros Hj. rewrite NProj_eq in Hj. pose proof sizes_nonneg as (? & ? & ? & ? & ?).
  destruct (Z.lt_ge_cases j NG) as [|H5]; [left; lia|].
  destruct (Z.lt_ge_cases j (NG + NJ)) as [|H6]; [right; left; exists (j - NG); lia|].
  destruct (Z.lt_ge_cases j (NG + NJ + 6 * N2)) as [H7|H7].
  - right; right; left. set (u := j - NG - NJ).
    assert (0 < N2) by lia.
    pose proof (Z.div_mod u N2 ltac:(lia)). pose proof (Z.mod_pos_bound u N2 ltac:(lia)).
    assert (0 <= u / N2) by (apply Z.div_pos; unfold u; lia).
    assert (u / N2 < 6) by (apply Z.div_lt_upper_bound; unfold u; lia).
    set (a := u / N2) in *.
    pose proof (Z.div_mod a 2 ltac:(lia)). pose proof (Z.mod_pos_bound a 2 ltac:(lia)).
    exists (u mod N2), (a mod 2), (a / 2). unfold idx2.
    repeat split; try lia.
  - right; right; right. set (u := j - NG - NJ - 6 * N2).
    assert (0 < N4) by lia.
    pose proof (Z.div_mod u N4 ltac:(lia)). pose proof (Z.mod_pos_bound u N4 ltac:(lia)).
    assert (0 <= u / N4) by (apply Z.div_pos; unfold u; lia).
    assert (u / N4 < 10) by (apply Z.div_lt_upper_bound; unfold u; lia).
    set (a := u / N4) in *.
    pose proof (Z.div_mod a 2 ltac:(lia)). pose proof (Z.mod_pos_bound a 2 ltac:(lia)).
    exists (u mod N4), (a mod 2), (a / 2). unfold idx4.
    repeat split; try lia.
Qed.

Lemma is_proj_cnt_unique e c c' : is_proj_cnt T e c -> is_proj_cnt T e c' ->
  forall j, 0 <= j < NProj T -> c j = c' j.
Proof.
  intros [A B C D] [A' B' C' D'] j Hj.
  destruct (cell_cases j Hj) as [H|[(k & H & ->)|[(xn & xi & xm & H1 & H2 & H3 & ->)|(xn & xi & xm & H1 & H2 & H3 & ->)]]].
  - rewrite A, A' by assumption. reflexivity.
  - rewrite B, B' by assumption. reflexivity.
  - unfold idx2. rewrite C, C' by assumption. reflexivity.
  - unfold idx4. rewrite D, D' by assumption. reflexivity.
Qed.

Lemma is_proj_cnt_cells e c c' : is_proj_cnt T e c -> (forall j, 0 <= j < NProj T -> c j = c' j) ->
  is_proj_cnt T e c'.
Proof.
  intros [A B C D] H. pose proof sizes_nonneg as (? & ? & ? & ? & ?). pose proof NProj_eq.
  split; intros.
  - rewrite <- H by lia. auto.
  - rewrite <- H by lia. auto.
  - rewrite <- C by assumption. symmetry. apply H.
    pose proof (idx2_range xn xi xm ltac:(lia) ltac:(lia) ltac:(lia)). unfold idx2 in *. lia.
  - rewrite <- D by assumption. symmetry. apply H.
    pose proof (idx4_range xn xi xm ltac:(lia) ltac:(lia) ltac:(lia)). unfold idx4 in *. lia.
Qed.

(** the counters depend on the configuration through the site occupations only *)
Lemma count_ext l p q : (forall x, In x l -> p x = q x) -> count l p = count l q.
Proof. intros H. unfold count. apply zsum_ext. intros x Hx. rewrite (H x Hx). reflexivity. Qed.

Lemma doublon_ext e e' r : occ T e r = occ T e' r -> doublon T e r = doublon T e' r.
Proof. unfold doublon. intros ->. reflexivity. Qed.
Lemma holon_ext e e' r : occ T e r = occ T e' r -> holon T e r = holon T e' r.
Proof. unfold holon. intros ->. reflexivity. Qed.

Lemma is_proj_cnt_occ e e' c : (forall r, 0 <= r < N -> occ T e r = occ T e' r) ->
  is_proj_cnt T e c -> is_proj_cnt T e' c.
Proof.
  intros HO [A B C D]. split; intros.
  - rewrite A by assumption. unfold spec_gutz. apply count_ext. intros r Hr. apply zrange_in in Hr.
    rewrite (doublon_ext e e') by auto. reflexivity.
  - rewrite B by assumption. unfold spec_jast. apply zsum_ext. intros ri Hri. apply zrange_in in Hri.
    apply zsum_ext. intros rj Hrj. apply zrange_in in Hrj. rewrite !HO by lia. reflexivity.
  - rewrite C by assumption. unfold spec_dh2. apply count_ext. intros r Hr. apply zrange_in in Hr.
    assert (Hp : partners2 T e xn xi r = partners2 T e' xn xi r).
    { unfold partners2. apply count_ext. intros j Hj.
      assert (0 <= 2 * r + j < 2 * N) by (destruct Hj as [<-|[<-|[]]]; lia).
      pose proof (wf_2 T WF xn (2 * r + j) ltac:(lia) ltac:(lia)).
      destruct (xi =? 0); [apply doublon_ext|apply holon_ext]; apply HO; assumption. }
    rewrite Hp. f_equal. destruct (xi =? 0); [apply holon_ext|apply doublon_ext]; apply HO; assumption.
  - rewrite D by assumption. unfold spec_dh4. apply count_ext. intros r Hr. apply zrange_in in Hr.
    assert (Hp : partners4 T e xn xi r = partners4 T e' xn xi r).
    { unfold partners4. apply count_ext. intros j Hj.
      assert (0 <= 4 * r + j < 4 * N) by (destruct Hj as [<-|[<-|[<-|[<-|[]]]]]; lia).
      pose proof (wf_4 T WF xn (4 * r + j) ltac:(lia) ltac:(lia)).
      destruct (xi =? 0); [apply doublon_ext|apply holon_ext]; apply HO; assumption. }
    rewrite Hp. f_equal. destruct (xi =? 0); [apply holon_ext|apply doublon_ext]; apply HO; assumption.
Qed.

(** ** the incremental update *)
Section Upd.
Variables (e e' : Z -> Z) (a b : Z).
Hypothesis OCC : occ01 N e.
Hypothesis OCC' : occ01 N e'.
Hypothesis Ha : 0 <= a < N.
Hypothesis Hb : 0 <= b < N.
Hypothesis Hab : a <> b.
(** occupations before/after *)
Hypothesis Hoa : occ T e' a = occ T e a - 1.
Hypothesis Hob : occ T e' b = occ T e b + 1.
Hypothesis Hother : forall r, 0 <= r < N -> r <> a -> r <> b -> occ T e' r = occ T e r.

Definition du_gutz (j : Z) : Z :=
  if 0 <? NG then (if GutzwillerIdx T a =? j then - (e' a + e' (a + N)) else 0)
                  + (if GutzwillerIdx T b =? j then e' b * e' (b + N) else 0)
  else 0.

Lemma upd_gutz_adds : adds (upd_gutz T a b e') du_gutz.
Proof.
  unfold upd_gutz, du_gutz. destruct (0 <? NG) eqn:E; [|apply adds_skip].
  pose proof (wf_g T WF ltac:(lia) a Ha) as Hga. pose proof (wf_g T WF ltac:(lia) b Hb) as Hgb.
  pose proof sizes_nonneg as (? & ? & ? & ? & ?). pose proof NProj_eq.
  eapply adds_ext; [| |apply adds_seq;
    [apply adds_inc with (n := NProj T) (i := GutzwillerIdx T a) (v := - (e' a + e' (a + N)))
    |apply adds_inc with (n := NProj T) (i := GutzwillerIdx T b) (v := e' b * e' (b + N))]]; try lia.
  - intros c. unfold gutz. rewrite !rd_ok by lia. cbn [bind].
    rewrite !n0_ok, !n1_ok by lia. cbn [bind]. reflexivity.
  - intros j. reflexivity.
Qed.

Definition Js (i j : Z) : Z := if i <? j then JastrowIdx T i j else JastrowIdx T j i.

Definition du_loop (r sgn j : Z) : Z :=
  zsum (zrange 0 N) (fun rk => if (rk =? a) || (rk =? b) then 0
     else if NG + Js r rk =? j then sgn * xo e' rk else 0).

Lemma upd_jast_loop_adds r sgn : 0 < NJ -> (r = a \/ r = b) ->
  adds (upd_jast_loop T a b r sgn e') (du_loop r sgn).
Proof.
  intros HNJ Hr. unfold upd_jast_loop, du_loop. apply adds_loopM. intros rk Hrk.
  destruct ((rk =? a) || (rk =? b)) eqn:E.
  - eapply adds_ext; [..|apply adds_skip]; [|reflexivity].
    intros c. destruct (rk =? b); [reflexivity|]. destruct (rk =? a); [reflexivity|discriminate].
  - assert (Hrk' : rk <> a /\ rk <> b) by lia. destruct Hrk' as (Hka & Hkb).
    assert (Hrr : 0 <= r < N /\ r <> rk) by (destruct Hr; subst; lia). destruct Hrr as (Hrr & Hrk2).
    eapply adds_ext; [..|apply adds_inc with (n := NProj T) (i := NG + Js r rk) (v := sgn * xo e' rk)].
    + intros c. replace (rk =? b) with false by lia. replace (rk =? a) with false by lia.
      unfold Js. destruct (r <? rk); rewrite jast_ok by lia; cbn [bind];
        rewrite n0_ok, n1_ok by lia; reflexivity.
    + intros j. reflexivity.
    + unfold Js. destruct (r <? rk); apply jast_cell; lia.
Qed.

Definition du_jast (j : Z) : Z :=
  if 0 <? NJ then (if NG + Js a b =? j then xo e' a - xo e' b + 1 else 0)
                  + (du_loop a (-1) j + du_loop b 1 j)
  else 0.

Lemma upd_jast_adds : adds (upd_jast T a b e') du_jast.
Proof.
  unfold upd_jast, du_jast. destruct (0 <? NJ) eqn:E; [|apply adds_skip].
  eapply adds_ext; [| |apply adds_seq;
    [apply adds_inc with (n := NProj T) (i := NG + Js a b) (v := xo e' a - xo e' b + 1)
    |apply adds_seq; [apply upd_jast_loop_adds with (r := a) (sgn := -1)
                     |apply upd_jast_loop_adds with (r := b) (sgn := 1)]]]; try lia.
  - intros c. assert (Hj : (if a <? b then jast T a b else jast T b a) = Some (Js a b)).
    { unfold Js. destruct (a <? b); apply jast_ok; lia. }
    rewrite Hj. cbn [bind]. rewrite !n0_ok, !n1_ok by lia. cbn [bind].
    unfold xo. replace (e' a + e' (a + N) - 1 - (e' b + e' (b + N) - 1) + 1)
      with (e' a + e' (a + N) - e' b - e' (b + N) + 1) by lia. reflexivity.
  - intros j. reflexivity.
  - unfold Js. destruct (a <? b); apply jast_cell; lia.
Qed.

(** Gutzwiller cells *)
Lemma e01' r : 0 <= r < N -> (e r = 0 \/ e r = 1) /\ (e (r + N) = 0 \/ e (r + N) = 1).
Proof. apply e01; assumption. Qed.
Lemma e'01' r : 0 <= r < N -> (e' r = 0 \/ e' r = 1) /\ (e' (r + N) = 0 \/ e' (r + N) = 1).
Proof. apply e01; assumption. Qed.

Lemma gutz_step k : 0 <= k < NG -> spec_gutz T e' k = spec_gutz T e k + du_gutz k.
Proof.
  intros Hk. unfold spec_gutz, count, du_gutz. replace (0 <? NG) with true by lia.
  rewrite (zsum_range_split2 0 N a b (fun x => if (GutzwillerIdx T x =? k) && doublon T e x then 1 else 0)) by assumption.
  rewrite (zsum_range_split2 0 N a b (fun x => if (GutzwillerIdx T x =? k) && doublon T e' x then 1 else 0)) by assumption.
  match goal with |- _ + ?u = _ + ?v + _ => assert (Hrest : u = v) end.
  { apply zsum_ext. intros r Hr. apply zrange_in in Hr.
    destruct ((r =? a) || (r =? b)) eqn:E; [reflexivity|].
    rewrite (doublon_ext e' e) by (apply Hother; lia). reflexivity. }
  rewrite Hrest. unfold doublon in *.
  assert (HA : (if (GutzwillerIdx T a =? k) && (occ T e' a =? 2) then 1 else 0)
               = (if (GutzwillerIdx T a =? k) && (occ T e a =? 2) then 1 else 0)
                 + (if GutzwillerIdx T a =? k then - (e' a + e' (a + N)) else 0)).
  { destruct (GutzwillerIdx T a =? k); cbn [andb]; [|lia].
    change (e' a + e' (a + N)) with (occ T e' a). rewrite Hoa.
    pose proof (occ_cases e OCC a Ha). pose proof (occ_cases e' OCC' a Ha).
    destruct (occ T e a - 1 =? 2) eqn:?, (occ T e a =? 2) eqn:?; lia. }
  assert (HB : (if (GutzwillerIdx T b =? k) && (occ T e' b =? 2) then 1 else 0)
               = (if (GutzwillerIdx T b =? k) && (occ T e b =? 2) then 1 else 0)
                 + (if GutzwillerIdx T b =? k then e' b * e' (b + N) else 0)).
  { destruct (GutzwillerIdx T b =? k); cbn [andb]; [|lia].
    pose proof (occ_cases e OCC b Hb). unfold occ in *.
    destruct (e'01' b Hb) as [[E1|E1] [E2|E2]]; rewrite E1, E2 in *; cbn [Z.eqb Z.add Pos.eqb Z.mul Pos.add];
      destruct (e b + e (b + N) =? 2) eqn:?; lia. }
  lia.
Qed.

(** Jastrow cells *)
Definition W (k i j : Z) : Z := if i =? j then 0 else if Js i j =? k then 1 else 0.

Lemma W_sym k i j : W k i j = W k j i.
Proof.
  unfold W. rewrite (Z.eqb_sym j i). destruct (Z.eqb_spec i j) as [|Hne]; [reflexivity|].
  unfold Js. destruct (Z.ltb_spec i j), (Z.ltb_spec j i); try lia; reflexivity.
Qed.

Lemma pair_sum_double k (x : Z -> Z) :
  2 * zsum (zrange 0 N) (fun i => zsum (zrange (i + 1) N) (fun j => if JastrowIdx T i j =? k then x i * x j else 0))
  = zsum (zrange 0 N) (fun i => zsum (zrange 0 N) (fun j => W k i j * (x i * x j))).
Proof.
  set (F := fun i j => if i <? j then (if JastrowIdx T i j =? k then x i * x j else 0) else 0).
  assert (H1 : zsum (zrange 0 N) (fun i => zsum (zrange (i + 1) N) (fun j => if JastrowIdx T i j =? k then x i * x j else 0))
             = zsum (zrange 0 N) (fun i => zsum (zrange 0 N) (fun j => F i j))).
  { apply zsum_ext. intros i Hi. apply zrange_in in Hi.
    rewrite (zsum_range_app 0 (i + 1) N) by lia.
    rewrite (zsum_zero (zrange 0 (i + 1))).
    - rewrite Z.add_0_l. apply zsum_ext. intros j Hj. apply zrange_in in Hj. unfold F.
      replace (i <? j) with true by lia. reflexivity.
    - intros j Hj. apply zrange_in in Hj. unfold F. replace (i <? j) with false by lia. reflexivity. }
  rewrite H1.
  assert (H2 : zsum (zrange 0 N) (fun i => zsum (zrange 0 N) (fun j => F i j))
             = zsum (zrange 0 N) (fun i => zsum (zrange 0 N) (fun j => F j i))).
  { rewrite zsum_swap. reflexivity. }
  replace (2 * zsum (zrange 0 N) (fun i => zsum (zrange 0 N) (fun j => F i j)))
    with (zsum (zrange 0 N) (fun i => zsum (zrange 0 N) (fun j => F i j))
          + zsum (zrange 0 N) (fun i => zsum (zrange 0 N) (fun j => F j i))) by lia.
  rewrite <- zsum_add. apply zsum_ext. intros i _. rewrite <- zsum_add. apply zsum_ext. intros j _.
  unfold F, W, Js. destruct (Z.eqb_spec i j) as [->|Hne].
  - rewrite Z.ltb_irrefl. reflexivity.
  - destruct (Z.ltb_spec i j), (Z.ltb_spec j i); try lia.
    + destruct (JastrowIdx T i j =? k); lia.
    + destruct (JastrowIdx T j i =? k); lia.
Qed.

Lemma xo_occ f r : xo f r = occ T f r - 1.
Proof. reflexivity. Qed.

Lemma jast_step k : 0 <= k < NJ -> spec_jast T e' k = spec_jast T e k + du_jast (NG + k).
Proof.
  intros Hk.
  assert (H2 : 2 * spec_jast T e' k = 2 * spec_jast T e k + 2 * du_jast (NG + k)); [|lia].
  unfold spec_jast. rewrite !(pair_sum_double k (fun r => occ T _ r - 1)).
  set (x := fun r => occ T e r - 1). set (y := fun r => occ T e' r - 1).
  set (d := fun r => (if r =? b then 1 else 0) - (if r =? a then 1 else 0)).
  assert (Hy : forall r, 0 <= r < N -> x r = y r - d r).
  { intros r Hr. unfold x, y, d. destruct (Z.eqb_spec r b), (Z.eqb_spec r a); subst; try lia;
      rewrite Hother by assumption; lia. }
  rewrite (zsum_ext _ (fun i => zsum (zrange 0 N) (fun j => W k i j * ((occ T e i - 1) * (occ T e j - 1))))
             (fun i => zsum (zrange 0 N) (fun j => W k i j * (y i * y j))
                       - zsum (zrange 0 N) (fun j => W k i j * (d i * y j))
                       - zsum (zrange 0 N) (fun j => W k i j * (y i * d j))
                       + zsum (zrange 0 N) (fun j => W k i j * (d i * d j)))).
  2:{ intros i Hi. apply zrange_in in Hi. rewrite <- !zsum_sub, <- zsum_add. apply zsum_ext.
      intros j Hj. apply zrange_in in Hj. fold (x i). fold (x j). rewrite !Hy by assumption. lia. }
  rewrite zsum_add, !zsum_sub.
  change (zsum (zrange 0 N) (fun i => zsum (zrange 0 N) (fun j => W k i j * ((occ T e' i - 1) * (occ T e' j - 1)))))
    with (zsum (zrange 0 N) (fun i => zsum (zrange 0 N) (fun j => W k i j * (y i * y j)))).
  (* linear forms *)
  assert (Hd : forall f, zsum (zrange 0 N) (fun r => d r * f r) = f b - f a).
  { intros f. unfold d.
    rewrite (zsum_ext _ (fun r => ((if r =? b then 1 else 0) - (if r =? a then 1 else 0)) * f r)
               (fun r => (if r =? b then f r else 0) - (if r =? a then f r else 0)))
      by (intros r _; destruct (r =? b), (r =? a); lia).
    rewrite zsum_sub, !zsum_delta_range.
    replace ((0 <=? b) && (b <? N)) with true by lia. replace ((0 <=? a) && (a <? N)) with true by lia.
    reflexivity. }
  set (L := fun r => zsum (zrange 0 N) (fun j => W k r j * y j)).
  assert (HL1 : zsum (zrange 0 N) (fun i => zsum (zrange 0 N) (fun j => W k i j * (d i * y j))) = L b - L a).
  { rewrite <- (Hd L). apply zsum_ext. intros i _. unfold L. rewrite <- zsum_mul. apply zsum_ext. intros; lia. }
  assert (HL2 : zsum (zrange 0 N) (fun i => zsum (zrange 0 N) (fun j => W k i j * (y i * d j))) = L b - L a).
  { rewrite zsum_swap. rewrite <- (Hd L). apply zsum_ext. intros i _. unfold L. rewrite <- zsum_mul.
    apply zsum_ext. intros j _. rewrite (W_sym k i j). lia. }
  assert (HL3 : zsum (zrange 0 N) (fun i => zsum (zrange 0 N) (fun j => W k i j * (d i * d j))) = -2 * W k a b).
  { rewrite (zsum_ext _ _ (fun i => d i * (W k i b - W k i a))).
    - rewrite Hd. rewrite (W_sym k b a). unfold W. rewrite !Z.eqb_refl. lia.
    - intros i _. rewrite <- (Hd (fun j => W k i j)). rewrite <- zsum_mul. apply zsum_ext. intros; lia. }
  rewrite HL1, HL2, HL3.
  (* the code's increments *)
  unfold du_jast. replace (0 <? NJ) with true by lia.
  assert (HLa : L a = W k a b * y b + zsum (zrange 0 N) (fun r => if (r =? a) || (r =? b) then 0 else W k a r * y r)).
  { unfold L. rewrite (zsum_range_split2 0 N a b) by assumption.
    assert (W k a a = 0) as -> by (unfold W; rewrite Z.eqb_refl; reflexivity). lia. }
  assert (HLb : L b = W k a b * y a + zsum (zrange 0 N) (fun r => if (r =? a) || (r =? b) then 0 else W k b r * y r)).
  { unfold L. rewrite (zsum_range_split2 0 N a b) by assumption.
    assert (W k b b = 0) as -> by (unfold W; rewrite Z.eqb_refl; reflexivity). rewrite (W_sym k b a). lia. }
  assert (Hda : du_loop a (-1) (NG + k)
                = - zsum (zrange 0 N) (fun r => if (r =? a) || (r =? b) then 0 else W k a r * y r)).
  { unfold du_loop.
    replace (- zsum (zrange 0 N) (fun r => if (r =? a) || (r =? b) then 0 else W k a r * y r))
      with ((-1) * zsum (zrange 0 N) (fun r => if (r =? a) || (r =? b) then 0 else W k a r * y r)) by lia.
    rewrite <- zsum_mul. apply zsum_ext. intros r _.
    destruct ((r =? a) || (r =? b)) eqn:E; [reflexivity|].
    unfold W, y, xo. fold (occ T e' r). replace (a =? r) with false by lia.
    destruct (Z.eqb_spec (NG + Js a r) (NG + k)), (Z.eqb_spec (Js a r) k); try lia. }
  assert (Hdb : du_loop b 1 (NG + k)
                = zsum (zrange 0 N) (fun r => if (r =? a) || (r =? b) then 0 else W k b r * y r)).
  { unfold du_loop. apply zsum_ext. intros r _.
    destruct ((r =? a) || (r =? b)) eqn:E; [reflexivity|].
    unfold W, y, xo. fold (occ T e' r). replace (b =? r) with false by lia.
    destruct (Z.eqb_spec (NG + Js b r) (NG + k)), (Z.eqb_spec (Js b r) k); try lia. }
  rewrite Hda, Hdb.
  assert (Hw : (if NG + Js a b =? NG + k then xo e' a - xo e' b + 1 else 0) = W k a b * (y a - y b + 1)).
  { unfold W, y, xo. fold (occ T e' a). fold (occ T e' b). replace (a =? b) with false by lia.
    destruct (Z.eqb_spec (NG + Js a b) (NG + k)), (Z.eqb_spec (Js a b) k); try lia. }
  rewrite Hw, HLa, HLb. clearbody y. lia.
Qed.

(** increments outside their own family *)
Lemma du_gutz_out k : ~ (0 <= k < NG) -> du_gutz k = 0.
Proof.
  intros Hk. unfold du_gutz. destruct (0 <? NG) eqn:E; [|reflexivity].
  pose proof (wf_g T WF ltac:(lia) a Ha). pose proof (wf_g T WF ltac:(lia) b Hb).
  destruct (Z.eqb_spec (GutzwillerIdx T a) k), (Z.eqb_spec (GutzwillerIdx T b) k); lia.
Qed.

Lemma Js_range i j : 0 < NJ -> 0 <= i < N -> 0 <= j < N -> i <> j -> 0 <= Js i j < NJ.
Proof.
  intros. unfold Js. destruct (i <? j); apply (wf_j T WF); lia.
Qed.

Lemma du_jast_out k : ~ (NG <= k < NG + NJ) -> du_jast k = 0.
Proof.
  intros Hk. unfold du_jast. destruct (0 <? NJ) eqn:E; [|reflexivity].
  pose proof (Js_range a b ltac:(lia) Ha Hb Hab).
  destruct (Z.eqb_spec (NG + Js a b) k); [lia|].
  assert (HL : forall r sgn, (r = a \/ r = b) -> du_loop r sgn k = 0).
  { intros r sgn Hr. unfold du_loop. apply zsum_zero. intros rk Hrk. apply zrange_in in Hrk.
    destruct ((rk =? a) || (rk =? b)) eqn:E2; [reflexivity|].
    pose proof (Js_range r rk ltac:(lia) ltac:(destruct Hr; subst; assumption) Hrk ltac:(lia)).
    destruct (Z.eqb_spec (NG + Js r rk) k); [lia|reflexivity]. }
  rewrite !HL by tauto. reflexivity.
Qed.

Lemma upd_rest c : is_proj_cnt T e c ->
  exists c', (c <- upd_gutz T a b e' c;;
              c <- upd_jast T a b e' c;;
              if (N2 =? 0) && (N4 =? 0) then Some c
              else c <- zero_fill T (NG + NJ) (NProj T) c;;
                   c <- loopM 0 N2 (dh2_body T e') c;;
                   loopM 0 N4 (dh4_body T e') c) = Some c'
             /\ is_proj_cnt T e' c' /\ forall j, ~ (0 <= j < NProj T) -> c' j = c j.
Proof.
  intros Hc. pose proof sizes_nonneg as (Hn_ & Hg_ & Hj_ & H2_ & H4_). pose proof NProj_eq as HNP.
  destruct (upd_gutz_adds c) as (c1 & -> & H1). cbn [bind].
  destruct (upd_jast_adds c1) as (c2 & -> & H2). cbn [bind].
  assert (HG : forall k, 0 <= k < NG -> c2 k = spec_gutz T e' k).
  { intros k Hk. rewrite H2, H1, (cnt_gutz T e c Hc) by assumption.
    rewrite du_jast_out, gutz_step by lia. lia. }
  assert (HJ : forall k, 0 <= k < NJ -> c2 (NG + k) = spec_jast T e' k).
  { intros k Hk. rewrite H2, H1, (cnt_jast T e c Hc) by assumption.
    rewrite du_gutz_out, jast_step by lia. lia. }
  destruct ((N2 =? 0) && (N4 =? 0)) eqn:E.
  - exists c2. split; [reflexivity|]. split.
    + split; intros; auto; lia.
    + intros j Hj. rewrite H2, H1, du_gutz_out, du_jast_out by lia. lia.
  - destruct (zero_fill_ok (NG + NJ) (NProj T) c2 ltac:(lia) ltac:(lia)) as (c3 & -> & H3). cbn [bind].
    destruct (dh2_loop_adds e' OCC' c3) as (c4 & -> & H4). cbn [bind].
    destruct (dh4_loop_adds e' OCC' c4) as (c5 & -> & H5).
    exists c5. split; [reflexivity|]. split.
    + split; intros; rewrite H5, H4, H3.
      * replace ((NG + NJ <=? k) && (k <? NProj T)) with false by lia.
        rewrite HG, d_dh2_out, d_dh4_out by (assumption || lia). lia.
      * replace ((NG + NJ <=? NG + k) && (NG + k <? NProj T)) with false by lia.
        rewrite HJ, d_dh2_out, d_dh4_out by (assumption || lia). lia.
      * fold (idx2 xn xi xm). pose proof (idx2_range xn xi xm ltac:(lia) ltac:(lia) ltac:(lia)).
        replace ((NG + NJ <=? idx2 xn xi xm) && (idx2 xn xi xm <? NProj T)) with true by lia.
        rewrite d_dh2_spec, d_dh4_out by (assumption || lia). lia.
      * fold (idx4 xn xi xm). pose proof (idx4_range xn xi xm ltac:(lia) ltac:(lia) ltac:(lia)).
        replace ((NG + NJ <=? idx4 xn xi xm) && (idx4 xn xi xm <? NProj T)) with true by lia.
        rewrite d_dh4_spec, d_dh2_out by (assumption || lia). lia.
    + intros j Hj. rewrite H5, H4, H3, d_dh2_out, d_dh4_out by (assumption || lia).
      replace ((NG + NJ <=? j) && (j <? NProj T)) with false by lia.
      rewrite H2, H1, du_gutz_out, du_jast_out by lia. lia.
Qed.
End Upd.

Lemma copy_ok alias cnew cold : exists c, copy_cnt T alias cnew cold = Some c /\
  (forall j, 0 <= j < NProj T -> c j = cold j) /\
  (forall j, ~ (0 <= j < NProj T) -> c j = (if alias then cold else cnew) j).
Proof.
  unfold copy_cnt. destruct alias.
  - exists cold. repeat split; reflexivity.
  - exists (loop 0 (NProj T) (fun i c => upd c i (cold i)) cnew). split.
    + apply loopM_pure. intros i s Hi. rewrite rd_ok by assumption. cbn [bind]. now apply wr_ok.
    + assert (HP : 0 <= NProj T).
      { pose proof sizes_nonneg as (? & ? & ? & ? & ?). pose proof NProj_eq. lia. }
      assert (Hget : forall j, loop 0 (NProj T) (fun i c => upd c i (cold i)) cnew j
                      = if (0 <=? j) && (j <? NProj T) then cold j else cnew j).
      { apply (loop_inv (fun i s => forall j, s j = if (0 <=? j) && (j <? i) then cold j else cnew j)); [lia| |].
        - intros j. replace ((0 <=? j) && (j <? 0)) with false by lia. reflexivity.
        - intros i s Hi Hs j. rewrite upd_get, Hs.
          destruct (Z.eqb_spec j i); subst.
          + replace ((0 <=? i) && (i <? i + 1)) with true by lia. reflexivity.
          + replace ((0 <=? j) && (j <? i + 1)) with ((0 <=? j) && (j <? i)) by lia. reflexivity. }
      split; intros j Hj; rewrite Hget.
      * replace ((0 <=? j) && (j <? NProj T)) with true by lia. reflexivity.
      * replace ((0 <=? j) && (j <? NProj T)) with false by lia. reflexivity.
Qed.

(** occupations after a legal hop *)
Lemma hop_occ01 ri s rj t e : occ01 N e -> legal_hop N ri s rj t e -> occ01 N (hop N ri s rj t e).
Proof.
  intros HO _ rs Hrs. unfold hop. rewrite !upd_get.
  destruct (_ =? _); [tauto|]. destruct (_ =? _); [tauto|]. now apply HO.
Qed.

Lemma hop_occ ri s rj t e r : occ01 N e -> legal_hop N ri s rj t e -> 0 <= r < N ->
  occ T (hop N ri s rj t e) r = occ T e r - (if r =? ri then 1 else 0) + (if r =? rj then 1 else 0).
Proof.
  intros HO (Hi & Hj & Hs & Ht & H1 & H0) Hr. unfold occ, hop. rewrite !upd_get.
  assert (s = 0 \/ s = 1) as [-> | ->] by lia; assert (t = 0 \/ t = 1) as [-> | ->] by lia;
    rewrite ?Z.mul_0_l, ?Z.mul_1_l, ?Z.add_0_r in *;
    destruct (Z.eqb_spec r ri) as [E1|E1], (Z.eqb_spec r rj) as [E2|E2]; subst;
    repeat match goal with |- context [?x =? ?y] => destruct (Z.eqb_spec x y) as [?E|?E]; try lia end;
    try (destruct H0 as [H0|H0]; [|destruct H0]; subst; lia).
Qed.

Lemma update_correct_gen ri s rj t alias cnew cold e :
  occ01 N e -> legal_hop N ri s rj t e -> is_proj_cnt T e cold ->
  exists c', update_proj_cnt_fsz T ri rj s t alias cnew cold (hop N ri s rj t e) = Some c' /\
    is_proj_cnt T (hop N ri s rj t e) c' /\
    forall j, ~ (0 <= j < NProj T) -> c' j = (if alias then cold else cnew) j.
Proof.
  intros HO HL Hc. pose proof HL as (Hi & Hj & Hs & Ht & H1 & H0).
  unfold update_proj_cnt_fsz.
  destruct (copy_ok alias cnew cold) as (c & -> & Hin & Hout). cbn [bind].
  assert (Hc0 : is_proj_cnt T e c).
  { apply (is_proj_cnt_cells e cold); [assumption|]. intros j Hj'. symmetry. now apply Hin. }
  destruct (Z.eqb_spec ri rj) as [->|Hne].
  - exists c. split; [reflexivity|]. split; [|exact Hout].
    apply (is_proj_cnt_occ e); [|assumption]. intros r Hr. rewrite hop_occ by assumption.
    destruct (r =? rj); lia.
  - destruct (upd_rest e (hop N ri s rj t e) ri rj HO (hop_occ01 ri s rj t e HO HL) Hi Hj Hne) with (c := c)
      as (c' & E & H & Ho).
    + rewrite hop_occ by assumption. rewrite Z.eqb_refl. replace (ri =? rj) with false by lia. lia.
    + rewrite hop_occ by assumption. rewrite Z.eqb_refl. replace (rj =? ri) with false by lia. lia.
    + intros r Hr Hr1 Hr2. rewrite hop_occ by assumption.
      replace (r =? ri) with false by lia. replace (r =? rj) with false by lia. lia.
    + assumption.
    + exists c'. split; [exact E|]. split; [assumption|]. intros j Hj'. rewrite Ho, Hout by assumption. reflexivity.
Qed.

Lemma update_correct ri rj s alias cnew cold e :
  occ01 N e -> legal_hop N ri s rj s e -> is_proj_cnt T e cold ->
  exists c', update_proj_cnt T ri rj s alias cnew cold (hop N ri s rj s e) = Some c' /\
    is_proj_cnt T (hop N ri s rj s e) c' /\
    forall j, ~ (0 <= j < NProj T) -> c' j = (if alias then cold else cnew) j.
Proof. exact (update_correct_gen ri s rj s alias cnew cold e). Qed.

(** independence of the iterations of the parallel loops *)
Lemma dh2_body_cells e xn c c' : occ01 N e -> 0 <= xn < N2 -> dh2_body T e xn c = Some c' ->
  forall j, c' j <> c j -> NG + NJ <= j < NG + NJ + 6 * N2 /\ (j - (NG + NJ)) mod N2 = xn.
Proof.
  intros HO Hxn E j Hj. destruct (dh2_body_adds e HO xn Hxn c) as (c1 & E1 & H1).
  rewrite E1 in E. injection E as <-. rewrite H1 in Hj.
  assert (Hex : exists r, 0 <= r < N /\ idx2 xn (xi_of e r) (partners2 T e xn (xi_of e r) r) = j).
  { destruct (Z.eq_dec (d_dh2 e xn j) 0) as [Hz|Hnz]; [lia|]. clear -Hnz.
    unfold d_dh2 in Hnz.
    assert (Hl : forall r, In r (zrange 0 N) -> 0 <= r < N) by (intros r; apply zrange_in).
    induction (zrange 0 N) as [|r l IH]; cbn [zsum] in Hnz; [lia|].
    destruct (occ T e r =? 1) eqn:?.
    - apply IH; [lia|]. intros; apply Hl; now right.
    - destruct (Z.eqb_spec (idx2 xn (xi_of e r) (partners2 T e xn (xi_of e r) r)) j) as [E|].
      + exists r. split; [apply Hl; now left|assumption].
      + apply IH; [lia|]. intros; apply Hl; now right. }
  destruct Hex as (r & Hr & <-).
  split; [apply idx2_range; auto using xi_range, partners2_range|].
  unfold idx2. rewrite <- (Z.mod_small xn N2 Hxn) at 3.
  replace (NG + NJ + xn + (xi_of e r + 2 * partners2 T e xn (xi_of e r) r) * N2 - (NG + NJ))
    with (xn + (xi_of e r + 2 * partners2 T e xn (xi_of e r) r) * N2) by lia.
  apply Z.mod_add. lia.
Qed.

Lemma dh4_body_cells e xn c c' : occ01 N e -> 0 <= xn < N4 -> dh4_body T e xn c = Some c' ->
  forall j, c' j <> c j -> NG + NJ + 6 * N2 <= j < NProj T /\ (j - (NG + NJ + 6 * N2)) mod N4 = xn.
Proof.
  intros HO Hxn E j Hj. destruct (dh4_body_adds e HO xn Hxn c) as (c1 & E1 & H1).
  rewrite E1 in E. injection E as <-. rewrite H1 in Hj.
  assert (Hex : exists r, 0 <= r < N /\ idx4 xn (xi_of e r) (partners4 T e xn (xi_of e r) r) = j).
  { destruct (Z.eq_dec (d_dh4 e xn j) 0) as [Hz|Hnz]; [lia|]. clear -Hnz.
    unfold d_dh4 in Hnz.
    assert (Hl : forall r, In r (zrange 0 N) -> 0 <= r < N) by (intros r; apply zrange_in).
    induction (zrange 0 N) as [|r l IH]; cbn [zsum] in Hnz; [lia|].
    destruct (occ T e r =? 1) eqn:?.
    - apply IH; [lia|]. intros; apply Hl; now right.
    - destruct (Z.eqb_spec (idx4 xn (xi_of e r) (partners4 T e xn (xi_of e r) r)) j) as [E|].
      + exists r. split; [apply Hl; now left|assumption].
      + apply IH; [lia|]. intros; apply Hl; now right. }
  destruct Hex as (r & Hr & <-).
  split; [apply idx4_range; auto using xi_range, partners4_range|].
  unfold idx4. rewrite <- (Z.mod_small xn N4 Hxn) at 3.
  replace (NG + NJ + 6 * N2 + xn + (xi_of e r + 2 * partners4 T e xn (xi_of e r) r) * N4 - (NG + NJ + 6 * N2))
    with (xn + (xi_of e r + 2 * partners4 T e xn (xi_of e r) r) * N4) by lia.
  apply Z.mod_add. lia.
Qed.

End Proofs.

(** ** combined statements *)
Section Combined.
Variable T : tables.
Hypothesis WF : wf_tables T.

Lemma update_fsz_is_make ri s rj t alias cnew cold e junk1 junk2 :
  occ01 (Nsite T) e -> legal_hop (Nsite T) ri s rj t e -> make_proj_cnt T junk1 e = Some cold ->
  exists c1 c2,
    update_proj_cnt_fsz T ri rj s t alias cnew cold (hop (Nsite T) ri s rj t e) = Some c1 /\
    make_proj_cnt T junk2 (hop (Nsite T) ri s rj t e) = Some c2 /\
    forall j, 0 <= j < NProj T -> c1 j = c2 j.
Proof.
  intros HO HL HM.
  destruct (make_correct T WF e HO junk1) as (c0 & E0 & H0 & _). rewrite HM in E0; injection E0 as <-.
  destruct (update_correct_gen T WF ri s rj t alias cnew cold e HO HL H0) as (c1 & E1 & H1 & _).
  destruct (make_correct T WF _ (hop_occ01 T ri s rj t e HO HL) junk2) as (c2 & E2 & H2 & _).
  exists c1, c2. split; [assumption|]. split; [assumption|].
  exact (is_proj_cnt_unique T WF _ c1 c2 H1 H2).
Qed.

Lemma update_is_make ri rj s alias cnew cold e junk1 junk2 :
  occ01 (Nsite T) e -> legal_hop (Nsite T) ri s rj s e -> make_proj_cnt T junk1 e = Some cold ->
  exists c1 c2,
    update_proj_cnt T ri rj s alias cnew cold (hop (Nsite T) ri s rj s e) = Some c1 /\
    make_proj_cnt T junk2 (hop (Nsite T) ri s rj s e) = Some c2 /\
    forall j, 0 <= j < NProj T -> c1 j = c2 j.
Proof. exact (update_fsz_is_make ri s rj s alias cnew cold e junk1 junk2). Qed.

Lemma exchange_is_make ri rj s cnew cold e junk1 junk2 :
  occ01 (Nsite T) e -> ri <> rj ->
  legal_hop (Nsite T) ri s rj s e -> legal_hop (Nsite T) rj (1 - s) ri (1 - s) e ->
  make_proj_cnt T junk1 e = Some cold ->
  let e1 := hop (Nsite T) ri s rj s e in
  let e2 := hop (Nsite T) rj (1 - s) ri (1 - s) e1 in
  exists c1 c2 c3,
    update_proj_cnt T ri rj s false cnew cold e1 = Some c1 /\
    update_proj_cnt T rj ri (1 - s) true c1 c1 e2 = Some c2 /\
    make_proj_cnt T junk2 e2 = Some c3 /\
    forall j, 0 <= j < NProj T -> c2 j = c3 j.
Proof.
  intros HO Hne HL1 HL2 HM e1 e2.
  destruct (make_correct T WF e HO junk1) as (c0 & E0 & H0 & _). rewrite HM in E0; injection E0 as <-.
  destruct (update_correct T WF ri rj s false cnew cold e HO HL1 H0) as (c1 & E1 & H1 & _).
  assert (HO1 : occ01 (Nsite T) e1) by (apply hop_occ01; assumption).
  assert (HL2' : legal_hop (Nsite T) rj (1 - s) ri (1 - s) e1).
  { destruct HL1 as (A1 & A2 & A3 & A4 & A5 & A6). destruct HL2 as (B1 & B2 & B3 & B4 & B5 & B6).
    assert (Hs01 : s = 0 \/ s = 1) by lia.
    repeat split; try lia.
    - unfold e1, hop. rewrite !upd_other by (destruct Hs01; subst s; lia). assumption.
    - left. unfold e1, hop. rewrite !upd_other by (destruct Hs01; subst s; lia). destruct B6 as [B6|]; [assumption|lia]. }
  destruct (update_correct T WF rj ri (1 - s) true c1 c1 e1 HO1 HL2' H1) as (c2 & E2 & H2 & _).
  destruct (make_correct T WF _ (hop_occ01 T rj (1 - s) ri (1 - s) e1 HO1 HL2') junk2) as (c3 & E3 & H3 & _).
  exists c1, c2, c3. repeat (split; [assumption|]).
  exact (is_proj_cnt_unique T WF _ c2 c3 H2 H3).
Qed.
End Combined.

Lemma cells_exact T : wf_tables T -> forall j,
  (0 <= j < NProj T <-> exists f xn xi xm, cell T j f xn xi xm) /\
  (forall f xn xi xm f' xn' xi' xm', cell T j f xn xi xm -> cell T j f' xn' xi' xm' ->
     f = f' /\ xn = xn' /\ xi = xi' /\ xm = xm').
Proof.
  intros WF j. pose proof (sizes_nonneg T WF) as (P0 & P1 & P2 & P3 & P4). pose proof (NProj_eq T) as HN.
  split; [split|].
  - intros Hj. destruct (cell_cases T WF j Hj) as [H|[(k & H & ->)|[(xn & xi & xm & H1 & H2 & H3 & ->)|(xn & xi & xm & H1 & H2 & H3 & ->)]]].
    + exists 0, j, 0, 0. left. lia.
    + exists 1, k, 0, 0. right; left. lia.
    + exists 2, xn, xi, xm. right; right; left. unfold idx2. repeat split; lia.
    + exists 3, xn, xi, xm. right; right; right. unfold idx4. repeat split; lia.
  - intros (f & xn & xi & xm & [H|[H|[H|H]]]).
    + lia.
    + lia.
    + destruct H as (_ & A & B & C & ->). pose proof (idx2_range T xn xi xm A B C) as HR. unfold idx2 in HR. lia.
    + destruct H as (_ & A & B & C & ->). pose proof (idx4_range T xn xi xm A B C) as HR. unfold idx4 in HR. lia.
  - assert (Hc : forall f xn xi xm, cell T j f xn xi xm ->
      (f = 0 /\ 0 <= j < NGutzwillerIdx T) \/ (f = 1 /\ NGutzwillerIdx T <= j < NGutzwillerIdx T + NJastrowIdx T) \/
      (f = 2 /\ NGutzwillerIdx T + NJastrowIdx T <= j < NGutzwillerIdx T + NJastrowIdx T + 6 * NDoublonHolon2siteIdx T) \/
      (f = 3 /\ NGutzwillerIdx T + NJastrowIdx T + 6 * NDoublonHolon2siteIdx T <= j)).
    { intros f xn xi xm [H|[H|[H|H]]]; [lia|lia| |].
      - destruct H as (F_ & A & B & C & ->). pose proof (idx2_range T xn xi xm A B C) as HR. unfold idx2 in HR. lia.
      - destruct H as (F_ & A & B & C & ->). pose proof (idx4_range T xn xi xm A B C) as HR. unfold idx4 in HR. lia. }
    intros f xn xi xm f' xn' xi' xm' H H'. pose proof (Hc _ _ _ _ H) as K. pose proof (Hc _ _ _ _ H') as K'.
    destruct H as [H|[H|[H|H]]], H' as [H'|[H'|[H'|H']]];
      try (exfalso; lia); try lia.
    + destruct H as (-> & A & B & C & E), H' as (-> & A' & B' & C' & E').
      split; [reflexivity|]. apply (idx2_inj T xn xi xm xn' xi' xm'); try assumption. unfold idx2. congruence.
    + destruct H as (-> & A & B & C & E), H' as (-> & A' & B' & C' & E').
      split; [reflexivity|]. apply (idx4_inj T xn xi xm xn' xi' xm'); try assumption. unfold idx4. congruence.
Qed.
