From Coq Require Import ZArith List Bool Reals Lia Lra.
From Coquelicot Require Import Complex.
From Verif Require Import Base.ZLoop Base.Checked Base.RSum Proj.Spec Rbm.Model Rbm.Spec.
Import ListNotations.
Local Open Scope Z_scope.

Definition caddto (c : Z -> C) (i : Z) (v : C) : Z -> C := upd c i (Cplus (c i) v).
Lemma caddto_get c i v j : caddto c i v j = Cplus (c j) (if i =? j then v else RtoC 0).
Proof. unfold caddto, upd. rewrite (Z.eqb_sym i j). destruct (Z.eqb_spec j i); [subst; reflexivity|ring]. Qed.
Lemma loop_caddto (f : Z -> Z) (g : Z -> C) a b c j :
  loop a b (fun i c => caddto c (f i) (g i)) c j = Cplus (c j) (csum (zrange a b) (fun i => if f i =? j then g i else RtoC 0)).
Proof.
  unfold loop. generalize (zrange a b) as l. intros l. revert c. induction l as [|x l IH]; intros c; cbn [fold_left csum]; [ring|].
  rewrite IH, caddto_get. ring.
Qed.
Lemma loop_plus (g : Z -> C) a b z : loop a b (fun i z => Cplus z (g i)) z = Cplus z (csum (zrange a b) g).
Proof. unfold loop. revert z. induction (zrange a b) as [|x l IH]; intros z; cbn [fold_left csum]; [ring|]. rewrite IH. ring. Qed.
Lemma zc_add a b : zc (a + b) = Cplus (zc a) (zc b).
Proof. unfold zc. now rewrite plus_IZR, RtoC_plus. Qed.
Lemma zc_sub a b : zc (a - b) = Cminus (zc a) (zc b).
Proof. unfold zc. now rewrite minus_IZR, RtoC_minus. Qed.
Lemma zc_mul a b : zc (a * b) = Cmult (zc a) (zc b).
Proof. unfold zc. now rewrite mult_IZR, RtoC_mult. Qed.
Lemma zc_0 : zc 0 = RtoC 0. Proof. reflexivity. Qed.
Lemma zc_opp a : zc (- a) = Copp (zc a).
Proof. unfold zc. now rewrite opp_IZR, RtoC_opp. Qed.
Lemma zc_sum {A} (l : list A) f : zc (zsum l f) = csum l (fun x => zc (f x)).
Proof. induction l as [|x l IH]; cbn [zsum csum]; [reflexivity|]. now rewrite zc_add, IH. Qed.

(** o is defined and adds [term] to the array *)
Definition adds (o : (Z -> C) -> option (Z -> C)) (term : Z -> C) : Prop :=
  forall c, exists c', o c = Some c' /\ forall j, c' j = Cplus (c j) (term j).
Lemma adds_seq o1 o2 t1 t2 : adds o1 t1 -> adds o2 t2 -> adds (fun c => bind (o1 c) o2) (fun j => Cplus (t1 j) (t2 j)).
Proof.
  intros H1 H2 c. destruct (H1 c) as (c1 & E1 & V1). destruct (H2 c1) as (c2 & E2 & V2).
  exists c2. rewrite E1. cbn [bind]. split; [assumption|]. intros j. rewrite V2, V1. ring.
Qed.
Lemma adds_if b o t : (b = true -> adds o t) -> adds (fun c => if b then o c else Some c) (fun j => if b then t j else RtoC 0).
Proof. intros H. destruct b; [now apply H|]. intros c. exists c. split; [reflexivity|]. intros; ring. Qed.
Lemma adds_ext o t t' : (forall j, t j = t' j) -> adds o t -> adds o t'.
Proof. intros H A c. destruct (A c) as (c' & E & V). exists c'. split; [assumption|]. intros. now rewrite V, H. Qed.

Section M.
Variable M : machine.
Hypothesis Hwf : wf_machine M.
Variable W : Z -> C.
Notation N := (Nsite M).

Lemma xcharge_ok e r : below N r -> xcharge M e r = Some (charge M e r).
Proof. unfold below. intros H. unfold xcharge. rewrite !rd_ok by lia. reflexivity. Qed.
Lemma xspin_ok e r : below N r -> xspin M e r = Some (spin M e r).
Proof. unfold below. intros H. unfold xspin. rewrite !rd_ok by lia. reflexivity. Qed.
Lemma xgeneral_ok e r : below (2 * N) r -> xgeneral M e r = Some (general e r).
Proof. unfold below. intros H. unfold xgeneral. rewrite !rd_ok by lia. reflexivity. Qed.

Definition tPhys (sz : Z) (tab : Z -> Z) (off : Z) (x : Z -> Z) (j : Z) : C :=
  csum (zrange 0 sz) (fun r => if tab r + off =? j then zc (x r) else RtoC 0).
Definition tHid (nn : Z) (tab : Z -> Z) (off off2 : Z) (j : Z) : C :=
  csum (zrange 0 nn) (fun h => if h + off =? j then W (NPhys M + (tab h + off2)) else RtoC 0).
Definition tPh (nn sz : Z) (tab : Z -> Z -> Z) (off off2 : Z) (x : Z -> Z) (j : Z) : C :=
  csum (zrange 0 nn) (fun h => if h + off =? j
    then csum (zrange 0 sz) (fun r => Cmult (W (NPhys M + NHid M + (tab r h + off2))) (zc (x r))) else RtoC 0).

Lemma adds_phys sz tab off x x' n : (forall r, below sz r -> below n (tab r)) -> 0 <= off -> off + n <= nRBM M ->
  (forall r, below sz r -> x' r = Some (x r)) -> adds (make_phys M sz tab off x') (tPhys sz tab off x).
Proof.
  intros Ht H0 Hn Hx c. unfold make_phys.
  rewrite (loopM_pure 0 sz _ (fun r c => caddto c (tab r + off) (zc (x r)))).
  - eexists. split; [reflexivity|]. intros j. apply (loop_caddto (fun r => tab r + off)).
  - intros r s Hr. rewrite rd_ok by lia. cbn [bind]. rewrite Hx by (unfold below; lia). cbn [bind]. unfold cinc.
    rewrite inb_true; [reflexivity|]. specialize (Ht r Hr). unfold below in Ht. lia.
Qed.
Lemma adds_hid nn tab off off2 n : (forall h, below nn h -> below n (tab h)) -> 0 <= off -> off + nn <= nRBM M ->
  0 <= NPhys M + off2 -> NPhys M + off2 + n <= NRBM M -> adds (make_hid M nn tab off off2 W) (tHid nn tab off off2).
Proof.
  intros Ht H0 Hn H1 H2 c. unfold make_hid.
  rewrite (loopM_pure 0 nn _ (fun h c => caddto c (h + off) (W (NPhys M + (tab h + off2))))).
  - eexists. split; [reflexivity|]. intros j. apply (loop_caddto (fun h => h + off)).
  - intros h s Hh. specialize (Ht h Hh). unfold below in Ht. rewrite rd_ok by lia. cbn [bind]. rewrite rd_ok by lia. cbn [bind]. unfold cinc.
    rewrite inb_true; [reflexivity|]. lia.
Qed.
Lemma adds_ph nn sz tab off off2 x x' n : (forall r h, below sz r -> below nn h -> below n (tab r h)) -> 0 <= off -> off + nn <= nRBM M ->
  0 <= NPhys M + NHid M + off2 -> NPhys M + NHid M + off2 + n <= NRBM M -> (forall r, below sz r -> x' r = Some (x r)) ->
  adds (make_ph M nn sz tab off off2 x' W) (tPh nn sz tab off off2 x).
Proof.
  intros Ht H0 Hn H1 H2 Hx c. unfold make_ph.
  rewrite (loopM_pure 0 nn _ (fun h c => caddto c (h + off)
     (csum (zrange 0 sz) (fun r => Cmult (W (NPhys M + NHid M + (tab r h + off2))) (zc (x r)))))).
  - eexists. split; [reflexivity|]. intros j. apply (loop_caddto (fun h => h + off)).
  - intros h s Hh.
    rewrite (loopM_pure 0 sz _ (fun r z => Cplus z (Cmult (W (NPhys M + NHid M + (tab r h + off2))) (zc (x r))))).
    + cbn [bind]. rewrite loop_plus. unfold cinc. rewrite inb_true by lia.
      rewrite Cplus_0_l. reflexivity.
    + intros r z Hr. specialize (Ht r h Hr Hh). unfold below in Ht. rewrite Hx by assumption. cbn [bind].
      rewrite inb_true by lia. rewrite rd_ok by lia. cbn [bind]. rewrite rd_ok by lia. reflexivity.
Qed.

(** everything the program accumulates in cell j *)
Definition vis (e : Z -> Z) (j : Z) : C := Cplus
  (if 0 <? NPhysC M then tPhys N (PhysC M) 0 (charge M e) j else RtoC 0) (Cplus
  (if 0 <? NPhysS M then tPhys N (PhysS M) (NPhysC M) (spin M e) j else RtoC 0)
  (if 0 <? NPhysG M then tPhys (2 * N) (PhysG M) (NPhysC M + NPhysS M) (general e) j else RtoC 0)).
Definition bias (j : Z) : C := Cplus
  (if 0 <? NHidC M then tHid (NneuronC M) (HidC M) (NPhys M) 0 j else RtoC 0) (Cplus
  (if 0 <? NHidS M then tHid (NneuronS M) (HidS M) (NPhys M + NneuronC M) (NHidC M) j else RtoC 0)
  (if 0 <? NHidG M then tHid (NneuronG M) (HidG M) (NPhys M + NneuronC M + NneuronS M) (NHidC M + NHidS M) j else RtoC 0)).
Definition coup (e : Z -> Z) (j : Z) : C := Cplus
  (if 0 <? NPhC M then tPh (NneuronC M) N (PhC M) (NPhys M) 0 (charge M e) j else RtoC 0) (Cplus
  (if 0 <? NPhS M then tPh (NneuronS M) N (PhS M) (NPhys M + NneuronC M) (NPhC M) (spin M e) j else RtoC 0)
  (if 0 <? NPhG M then tPh (NneuronG M) (2 * N) (PhG M) (NPhys M + NneuronC M + NneuronS M) (NPhC M + NPhS M) (general e) j else RtoC 0)).
Definition raw (e : Z -> Z) (j : Z) : C := Cplus (vis e j) (Cplus (bias j) (coup e j)).

Ltac sizes := pose proof (wf_sizes M Hwf); unfold nRBM, NRBM, Nneuron, NPhys, NHid, NPh in *; lia.
Ltac conds := match goal with H : (0 <? _) = true |- _ => apply Z.ltb_lt in H end.

Lemma raw_ext e e' j : (forall x, e x = e' x) -> raw e j = raw e' j.
Proof.
  intros H.
  assert (P : forall sz tab off x x', (forall r, x r = x' r) -> tPhys sz tab off x j = tPhys sz tab off x' j) by (intros; apply csum_ext; intros r _; now rewrite H0).
  assert (Q : forall nn sz tab off off2 x x', (forall r, x r = x' r) -> tPh nn sz tab off off2 x j = tPh nn sz tab off off2 x' j).
  { intros nn sz tab off off2 x x' Hx. apply csum_ext. intros h _. destruct (_ =? _); [|reflexivity]. apply csum_ext. intros r _. now rewrite Hx. }
  unfold raw, vis, coup.
  rewrite (P _ _ _ (charge M e) (charge M e')), (P _ _ _ (spin M e) (spin M e')), (P _ _ _ (general e) (general e')),
    (Q _ _ _ _ _ (charge M e) (charge M e')), (Q _ _ _ _ _ (spin M e) (spin M e')), (Q _ _ _ _ _ (general e) (general e'));
    try reflexivity; intros r; unfold charge, spin, general; now rewrite !H.
Qed.

Lemma zero_ok c : exists c', loopM 0 (nRBM M) (fun idx c => wr (nRBM M) c idx (RtoC 0)) c = Some c' /\ forall j, 0 <= j < nRBM M -> c' j = RtoC 0.
Proof.
  rewrite (loopM_pure 0 (nRBM M) _ (fun idx c => upd c idx (RtoC 0))) by (intros; now apply wr_ok).
  eexists. split; [reflexivity|]. intros j Hj.
  assert (G : forall n, 0 <= n -> forall j, 0 <= j < n -> loop 0 n (fun idx c => upd c idx (RtoC 0)) c j = RtoC 0).
  { intros n Hn. pattern n. apply natlike_ind; [lia| |assumption]. intros k Hk IH i Hi. unfold loop. unfold Z.succ. rewrite zrange_snoc by assumption.
    rewrite fold_left_app. cbn [fold_left]. unfold upd. destruct (Z.eqb_spec i k); [reflexivity|]. apply IH. lia. }
  apply G; lia.
Qed.

Lemma make_raw c e : exists c', make_rbm_cnt M W c e = Some c' /\ forall j, 0 <= j < nRBM M -> c' j = raw e j.
Proof.
  unfold make_rbm_cnt. destruct (zero_ok c) as (c0 & -> & V0). cbn [bind].
  assert (A : forall o t, adds o t -> (forall j, t j = raw e j) -> exists c', o c0 = Some c' /\ forall j, 0 <= j < nRBM M -> c' j = raw e j).
  { intros o t Ha Ht. destruct (Ha c0) as (c' & E & V). exists c'. split; [assumption|]. intros j Hj. rewrite V, V0, Ht by assumption. ring. }
  eapply (A (fun c1 => bind _ _)).
  - eapply (adds_seq _ (fun c2 => bind _ (fun c3 => bind _ (fun c4 => bind _ (fun c5 => bind _ (fun c6 => bind _ (fun c7 => bind _ (fun c8 => bind _ _)))))))).
    { apply adds_if. intros. conds. apply (adds_phys N (PhysC M) 0 (charge M e) _ (NPhysC M)); [now apply wf_physC|sizes|sizes|apply xcharge_ok]. }
    eapply (adds_seq _ (fun c3 => bind _ (fun c4 => bind _ (fun c5 => bind _ (fun c6 => bind _ (fun c7 => bind _ (fun c8 => bind _ _))))))).
    { apply adds_if. intros. conds. apply (adds_phys N (PhysS M) _ (spin M e) _ (NPhysS M)); [now apply wf_physS|sizes|sizes|apply xspin_ok]. }
    eapply (adds_seq _ (fun c4 => bind _ (fun c5 => bind _ (fun c6 => bind _ (fun c7 => bind _ (fun c8 => bind _ _)))))).
    { apply adds_if. intros. conds. apply (adds_phys (2 * N) (PhysG M) _ (general e) _ (NPhysG M)); [now apply wf_physG|sizes|sizes|apply xgeneral_ok]. }
    eapply (adds_seq _ (fun c5 => bind _ (fun c6 => bind _ (fun c7 => bind _ (fun c8 => bind _ _))))).
    { apply adds_if. intros. conds. apply (adds_hid _ _ _ _ (NHidC M)); [now apply wf_hidC|sizes|sizes|sizes|sizes]. }
    eapply (adds_seq _ (fun c6 => bind _ (fun c7 => bind _ (fun c8 => bind _ _)))).
    { apply adds_if. intros. conds. apply (adds_hid _ _ _ _ (NHidS M)); [now apply wf_hidS|sizes|sizes|sizes|sizes]. }
    eapply (adds_seq _ (fun c7 => bind _ (fun c8 => bind _ _))).
    { apply adds_if. intros. conds. apply (adds_hid _ _ _ _ (NHidG M)); [now apply wf_hidG|sizes|sizes|sizes|sizes]. }
    eapply (adds_seq _ (fun c8 => bind _ _)).
    { apply adds_if. intros. conds. apply (adds_ph _ _ _ _ _ (charge M e) _ (NPhC M)); [now apply wf_phC|sizes|sizes|sizes|sizes|apply xcharge_ok]. }
    eapply (adds_seq _ _).
    { apply adds_if. intros. conds. apply (adds_ph _ _ _ _ _ (spin M e) _ (NPhS M)); [now apply wf_phS|sizes|sizes|sizes|sizes|apply xspin_ok]. }
    apply adds_if. intros. conds. apply (adds_ph _ _ _ _ _ (general e) _ (NPhG M)); [now apply wf_phG|sizes|sizes|sizes|sizes|apply xgeneral_ok].
  - intros j. cbv beta. unfold raw, vis, bias, coup. ring.
Qed.

(** ** from the accumulated form to the cells *)
Lemma tPhys_out sz tab off x n j : (forall r, below sz r -> below n (tab r)) -> ~ (off <= j < off + n) -> tPhys sz tab off x j = RtoC 0.
Proof.
  intros Ht Hj. apply csum_zero. intros r Hr. apply zrange_in in Hr. specialize (Ht r Hr). unfold below in Ht.
  destruct (Z.eqb_spec (tab r + off) j); [lia|reflexivity].
Qed.
Lemma tPhys_in sz tab off x k : tPhys sz tab off x (off + k) = zc (zsum (zrange 0 sz) (fun r => if tab r =? k then x r else 0)).
Proof.
  unfold tPhys. rewrite zc_sum. apply csum_ext. intros r _.
  destruct (Z.eqb_spec (tab r + off) (off + k)), (Z.eqb_spec (tab r) k); try lia; reflexivity.
Qed.
Lemma csum_at (g : Z -> C) nn off j : csum (zrange 0 nn) (fun h => if h + off =? j then g h else RtoC 0) = if inb nn (j - off) then g (j - off) else RtoC 0.
Proof.
  unfold inb. destruct (Z.leb_spec 0 (j - off)) as [H0|H0]; [destruct (Z.ltb_spec (j - off) nn) as [H1|H1]|]; cbn [andb].
  - rewrite (zrange_app 0 (j - off) nn) by lia. rewrite (zrange_cons (j - off)) by lia. rewrite csum_app. cbn [csum].
    rewrite !csum_zero; [|intros x Hx; apply zrange_in in Hx; destruct (Z.eqb_spec (x + off) j); [lia|reflexivity]..].
    destruct (Z.eqb_spec (j - off + off) j); [ring|lia].
  - apply csum_zero. intros x Hx. apply zrange_in in Hx. destruct (Z.eqb_spec (x + off) j); [lia|reflexivity].
  - apply csum_zero. intros x Hx. apply zrange_in in Hx. destruct (Z.eqb_spec (x + off) j); [lia|reflexivity].
Qed.
Lemma inb_false n i : ~ (0 <= i < n) -> inb n i = false.
Proof. unfold inb. lia. Qed.
Lemma tHid_at nn tab off off2 j : tHid nn tab off off2 j = if inb nn (j - off) then W (NPhys M + (tab (j - off) + off2)) else RtoC 0.
Proof. unfold tHid. apply (csum_at (fun h => W (NPhys M + (tab h + off2)))). Qed.
Lemma tPh_at nn sz tab off off2 x j : tPh nn sz tab off off2 x j = if inb nn (j - off)
  then csum (zrange 0 sz) (fun r => Cmult (W (NPhys M + NHid M + (tab r (j - off) + off2))) (zc (x r))) else RtoC 0.
Proof. unfold tPh. apply (csum_at (fun h => csum (zrange 0 sz) (fun r => Cmult (W (NPhys M + NHid M + (tab r h + off2))) (zc (x r))))). Qed.

Lemma if_zero (b : bool) (x : C) : (b = true -> x = RtoC 0) -> (if b then x else RtoC 0) = RtoC 0.
Proof. destruct b; auto. Qed.
Ltac gone := apply if_zero; intros; conds.
Lemma visC_out e j : ~ (0 <= j < NPhysC M) -> (if 0 <? NPhysC M then tPhys N (PhysC M) 0 (charge M e) j else RtoC 0) = RtoC 0.
Proof. intros. gone. apply (tPhys_out _ _ _ _ (NPhysC M)); [now apply wf_physC|lia]. Qed.
Lemma visS_out e j : ~ (NPhysC M <= j < NPhysC M + NPhysS M) -> (if 0 <? NPhysS M then tPhys N (PhysS M) (NPhysC M) (spin M e) j else RtoC 0) = RtoC 0.
Proof. intros. gone. apply (tPhys_out _ _ _ _ (NPhysS M)); [now apply wf_physS|lia]. Qed.
Lemma visG_out e j : ~ (NPhysC M + NPhysS M <= j < NPhysC M + NPhysS M + NPhysG M) -> (if 0 <? NPhysG M then tPhys (2 * N) (PhysG M) (NPhysC M + NPhysS M) (general e) j else RtoC 0) = RtoC 0.
Proof. intros. gone. apply (tPhys_out _ _ _ _ (NPhysG M)); [now apply wf_physG|lia]. Qed.
Lemma bias_low j : j < NPhys M -> bias j = RtoC 0.
Proof.
  intros H. unfold bias. rewrite !tHid_at, !inb_false by sizes. destruct (0 <? NHidC M), (0 <? NHidS M), (0 <? NHidG M); ring.
Qed.
Lemma coup_low e j : j < NPhys M -> coup e j = RtoC 0.
Proof.
  intros H. unfold coup. rewrite !tPh_at, !inb_false by sizes. destruct (0 <? NPhC M), (0 <? NPhS M), (0 <? NPhG M); ring.
Qed.
Lemma vis_high e j : NPhys M <= j -> vis e j = RtoC 0.
Proof. intros H. unfold vis. rewrite visC_out, visS_out, visG_out by sizes. ring. Qed.

Lemma raw_cells e c : (forall j, 0 <= j < nRBM M -> c j = raw e j) -> is_rbm_cnt M W e c.
Proof.
  intros H. constructor; unfold below; intros k Hk.
  - rewrite H by sizes. unfold raw. rewrite bias_low, coup_low by sizes. unfold vis. rewrite visS_out, visG_out by sizes.
    destruct (Z.ltb_spec 0 (NPhysC M)); [|lia]. replace k with (0 + k) at 1 by lia. rewrite tPhys_in. unfold visC. ring.
  - rewrite H by sizes. unfold raw. rewrite bias_low, coup_low by sizes. unfold vis. rewrite visC_out, visG_out by sizes.
    destruct (Z.ltb_spec 0 (NPhysS M)); [|lia]. rewrite tPhys_in. unfold visS. ring.
  - rewrite H by sizes. unfold raw. rewrite bias_low, coup_low by sizes. unfold vis. rewrite visC_out, visS_out by sizes.
    destruct (Z.ltb_spec 0 (NPhysG M)); [|lia]. rewrite tPhys_in. unfold visG. ring.
  - rewrite H by sizes. unfold raw. rewrite vis_high by sizes. unfold bias, coup, thetaC. rewrite !tHid_at, !tPh_at.
    rewrite (inb_true (NneuronC M)) by lia. rewrite (inb_false (NneuronS M)), (inb_false (NneuronG M)) by sizes.
    replace (NPhys M + k - NPhys M) with k by lia. rewrite (Z.add_0_r (HidC M k)).
    rewrite (csum_ext _ _ (fun r => Cmult (W (NPhys M + NHid M + PhC M r k)) (zc (charge M e r)))) by (intros; now rewrite Z.add_0_r).
    destruct (0 <? NHidC M), (0 <? NHidS M), (0 <? NHidG M), (0 <? NPhC M), (0 <? NPhS M), (0 <? NPhG M); ring.
  - rewrite H by sizes. unfold raw. rewrite vis_high by sizes. unfold bias, coup, thetaS. rewrite !tHid_at, !tPh_at.
    rewrite (inb_true (NneuronS M)) by lia. rewrite (inb_false (NneuronC M)), (inb_false (NneuronG M)) by sizes.
    replace (NPhys M + NneuronC M + k - (NPhys M + NneuronC M)) with k by lia. rewrite (Z.add_comm (HidS M k)).
    rewrite (csum_ext _ _ (fun r => Cmult (W (NPhys M + NHid M + (NPhC M + PhS M r k))) (zc (spin M e r)))) by (intros r _; now rewrite (Z.add_comm (PhS M r k))).
    destruct (0 <? NHidC M), (0 <? NHidS M), (0 <? NHidG M), (0 <? NPhC M), (0 <? NPhS M), (0 <? NPhG M); ring.
  - rewrite H by sizes. unfold raw. rewrite vis_high by sizes. unfold bias, coup, thetaG. rewrite !tHid_at, !tPh_at.
    rewrite (inb_true (NneuronG M)) by lia. rewrite (inb_false (NneuronC M)), (inb_false (NneuronS M)) by sizes.
    replace (NPhys M + NneuronC M + NneuronS M + k - (NPhys M + NneuronC M + NneuronS M)) with k by lia. rewrite (Z.add_comm (HidG M k)).
    rewrite (csum_ext _ _ (fun r => Cmult (W (NPhys M + NHid M + (NPhC M + NPhS M + PhG M r k))) (zc (general e r)))) by (intros r _; now rewrite (Z.add_comm (PhG M r k))).
    destruct (0 <? NHidC M), (0 <? NHidS M), (0 <? NHidG M), (0 <? NPhC M), (0 <? NPhS M), (0 <? NPhG M); ring.
  - rewrite H by sizes. unfold raw. rewrite vis_high by sizes. unfold bias, coup. rewrite !tHid_at, !tPh_at.
    rewrite (inb_false (NneuronC M)), (inb_false (NneuronS M)), (inb_false (NneuronG M)) by sizes.
    destruct (0 <? NHidC M), (0 <? NHidS M), (0 <? NHidG M), (0 <? NPhC M), (0 <? NPhS M), (0 <? NPhG M); ring.
Qed.
(** the cells determine the vector *)
Lemma cells_unique e c c' : is_rbm_cnt M W e c -> is_rbm_cnt M W e c' -> forall j, 0 <= j < nRBM M -> c j = c' j.
Proof.
  intros A B j Hj. pose proof (wf_sizes M Hwf) as Hs.
  assert (Hc : below (NPhysC M) j \/ below (NPhysS M) (j - NPhysC M) \/ below (NPhysG M) (j - (NPhysC M + NPhysS M)) \/ below (NneuronC M) (j - NPhys M) \/
    below (NneuronS M) (j - (NPhys M + NneuronC M)) \/ below (NneuronG M) (j - (NPhys M + NneuronC M + NneuronS M)) \/
    below (NneuronX M) (j - (NPhys M + NneuronC M + NneuronS M + NneuronG M))) by (unfold below; sizes).
  destruct Hc as [H|[H|[H|[H|[H|[H|H]]]]]].
  - now rewrite (cnt_visC _ _ _ _ A), (cnt_visC _ _ _ _ B).
  - replace j with (NPhysC M + (j - NPhysC M)) by lia. now rewrite (cnt_visS _ _ _ _ A), (cnt_visS _ _ _ _ B).
  - replace j with (NPhysC M + NPhysS M + (j - (NPhysC M + NPhysS M))) by lia. now rewrite (cnt_visG _ _ _ _ A), (cnt_visG _ _ _ _ B).
  - replace j with (NPhys M + (j - NPhys M)) by lia. now rewrite (cnt_thC _ _ _ _ A), (cnt_thC _ _ _ _ B).
  - replace j with (NPhys M + NneuronC M + (j - (NPhys M + NneuronC M))) by lia. now rewrite (cnt_thS _ _ _ _ A), (cnt_thS _ _ _ _ B).
  - replace j with (NPhys M + NneuronC M + NneuronS M + (j - (NPhys M + NneuronC M + NneuronS M))) by lia. now rewrite (cnt_thG _ _ _ _ A), (cnt_thG _ _ _ _ B).
  - replace j with (NPhys M + NneuronC M + NneuronS M + NneuronG M + (j - (NPhys M + NneuronC M + NneuronS M + NneuronG M))) by lia.
    now rewrite (cnt_none _ _ _ _ A), (cnt_none _ _ _ _ B).
Qed.
Lemma cells_raw e c : is_rbm_cnt M W e c -> forall j, 0 <= j < nRBM M -> c j = raw e j.
Proof. intros H. apply (cells_unique e); [assumption|]. apply raw_cells. reflexivity. Qed.

(** ** updates *)
Lemma adds_move_phys sz tab off i di j dj n : (forall r, below sz r -> below n (tab r)) -> 0 <= off -> off + n <= nRBM M ->
  below sz i -> below sz j ->
  adds (move_phys M sz tab off i di j dj) (fun k => Cplus (if tab i + off =? k then zc di else RtoC 0) (if tab j + off =? k then zc dj else RtoC 0)).
Proof.
  intros Ht H0 Hn Hi Hj c. unfold move_phys. pose proof (Ht i Hi) as A. pose proof (Ht j Hj) as B. unfold below in *.
  rewrite rd_ok by lia. cbn [bind]. unfold cinc at 1. rewrite inb_true by lia. cbn [bind]. rewrite rd_ok by lia. cbn [bind]. unfold cinc. rewrite inb_true by lia.
  eexists. split; [reflexivity|]. intros k. change (caddto (caddto c (tab i + off) (zc di)) (tab j + off) (zc dj) k = Cplus (c k) (Cplus (if tab i + off =? k then zc di else RtoC 0) (if tab j + off =? k then zc dj else RtoC 0))).
  rewrite !caddto_get. ring.
Qed.
Lemma adds_move_ph nn sz tab off off2 r k n : (forall r h, below sz r -> below nn h -> below n (tab r h)) -> 0 <= off -> off + nn <= nRBM M ->
  0 <= NPhys M + NHid M + off2 -> NPhys M + NHid M + off2 + n <= NRBM M -> below sz r ->
  adds (move_ph M nn sz tab off off2 r k W) (fun j => csum (zrange 0 nn) (fun h => if h + off =? j then Cmult (zc k) (W (NPhys M + NHid M + (tab r h + off2))) else RtoC 0)).
Proof.
  intros Ht H0 Hn H1 H2 Hr c. unfold move_ph.
  rewrite (loopM_pure 0 nn _ (fun h c => caddto c (h + off) (Cmult (zc k) (W (NPhys M + NHid M + (tab r h + off2)))))).
  - eexists. split; [reflexivity|]. intros j. apply (loop_caddto (fun h => h + off)).
  - intros h s Hh. specialize (Ht r h Hr Hh). unfold below in *. rewrite inb_true by lia. rewrite rd_ok by lia. cbn [bind]. rewrite rd_ok by lia. cbn [bind].
    unfold cinc. rewrite inb_true by lia. reflexivity.
Qed.
Lemma adds_move_ph2 nn sz tab off off2 r k r' k' n : (forall r h, below sz r -> below nn h -> below n (tab r h)) -> 0 <= off -> off + nn <= nRBM M ->
  0 <= NPhys M + NHid M + off2 -> NPhys M + NHid M + off2 + n <= NRBM M -> below sz r -> below sz r' ->
  adds (fun c => c <- move_ph M nn sz tab off off2 r k W c;; move_ph M nn sz tab off off2 r' k' W c)
    (fun j => Cplus (csum (zrange 0 nn) (fun h => if h + off =? j then Cmult (zc k) (W (NPhys M + NHid M + (tab r h + off2))) else RtoC 0))
                    (csum (zrange 0 nn) (fun h => if h + off =? j then Cmult (zc k') (W (NPhys M + NHid M + (tab r' h + off2))) else RtoC 0))).
Proof. intros. apply (adds_seq (move_ph M nn sz tab off off2 r k W) (move_ph M nn sz tab off off2 r' k' W)); now apply (adds_move_ph _ _ _ _ _ _ _ n). Qed.
Lemma copy_ok alias cnew cold : exists c, copy_rbm M alias cnew cold = Some c /\ forall j, 0 <= j < nRBM M -> c j = cold j.
Proof.
  unfold copy_rbm. destruct alias; [eexists; split; reflexivity|].
  rewrite (loopM_pure 0 (nRBM M) _ (fun idx c => upd c idx (cold idx))).
  - eexists. split; [reflexivity|]. intros j Hj.
    assert (G : forall n, 0 <= n -> forall j, 0 <= j < n -> loop 0 n (fun idx c => upd c idx (cold idx)) cnew j = cold j); [|apply G; lia].
    intros n Hn. pattern n. apply natlike_ind; [lia| |assumption]. intros k Hk IH i Hi. unfold loop. unfold Z.succ. rewrite zrange_snoc by assumption.
    rewrite fold_left_app. cbn [fold_left]. unfold upd. destruct (Z.eqb_spec i k); [now subst|]. apply IH. lia.
  - intros i s Hi. rewrite rd_ok by lia. cbn [bind]. apply wr_ok. lia.
Qed.

(** how the inputs change in a hop *)
Ltac hopcases := let Hl := fresh in let Hmove := fresh in let Hr := fresh in intros Hl Hmove Hr; unfold below in *;
  let Hri := fresh in let Hrj := fresh in let Hs := fresh in let Ht := fresh in let Ho := fresh in let Hf := fresh in
  destruct Hl as (Hri & Hrj & Hs & Ht & Ho & Hf);
  match type of Hf with ?a \/ _ => assert a by (destruct Hf as [Hf|[? ?]]; [exact Hf|exfalso; lia]) end; clear Hf;
  match type of Hs with 0 <= ?s <= 1 => assert (s = 0 \/ s = 1) by lia; clear Hs end;
  match type of Ht with 0 <= ?t <= 1 => assert (t = 0 \/ t = 1) by lia; clear Ht end;
  repeat match goal with H : ?s = 0 \/ ?s = 1 |- _ => destruct H as [->| ->] end; rewrite ?Z.mul_0_l, ?Z.mul_1_l, ?Z.add_0_r in *;
  repeat match goal with |- context [Z.eqb ?a ?b] => destruct (Z.eqb_spec a b); [try subst|] end; try lia.
Lemma charge_hop e ri s rj t r : legal_hop N ri s rj t e -> ri <> rj \/ s <> t -> below N r ->
  charge M (hop N ri s rj t e) r = charge M e r + ((if r =? rj then 1 else 0) - (if r =? ri then 1 else 0)).
Proof. unfold charge, hop, upd, legal_hop. hopcases. Qed.
Lemma spin_hop e ri s rj t r : legal_hop N ri s rj t e -> ri <> rj \/ s <> t -> below N r ->
  spin M (hop N ri s rj t e) r = spin M e r + ((if r =? rj then 1 - 2 * t else 0) - (if r =? ri then 1 - 2 * s else 0)).
Proof. unfold spin, hop, upd, legal_hop. hopcases. Qed.
Lemma general_hop e ri s rj t r : legal_hop N ri s rj t e -> ri <> rj \/ s <> t -> below (2 * N) r ->
  general (hop N ri s rj t e) r = general e r + ((if r =? rj + t * N then 2 else 0) - (if r =? ri + s * N then 2 else 0)).
Proof. unfold general, hop, upd, legal_hop. hopcases. Qed.

Lemma csum_pick2 n (f : Z -> C) i j a b : below n i -> below n j ->
  csum (zrange 0 n) (fun r => Cmult (f r) (zc ((if r =? j then b else 0) - (if r =? i then a else 0)))) = Cplus (Cmult (zc (- a)) (f i)) (Cmult (zc b) (f j)).
Proof.
  intros Hi Hj. rewrite (csum_ext _ _ (fun r => Cplus (if r + 0 =? i then Cmult (zc (- a)) (f r) else RtoC 0) (if r + 0 =? j then Cmult (zc b) (f r) else RtoC 0))).
  - rewrite csum_add. rewrite (csum_at (fun r => Cmult (zc (- a)) (f r))), (csum_at (fun r => Cmult (zc b) (f r))). rewrite !Z.sub_0_r. unfold below in *. now rewrite !inb_true by lia.
  - intros r _. rewrite Z.add_0_r, zc_sub. destruct (r =? j), (r =? i); rewrite ?zc_0, ?zc_opp; ring.
Qed.
Lemma tPhys_move sz tab off x x' i j a b k : below sz i -> below sz j ->
  (forall r, below sz r -> x' r = x r + ((if r =? j then b else 0) - (if r =? i then a else 0))) ->
  tPhys sz tab off x' k = Cplus (tPhys sz tab off x k) (Cplus (if tab i + off =? k then zc (- a) else RtoC 0) (if tab j + off =? k then zc b else RtoC 0)).
Proof.
  intros Hi Hj Hx. unfold tPhys.
  rewrite (csum_ext _ _ (fun r => Cplus (if tab r + off =? k then zc (x r) else RtoC 0)
    (Cmult (if tab r + off =? k then RtoC 1 else RtoC 0) (zc ((if r =? j then b else 0) - (if r =? i then a else 0)))))).
  - rewrite csum_add, (csum_pick2 sz (fun r => if tab r + off =? k then RtoC 1 else RtoC 0)) by assumption. f_equal.
    destruct (tab i + off =? k), (tab j + off =? k); ring.
  - intros r Hr. apply zrange_in in Hr. rewrite Hx by assumption. rewrite zc_add. destruct (tab r + off =? k); ring.
Qed.
Lemma tPh_move nn sz tab off off2 x x' i j a b k : below sz i -> below sz j ->
  (forall r, below sz r -> x' r = x r + ((if r =? j then b else 0) - (if r =? i then a else 0))) ->
  tPh nn sz tab off off2 x' k = Cplus (tPh nn sz tab off off2 x k) (Cplus
    (csum (zrange 0 nn) (fun h => if h + off =? k then Cmult (zc (- a)) (W (NPhys M + NHid M + (tab i h + off2))) else RtoC 0))
    (csum (zrange 0 nn) (fun h => if h + off =? k then Cmult (zc b) (W (NPhys M + NHid M + (tab j h + off2))) else RtoC 0))).
Proof.
  intros Hi Hj Hx. unfold tPh. rewrite <- !csum_add. apply csum_ext. intros h _. destruct (h + off =? k); [|ring].
  rewrite <- (csum_pick2 sz (fun r => W (NPhys M + NHid M + (tab r h + off2)))) by assumption. rewrite <- csum_add.
  apply csum_ext. intros r Hr. apply zrange_in in Hr. rewrite Hx by assumption. rewrite zc_add. ring.
Qed.

Definition dS (ri s rj t j : Z) : C := Cplus (if PhysS M ri + NPhysC M =? j then zc (2 * s - 1) else RtoC 0) (if PhysS M rj + NPhysC M =? j then zc (1 - 2 * t) else RtoC 0).
Definition dN nn (tab : Z -> Z -> Z) off off2 r k j : C := csum (zrange 0 nn) (fun h => if h + off =? j then Cmult (zc k) (W (NPhys M + NHid M + (tab r h + off2))) else RtoC 0).

Lemma raw_hop e ri s rj t j : legal_hop N ri s rj t e -> ri <> rj \/ s <> t ->
  raw (hop N ri s rj t e) j = Cplus (raw e j) (Cplus (Cplus
   (if 0 <? NPhysC M then Cplus (if PhysC M ri + 0 =? j then zc (-1) else RtoC 0) (if PhysC M rj + 0 =? j then zc 1 else RtoC 0) else RtoC 0)
   (Cplus (if 0 <? NPhysS M then dS ri s rj t j else RtoC 0)
   (if 0 <? NPhysG M then Cplus (if PhysG M (ri + s * N) + (NPhysC M + NPhysS M) =? j then zc (-2) else RtoC 0) (if PhysG M (rj + t * N) + (NPhysC M + NPhysS M) =? j then zc 2 else RtoC 0) else RtoC 0)))
   (Cplus (if 0 <? NPhC M then Cplus (dN (NneuronC M) (PhC M) (NPhys M) 0 ri (-1) j) (dN (NneuronC M) (PhC M) (NPhys M) 0 rj 1 j) else RtoC 0) (Cplus
   (if 0 <? NPhS M then Cplus (dN (NneuronS M) (PhS M) (NPhys M + NneuronC M) (NPhC M) ri (- (1 - 2 * s)) j) (dN (NneuronS M) (PhS M) (NPhys M + NneuronC M) (NPhC M) rj (1 - 2 * t) j) else RtoC 0)
   (if 0 <? NPhG M then Cplus (dN (NneuronG M) (PhG M) (NPhys M + NneuronC M + NneuronS M) (NPhC M + NPhS M) (ri + s * N) (-2) j) (dN (NneuronG M) (PhG M) (NPhys M + NneuronC M + NneuronS M) (NPhC M + NPhS M) (rj + t * N) 2 j) else RtoC 0)))).
Proof.
  intros Hl Hm. pose proof Hl as (Hri & Hrj & Hs & Ht & _).
  assert (Hi2 : below (2 * N) (ri + s * N)) by (unfold below; nia). assert (Hj2 : below (2 * N) (rj + t * N)) by (unfold below; nia).
  unfold raw, vis, coup.
  rewrite (tPhys_move N (PhysC M) 0 (charge M e) (charge M (hop N ri s rj t e)) ri rj 1 1 j Hri Hrj) by (intros; now apply charge_hop).
  rewrite (tPhys_move N (PhysS M) (NPhysC M) (spin M e) (spin M (hop N ri s rj t e)) ri rj (1 - 2 * s) (1 - 2 * t) j Hri Hrj) by (intros; now apply spin_hop).
  rewrite (tPhys_move (2 * N) (PhysG M) (NPhysC M + NPhysS M) (general e) (general (hop N ri s rj t e)) (ri + s * N) (rj + t * N) 2 2 j Hi2 Hj2) by (intros; now apply general_hop).
  rewrite (tPh_move (NneuronC M) N (PhC M) (NPhys M) 0 (charge M e) (charge M (hop N ri s rj t e)) ri rj 1 1 j Hri Hrj) by (intros; now apply charge_hop).
  rewrite (tPh_move (NneuronS M) N (PhS M) (NPhys M + NneuronC M) (NPhC M) (spin M e) (spin M (hop N ri s rj t e)) ri rj (1 - 2 * s) (1 - 2 * t) j Hri Hrj) by (intros; now apply spin_hop).
  rewrite (tPh_move (NneuronG M) (2 * N) (PhG M) (NPhys M + NneuronC M + NneuronS M) (NPhC M + NPhS M) (general e) (general (hop N ri s rj t e)) (ri + s * N) (rj + t * N) 2 2 j Hi2 Hj2) by (intros; now apply general_hop).
  unfold dS, dN. replace (2 * s - 1) with (- (1 - 2 * s)) by lia. change (- (1)) with (-1). change (- (2)) with (-2).
  destruct (0 <? NPhysC M), (0 <? NPhysS M), (0 <? NPhysG M), (0 <? NPhC M), (0 <? NPhS M), (0 <? NPhG M); ring.
Qed.

Lemma general_update e ri s rj t alias cnew cold : is_rbm_cnt M W e cold -> legal_hop N ri s rj t e -> ri <> rj \/ s = t \/ NPhysG M = 0 ->
  exists c, update_rbm_cnt_fsz M W ri rj s t alias cnew cold = Some c /\ is_rbm_cnt M W (hop N ri s rj t e) c.
Proof.
  intros Hc Hl Hcase. pose proof Hl as (Hri & Hrj & Hs & Ht & Ho & _). pose proof (cells_raw e cold Hc) as Hraw.
  assert (Hi2 : below (2 * N) (ri + s * N)) by (unfold below; nia). assert (Hj2 : below (2 * N) (rj + t * N)) by (unfold below; nia).
  unfold update_rbm_cnt_fsz. destruct (copy_ok alias cnew cold) as (c0 & -> & V0). cbn [bind].
  assert (A : forall o d, adds o d -> (forall j, 0 <= j < nRBM M -> raw (hop N ri s rj t e) j = Cplus (raw e j) (d j)) ->
            exists c, o c0 = Some c /\ is_rbm_cnt M W (hop N ri s rj t e) c).
  { intros o d Ha Hd. destruct (Ha c0) as (c' & E & V). exists c'. split; [assumption|]. apply raw_cells. intros j Hj. rewrite V, V0, Hraw, Hd by assumption. reflexivity. }
  destruct (Z.eqb_spec ri rj) as [Hrr|Hrr].
  - destruct (Z.eqb_spec s t) as [Hst|Hst].
    + exists c0. split; [reflexivity|]. apply raw_cells. intros j Hj. rewrite V0, Hraw by assumption. subst rj t.
      assert (Hh : forall x, hop N ri s ri s e x = e x) by (intros x; unfold hop, upd; destruct (Z.eqb_spec x (ri + s * N)); subst; auto).
      symmetry. apply raw_ext. intros; apply Hh.
    + subst rj. assert (HG : NPhysG M = 0) by (destruct Hcase as [?|[?|?]]; [lia|lia|assumption]).
      eapply (A (fun c1 => bind _ _)).
      * eapply (adds_seq _ (fun c2 => bind _ _)).
        { apply adds_if. intros. conds. apply (adds_move_phys N (PhysS M) _ _ _ _ _ (NPhysS M)); [now apply wf_physS|sizes|sizes|assumption..]. }
        eapply (adds_seq _ _).
        { apply adds_if. intros. conds. apply (adds_move_ph2 _ _ _ _ _ _ _ _ _ (NPhS M)); [now apply wf_phS|sizes|sizes|sizes|sizes|assumption|assumption]. }
        apply adds_if. intros. conds. apply (adds_move_ph2 _ _ _ _ _ _ _ _ _ (NPhG M)); [now apply wf_phG|sizes|sizes|sizes|sizes|assumption|assumption].
      * intros j Hj. cbv beta. rewrite raw_hop by (try assumption; now right). replace (0 <? NPhysG M) with false by lia.
        fold (dS ri s ri t j).
        assert (Z1 : Cplus (if PhysC M ri + 0 =? j then zc (-1) else RtoC 0) (if PhysC M ri + 0 =? j then zc 1 else RtoC 0) = RtoC 0)
          by (destruct (_ =? _); [rewrite <- zc_add|]; [reflexivity|ring]).
        assert (Z2 : Cplus (dN (NneuronC M) (PhC M) (NPhys M) 0 ri (-1) j) (dN (NneuronC M) (PhC M) (NPhys M) 0 ri 1 j) = RtoC 0).
        { unfold dN. rewrite <- csum_add. apply csum_zero. intros h _. cbv beta. destruct (h + NPhys M =? j); [|apply Cplus_0_l]. change (zc (-1)) with (zc (- (1))). rewrite zc_opp. ring. }
        rewrite Z1, Z2. unfold dN. destruct (0 <? NPhysC M), (0 <? NPhysS M), (0 <? NPhC M), (0 <? NPhS M), (0 <? NPhG M); ring.
  - eapply (A (fun c1 => bind _ _)).
    + eapply (adds_seq _ (fun c2 => bind _ (fun c3 => bind _ (fun c4 => bind _ (fun c5 => bind _ _))))).
      { apply adds_if. intros. conds. apply (adds_move_phys N (PhysC M) _ _ _ _ _ (NPhysC M)); [now apply wf_physC|sizes|sizes|assumption..]. }
      eapply (adds_seq _ (fun c3 => bind _ (fun c4 => bind _ (fun c5 => bind _ _)))).
      { apply adds_if. intros. conds. apply (adds_move_phys N (PhysS M) _ _ _ _ _ (NPhysS M)); [now apply wf_physS|sizes|sizes|assumption..]. }
      eapply (adds_seq _ (fun c4 => bind _ (fun c5 => bind _ _))).
      { apply adds_if. intros. conds. apply (adds_move_phys (2 * N) (PhysG M) _ _ _ _ _ (NPhysG M)); [now apply wf_physG|sizes|sizes|assumption..]. }
      eapply (adds_seq _ (fun c5 => bind _ _)).
      { apply adds_if. intros. conds. apply (adds_move_ph2 _ _ _ _ _ _ _ _ _ (NPhC M)); [now apply wf_phC|sizes|sizes|sizes|sizes|assumption|assumption]. }
      eapply (adds_seq _ _).
      { apply adds_if. intros. conds. apply (adds_move_ph2 _ _ _ _ _ _ _ _ _ (NPhS M)); [now apply wf_phS|sizes|sizes|sizes|sizes|assumption|assumption]. }
      apply adds_if. intros. conds. apply (adds_move_ph2 _ _ _ _ _ _ _ _ _ (NPhG M)); [now apply wf_phG|sizes|sizes|sizes|sizes|assumption|assumption].
    + intros j Hj. cbv beta. rewrite raw_hop by (try assumption; now left). unfold dS, dN. ring.
Qed.
(** the spin-conserving update executes the same statements *)
Lemma update_same ri rj s alias cnew cold e : below N ri -> below N rj -> 0 <= s <= 1 ->
  update_rbm_cnt M W ri rj s alias cnew cold e = update_rbm_cnt_fsz M W ri rj s s alias cnew cold.
Proof.
  intros Hri Hrj Hs. unfold below in *. unfold update_rbm_cnt. rewrite !rd_ok by nia. cbn [bind]. unfold update_rbm_cnt_fsz.
  rewrite (Z.eqb_refl s). reflexivity.
Qed.
Lemma hop_update e ri s rj alias cnew cold e' : is_rbm_cnt M W e cold -> legal_hop N ri s rj s e ->
  exists c, update_rbm_cnt M W ri rj s alias cnew cold e' = Some c /\ is_rbm_cnt M W (hop N ri s rj s e) c.
Proof.
  intros Hc Hl. pose proof Hl as (? & ? & ? & _). rewrite update_same by assumption. apply general_update; auto.
Qed.
Lemma make_cells c e : exists c', make_rbm_cnt M W c e = Some c' /\ is_rbm_cnt M W e c'.
Proof. destruct (make_raw c e) as (c' & E & V). exists c'. split; [assumption|]. now apply raw_cells. Qed.
End M.
