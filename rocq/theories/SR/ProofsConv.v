(** Convergence of the conjugate-gradient loop in exact arithmetic *)
From Coq Require Import ZArith List Bool Reals Lia Lra.
From Coquelicot Require Import Complex.
From Verif Require Import Base.ZLoop Base.RSum SR.Model SR.Spec SR.Proofs SR.ProofsSel SR.ProofsMat SR.ProofsCG.
Import ListNotations.
Local Open Scope R_scope.

Section CG.
Variables (n : Z) (A : (Z -> R) -> Z -> R) (g : Z -> R) (thresh : R).
Hypothesis Hn : (0 <= n)%Z.
Definition dot (u v : Z -> R) : R := rsum (zrange 0 n) (fun i => u i * v i).
Hypothesis A_lin : forall x y a i, (0 <= i < n)%Z -> A (fun i => x i + a * y i) i = A x i + a * A y i.
Hypothesis A_zero : forall i, (0 <= i < n)%Z -> A (fun _ => 0) i = 0.

Lemma dot_ext u u' v v' : (forall i, (0 <= i < n)%Z -> u i = u' i) -> (forall i, (0 <= i < n)%Z -> v i = v' i) -> dot u v = dot u' v'.
Proof. intros H1 H2. apply rsum_ext. intros i Hi. apply zrange_in in Hi. now rewrite H1, H2. Qed.
Lemma dot_sym u v : dot u v = dot v u.
Proof. apply rsum_ext. intros. ring. Qed.
Lemma dot_lin u v w a : dot (fun i => u i + a * v i) w = dot u w + a * dot v w.
Proof. unfold dot. rewrite <- rsum_scal, <- rsum_add. apply rsum_ext. intros. ring. Qed.
Lemma dot_lin_r u v w a : dot w (fun i => u i + a * v i) = dot w u + a * dot w v.
Proof. rewrite dot_sym, dot_lin, (dot_sym u w), (dot_sym v w). reflexivity. Qed.
Lemma dot_nonneg u : 0 <= dot u u.
Proof. apply rsum_nonneg. intros. apply Rle_0_sqr. Qed.

Definition st (k : Z) : cgstate := loop 0 k (fun _ s => cg_step n thresh A g s) (cg_start n g).
Lemma st_0 : st 0 = cg_start n g. Proof. reflexivity. Qed.
Lemma st_next k : (0 <= k)%Z -> st (k + 1) = cg_step n thresh A g (st k).
Proof. intros Hk. unfold st. now rewrite loop_last by lia. Qed.

(** the residual is exact after every step *)
Definition residual_ok (s : cgstate) : Prop := forall i, (0 <= i < n)%Z -> cr s i = g i - A (cx s) i.
Definition delta_ok (s : cgstate) : Prop := cdelta s = dot (cr s) (cr s).
Lemma step_residual s : residual_ok s -> residual_ok (cg_step n thresh A g s).
Proof.
  intros H. unfold cg_step. destruct (cstop s); [exact H|]. destruct (Rlt_dec (cdelta s) thresh); [exact H|].
  set (alpha := cdelta s / _). intros i Hi. cbn [cr cx]. destruct ((citer s + 1) mod 20 =? 0)%Z; [reflexivity|].
  rewrite A_lin, H by assumption. ring.
Qed.
Lemma step_delta s : 0 < thresh -> delta_ok s -> delta_ok (cg_step n thresh A g s).
Proof.
  intros Ht H. unfold cg_step. destruct (cstop s); [exact H|]. destruct (Rlt_dec (cdelta s) thresh) as [L|L]; [exact H|].
  unfold delta_ok. cbn [cdelta cr]. rewrite xdot_rsum by assumption. unfold dot. field. lra.
Qed.
Lemma st_residual k : (0 <= k)%Z -> residual_ok (st k).
Proof.
  revert k. apply natlike_ind.
  - rewrite st_0. intros i Hi. cbn [cr cx cg_start]. rewrite A_zero by assumption. ring.
  - intros k Hk IH. unfold Z.succ. rewrite st_next by assumption. now apply step_residual.
Qed.
Lemma st_delta k : 0 < thresh -> (0 <= k)%Z -> delta_ok (st k).
Proof.
  intros Ht. revert k. apply natlike_ind.
  - rewrite st_0. unfold delta_ok. cbn [cdelta cr cg_start]. now rewrite xdot_rsum.
  - intros k Hk IH. unfold Z.succ. rewrite st_next by assumption. now apply step_delta.
Qed.
Lemma st_stop k : (0 <= k)%Z -> cstop (st k) = true -> cdelta (st k) < thresh.
Proof.
  revert k. apply (natlike_ind (fun k => cstop (st k) = true -> cdelta (st k) < thresh)).
  - rewrite st_0. discriminate.
  - intros k Hk IH. unfold Z.succ. rewrite st_next by assumption. unfold cg_step. destruct (cstop (st k)) eqn:E; [intros _; now apply IH|].
    destruct (Rlt_dec (cdelta (st k)) thresh) as [L|L]; [intros _; exact L|]. discriminate.
Qed.

(** while running *)
Hypothesis A_sym : forall u v, dot (A u) v = dot u (A v).
Hypothesis A_pos : forall u, 0 < dot u u -> 0 < dot u (A u).
Hypothesis Ht : 0 < thresh.
Definition running (k : Z) : Prop := forall j, (0 <= j <= k)%Z -> cstop (st j) = false /\ thresh <= cdelta (st j).
Definition r (k : Z) := cr (st k).
Definition d (k : Z) := cd (st k).
Definition al (k : Z) := cdelta (st k) / dot (d k) (A (d k)).
Definition be (k : Z) := dot (r (k + 1)) (r (k + 1)) / cdelta (st k).

Lemma next_fields k : (0 <= k)%Z -> cstop (st k) = false -> thresh <= cdelta (st k) ->
  (forall i, (0 <= i < n)%Z -> r (k + 1) i = r k i - al k * A (d k) i) /\ (forall i, d (k + 1) i = r (k + 1) i + be k * d k i).
Proof.
  intros Hk Hs Hd.
  assert (R : forall i, (0 <= i < n)%Z -> r (k + 1) i = r k i - al k * A (d k) i).
  { intros i Hi. unfold r. rewrite st_residual by lia. rewrite (st_residual k Hk i Hi). rewrite st_next by assumption. unfold cg_step.
    rewrite Hs. destruct (Rlt_dec (cdelta (st k)) thresh); [lra|]. cbn [cx]. rewrite A_lin by assumption. rewrite xdot_rsum by assumption. unfold al, d, dot. ring. }
  split; [exact R|]. intros i. unfold d at 1, be, r. rewrite st_next by assumption. unfold cg_step. rewrite Hs.
  destruct (Rlt_dec (cdelta (st k)) thresh); [lra|]. cbn [cd cr]. rewrite !xdot_rsum by assumption. reflexivity.
Qed.

Record ortho (k : Z) : Prop := {
  o_rd : forall j, (0 <= j < k)%Z -> dot (r k) (d j) = 0;
  o_dd : forall j, (0 <= j < k)%Z -> dot (d k) (A (d j)) = 0;
  o_rr : forall j, (0 <= j < k)%Z -> dot (r k) (r j) = 0;
  o_self : dot (r k) (d k) = dot (r k) (r k)
}.
Lemma d_pos k : (0 <= k)%Z -> running k -> dot (r k) (d k) = dot (r k) (r k) -> 0 < dot (d k) (A (d k)).
Proof.
  intros Hk Hr Hs. apply A_pos. destruct (Hr k ltac:(lia)) as (_ & L).
  pose proof (st_delta k Ht Hk) as E. unfold delta_ok in E. fold (r k) in E.
  pose proof (dot_nonneg (d k)) as N. destruct N as [N|N]; [exact N|]. exfalso.
  (* d = 0 on [0,n) *)
  assert (Z0 : forall i, (0 <= i < n)%Z -> d k i = 0).
  { intros i Hi. destruct (Req_dec (d k i) 0) as [|NZ]; [assumption|]. exfalso.
    assert (0 < dot (d k) (d k)). { apply (rsum_pos_elem _ _ i); [intros; apply Rle_0_sqr|now apply zrange_in|]. now apply Rsqr_pos_lt. } lra. }
  assert (dot (r k) (d k) = 0). { apply rsum_zero. intros i Hi. apply zrange_in in Hi. rewrite Z0 by assumption. ring. } lra.
Qed.
Lemma ortho_all k : (0 <= k)%Z -> (forall j, (0 <= j < k)%Z -> running j) -> forall j, (0 <= j <= k)%Z -> ortho j.
Proof.
  revert k. apply (natlike_ind (fun k => (forall j, (0 <= j < k)%Z -> running j) -> forall j, (0 <= j <= k)%Z -> ortho j)).
  - intros _ j Hj. assert (j = 0)%Z by lia. subst j. constructor; try (intros; lia). reflexivity.
  - intros k Hk IH Hr j Hj. unfold Z.succ in *. specialize (IH (fun j Hj => Hr j ltac:(lia))).
    destruct (Z.eq_dec j (k + 1)) as [->|]; [|apply IH; lia].
    pose proof (Hr k ltac:(lia)) as Rk.
    assert (NF : forall j, (0 <= j <= k)%Z -> (forall i, (0 <= i < n)%Z -> r (j + 1) i = r j i - al j * A (d j) i) /\ (forall i, d (j + 1) i = r (j + 1) i + be j * d j i)).
    { intros i Hi. destruct (Rk i ltac:(lia)) as (a & b). apply next_fields; auto; lia. }
    assert (DP : forall j, (0 <= j <= k)%Z -> 0 < dot (d j) (A (d j))).
    { intros i Hi. apply d_pos; [lia|apply Hr; lia|]. apply (o_self _ (IH i Hi)). }
    assert (DL : forall j, (0 <= j <= k)%Z -> cdelta (st j) = dot (r j) (r j)). { intros i Hi. apply st_delta; [exact Ht|lia]. }
    assert (DT : forall j, (0 <= j <= k)%Z -> thresh <= cdelta (st j)). { intros i Hi. apply Rk. lia. }
    assert (AL : forall j, (0 <= j <= k)%Z -> 0 < al j). { intros i Hi. unfold al. specialize (DT i Hi). specialize (DP i Hi). apply Rdiv_lt_0_compat; lra. }
    destruct (NF k ltac:(lia)) as (R1 & D1).
    assert (RX : forall w, dot (r (k + 1)) w = dot (r k) w - al k * dot (A (d k)) w).
    { intros w. rewrite (dot_ext (r (k + 1)) (fun i => r k i + - al k * A (d k) i) w w); [rewrite dot_lin; ring| |reflexivity]. intros i Hi. rewrite R1 by assumption. ring. }
    assert (RD : forall j, (0 <= j < k + 1)%Z -> dot (r (k + 1)) (d j) = 0).
    { intros i Hi. rewrite RX. destruct (Z.eq_dec i k) as [->|].
      - rewrite (o_self _ (IH k ltac:(lia))), <- DL by lia. rewrite A_sym. unfold al. specialize (DP k ltac:(lia)). field. lra.
      - rewrite (o_rd _ (IH k ltac:(lia))) by lia. rewrite A_sym, (o_dd _ (IH k ltac:(lia))) by lia. ring. }
    assert (RR : forall j, (0 <= j < k + 1)%Z -> dot (r (k + 1)) (r j) = 0).
    { intros i Hi. destruct (Z.eq_dec i 0) as [->|].
      - change (r 0) with (d 0). apply RD. lia.
      - destruct (NF (i - 1)%Z ltac:(lia)) as (_ & D'). replace (i - 1 + 1)%Z with i in D' by ring.
        rewrite (dot_ext _ (r (k + 1)) (r i) (fun x => d i x + - be (i - 1) * d (i - 1) x)); [|reflexivity|intros x _; rewrite D'; ring].
        rewrite dot_lin_r, !RD by lia. ring. }
    assert (AD : forall j w, (0 <= j <= k)%Z -> dot w (A (d j)) = (dot w (r j) - dot w (r (j + 1))) / al j).
    { intros i w Hi. destruct (NF i Hi) as (R' & _). specialize (AL i Hi).
      rewrite (dot_ext w w (r (i + 1)) (fun x => r i x + - al i * A (d i) x)); [|reflexivity|intros x Hx; rewrite R' by assumption; ring].
      rewrite dot_lin_r. field. lra. }
    constructor; [exact RD| |exact RR|].
    + intros i Hi. rewrite (dot_ext (d (k + 1)) (fun x => r (k + 1) x + be k * d k x) _ (A (d i))); [|intros; apply D1|reflexivity].
      rewrite dot_lin. rewrite AD by lia. destruct (Z.eq_dec i k) as [->|].
      * rewrite (RR k) by lia. unfold be, al. specialize (DP k ltac:(lia)). specialize (DT k ltac:(lia)). field. split; lra.
      * rewrite (RR i), (RR (i + 1)%Z) by lia. rewrite (o_dd _ (IH k ltac:(lia)) i) by lia. field. specialize (AL i ltac:(lia)). lra.
    + rewrite (dot_ext (r (k + 1)) (r (k + 1)) (d (k + 1)) (fun x => r (k + 1) x + be k * d k x)); [|reflexivity|intros; apply D1].
      rewrite dot_lin_r, (RD k) by lia. ring.
Qed.

(** m mutually orthogonal nonzero vectors need m dimensions *)
Lemma bessel (v : Z -> Z -> R) m i : (0 <= i < n)%Z ->
  (forall a, (0 <= a < m)%Z -> 0 < dot (v a) (v a)) -> (forall a b, (0 <= a < m)%Z -> (0 <= b < m)%Z -> a <> b -> dot (v a) (v b) = 0) ->
  rsum (zrange 0 m) (fun a => v a i * v a i / dot (v a) (v a)) <= 1.
Proof.
  intros Hi Hp Ho. set (c := fun a => v a i / dot (v a) (v a)). set (L := zrange 0 m).
  set (e := fun x : Z => if Z.eqb x i then 1 else 0). set (P := fun x => rsum L (fun a => c a * v a x)).
  assert (H : 0 <= dot (fun x => e x + -1 * P x) (fun x => e x + -1 * P x)) by apply dot_nonneg.
  rewrite dot_lin, !dot_lin_r in H.
  assert (E1 : forall w, dot e w = w i).
  { intros w. unfold dot, e. rewrite (rsum_ext _ _ (fun x => if Z.eqb x i then w x else 0)) by (intros x _; destruct (Z.eqb x i); ring).
    apply rsum_delta; [apply zrange_NoDup|now apply zrange_in]. }
  rewrite (dot_sym P e), !E1 in H. unfold e at 1 in H. rewrite Z.eqb_refl in H.
  assert (E2 : P i = rsum L (fun a => v a i * v a i / dot (v a) (v a))).
  { unfold P. apply rsum_ext. intros a _. unfold c, Rdiv. ring. }
  assert (E3 : dot P P = P i).
  { rewrite E2. unfold dot at 1, P. rewrite (rsum_ext _ _ (fun x => rsum L (fun a => rsum L (fun b => c a * c b * (v a x * v b x))))).
    2:{ intros x _. rewrite <- rsum_prod. apply rsum_ext. intros. apply rsum_ext. intros. ring. }
    rewrite rsum_swap. apply rsum_ext. intros a Ha. rewrite rsum_swap. unfold L in Ha. apply zrange_in in Ha.
    rewrite (rsum_ext L _ (fun b => if Z.eqb b a then c b * c b * dot (v b) (v b) else 0)).
    - rewrite (rsum_delta L a (fun b => c b * c b * dot (v b) (v b))); [|apply zrange_NoDup|now apply zrange_in].
      unfold c. specialize (Hp a Ha). field. lra.
    - intros b Hb. unfold L in Hb. apply zrange_in in Hb. rewrite rsum_scal. fold (dot (v a) (v b)). destruct (Z.eqb_spec b a) as [->|]; [reflexivity|].
      rewrite Ho by (assumption || lia). ring. }
  rewrite E3, E2 in H. fold L. lra.
Qed.
Lemma dimension (v : Z -> Z -> R) m : (0 <= m)%Z ->
  (forall a, (0 <= a < m)%Z -> 0 < dot (v a) (v a)) -> (forall a b, (0 <= a < m)%Z -> (0 <= b < m)%Z -> a <> b -> dot (v a) (v b) = 0) -> (m <= n)%Z.
Proof.
  intros Hm Hp Ho.
  assert (H : rsum (zrange 0 n) (fun i => rsum (zrange 0 m) (fun a => v a i * v a i / dot (v a) (v a))) <= rsum (zrange 0 n) (fun _ => 1)).
  { apply rsum_le. intros i Hi. apply zrange_in in Hi. now apply bessel. }
  rewrite rsum_swap, rsum_const, zrange_length in H.
  rewrite (rsum_ext (zrange 0 m) _ (fun _ => 1)) in H.
  - rewrite rsum_const, zrange_length in H. rewrite !INR_IZR_INZ in H. rewrite !Rmult_1_l in H. apply le_IZR in H. lia.
  - intros a Ha. apply zrange_in in Ha. unfold Rdiv. rewrite rsum_scal_r. fold (dot (v a) (v a)). specialize (Hp a Ha). field. lra.
Qed.
Lemma converged : exists k, (0 <= k <= n)%Z /\ ~ running k.
Proof.
  exists n. split; [lia|]. intros Hr.
  assert (Rall : forall j, (0 <= j < n + 1)%Z -> running j). { intros j Hj i Hi. apply Hr. lia. }
  pose proof (ortho_all n Hn (fun j Hj => Rall j ltac:(lia))) as O.
  pose proof (dimension r (n + 1) ltac:(lia)) as D.
  assert (n + 1 <= n)%Z; [|lia]. apply D.
  - intros a Ha. destruct (Hr a ltac:(lia)) as (_ & L). rewrite (st_delta a Ht ltac:(lia)) in L. fold (r a) in L. lra.
  - intros a b Ha Hb Hab. destruct (Z.lt_total a b) as [l|[l|l]]; [|contradiction|].
    + rewrite dot_sym. apply (o_rr _ (O b ltac:(lia))). lia.
    + apply (o_rr _ (O a ltac:(lia))). lia.
Qed.
Lemma stays k : (0 <= k)%Z -> cdelta (st k) < thresh -> forall m, (k <= m)%Z -> cdelta (st m) < thresh.
Proof.
  intros Hk H m Hm. replace m with (k + (m - k))%Z by ring. assert (Hd : (0 <= m - k)%Z) by lia. revert Hd. generalize (m - k)%Z. clear m Hm.
  apply (natlike_ind (fun d => cdelta (st (k + d)) < thresh)).
  - now rewrite Z.add_0_r.
  - intros e He IH. replace (k + Z.succ e)%Z with (k + e + 1)%Z by lia. rewrite st_next by lia. unfold cg_step.
    destruct (cstop (st (k + e))); [exact IH|]. destruct (Rlt_dec (cdelta (st (k + e))) thresh); [exact IH|contradiction].
Qed.
Lemma not_running k : (0 <= k)%Z -> ~ running k -> exists j, (0 <= j <= k)%Z /\ cdelta (st j) < thresh.
Proof.
  revert k. apply (natlike_ind (fun k => ~ running k -> exists j, (0 <= j <= k)%Z /\ cdelta (st j) < thresh)).
  - intros H. destruct (Rlt_dec (cdelta (st 0)) thresh) as [L|L]; [exists 0%Z; split; [lia|exact L]|]. exfalso. apply H. intros j Hj. assert (j = 0)%Z by lia. subst j.
    split; [reflexivity|lra].
  - intros k Hk IH H. unfold Z.succ in *. destruct (Rlt_dec (cdelta (st (k + 1))) thresh) as [L|L]; [exists (k + 1)%Z; split; [lia|exact L]|].
    destruct (cstop (st (k + 1))) eqn:E. { pose proof (st_stop (k + 1) ltac:(lia) E). contradiction. }
    assert (NR : ~ running k). { intros R. apply H. intros j Hj. destruct (Z.eq_dec j (k + 1)) as [->|]; [split; [exact E|lra]|apply R; lia]. }
    destruct (IH NR) as (j & Hj & Lj). exists j. split; [lia|exact Lj].
Qed.
Lemma cg_solves max_iter : (n <= max_iter)%Z ->
  let s := cg_main n max_iter thresh A g in dot (fun i => g i - A (cx s) i) (fun i => g i - A (cx s) i) < thresh.
Proof.
  intros Hm s. unfold s, cg_main. clear s. change (loop 0 max_iter _ _) with (st max_iter).
  destruct converged as (k & Hk & NR). destruct (not_running k ltac:(lia) NR) as (j & Hj & L).
  pose proof (stays j ltac:(lia) L max_iter ltac:(lia)) as F. rewrite (st_delta max_iter Ht ltac:(lia)) in F.
  rewrite (dot_ext _ (cr (st max_iter)) _ (cr (st max_iter))); [exact F| |]; intros i Hi; rewrite st_residual by (assumption || lia); reflexivity.
Qed.
End CG.

