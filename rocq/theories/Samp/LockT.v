(** The group of processes compared with one process that works alone. *)
From Coq Require Import ZArith List Bool Lia.
From Verif Require Import Base.ZLoop Base.Checked Proj.Model Proj.Spec Par.Model Par.Proofs Samp.Prog Samp.Model Samp.Spec
  Samp.Lock Samp.LockS.
Import ListNotations.
Local Open Scope Z_scope.

Lemma split_one n : 0 <= n -> split_loop n 0 1 = (0, n).
Proof.
  intros H. unfold split_loop. rewrite Z.quot_1_r, Z.rem_1_r. cbn. destruct (1 <? n) eqn:E.
  - f_equal; lia.
  - apply Z.ltb_ge in E. assert (n = 0 \/ n = 1) as [->| ->] by lia; reflexivity.
Qed.

Lemma maxi_pos rs (x : Z -> Z) : rs <> [] -> (forall r, In r rs -> 0 <= x r) -> (0 < maxi rs x <-> exists r, In r rs /\ 0 < x r).
Proof.
  intros rsne H. unfold maxi. destruct rs as [|r0 l]; [now contradiction rsne|]. cbn [map hd tl].
  assert (G : forall l z, 0 <= z -> (forall r, In r l -> 0 <= x r) ->
    (0 < fold_left Z.max (map x l) z <-> 0 < z \/ exists r, In r l /\ 0 < x r)).
  { clear. induction l as [|r l IH]; intros z Hz H; cbn.
    - split; [auto|]. intros [?|(r & [] & _)]; assumption.
    - rewrite IH; [|lia|intros; apply H; now right]. split.
      + intros [H1|(r' & Hr & Hx)]; [|right; exists r'; auto].
        destruct (Z.lt_ge_cases 0 z); [now left|]. right. exists r. split; [now left|lia].
      + intros [H1|(r' & [->|Hr] & Hx)]; [left; lia|left; lia|right; eauto]. }
  rewrite G; [|apply H; now left|intros; apply H; now right]. split.
  - intros [H1|(r & Hr & Hx)]; [exists r0; split; [now left|assumption]|exists r; split; [now right|assumption]].
  - intros (r & [->|Hr] & Hx); [now left|right; eauto].
Qed.

Section Single.
Variable I : input.
Variable Orc : oracles.
Variable size : Z.
Hypothesis Hsize : 1 < size.
Hypothesis Hq : 0 <= NQPFull I.
Hypothesis reg : regular Orc.
Notation prog := (Prog.prog (K Orc) (event (L Orc))).
Notation NQ := (NQPFull I).
Let rs := zrange 0 size.
Let rsne : rs <> [] := rs_ne size Hsize.
Notation Bad := (singular_at I Orc).
Notation LS2 := (@Lock.LS2 (K Orc) (event (L Orc)) (kzero Orc) (kadd Orc) rs _ Bad).
Notation lo r := (qpStart I r size).
Notation hi r := (qpEnd I r size).

Lemma start1 : qpStart I 0 1 = 0. Proof. unfold qpStart. now rewrite split_one. Qed.
Lemma end1 : qpEnd I 0 1 = NQ. Proof. unfold qpEnd. now rewrite split_one. Qed.
Lemma ksum_app l l' f : ksum Orc (l ++ l') f = kadd Orc (ksum Orc l f) (ksum Orc l' f).
Proof.
  unfold ksum. induction l as [|q l IH]; cbn; [now rewrite (r_unit _ reg)|]. now rewrite IH, (r_assoc _ reg).
Qed.
Lemma ksum_ext l f g : (forall q, In q l -> f q = g q) -> ksum Orc l f = ksum Orc l g.
Proof.
  intros H. unfold ksum. induction l as [|q l IH]; [reflexivity|]. cbn. rewrite H by now left. f_equal.
  apply IH. intros; apply H; now right.
Qed.
Lemma total_ksum (f : Z -> Z -> K Orc) f1 : (forall r, In r rs -> forall x, lo r <= x < hi r -> f r x = f1 x) ->
  total (kzero Orc) (kadd Orc) rs (fun r => ksum Orc (zrange (lo r) (hi r)) (f r)) = ksum Orc (zrange 0 NQ) f1.
Proof.
  intros H. rewrite <- (split_concat NQ size) by lia. fold rs. unfold total.
  revert H. generalize rs as l. intros l. induction l as [|r l IH]; intros H; [reflexivity|].
  cbn [map fold_right flat_map]. rewrite ksum_app. f_equal.
  - apply ksum_ext. intros q Hq0. apply zrange_in in Hq0. apply H; [now left|assumption].
  - apply IH. intros; apply H; [now right|assumption].
Qed.

Lemma LS2_log f f1 : (forall r, In r rs -> forall x, lo r <= x < hi r -> f r x = f1 x) ->
  LS2 (fun a b => forall r, In r rs -> a r = b) (fun r => calc_log_ip I Orc r size (f r)) (calc_log_ip I Orc 0 1 f1).
Proof.
  intros H. unfold calc_log_ip. rewrite (proj2 (Z.ltb_lt 1 size) Hsize). cbn [Z.ltb Z.compare Pos.compare Pos.compare_cont].
  eapply LS2_sum; [intros; reflexivity|]. cbn beta. rewrite (total_ksum f f1 H), start1, end1.
  eapply LS2_ret; [intros; reflexivity|]. reflexivity.
Qed.
Lemma LS2_log_bind {B} (R : (Z -> B) -> B -> Prop) f f1 (g : Z -> L Orc -> prog B) g1 :
  (forall r, In r rs -> forall x, lo r <= x < hi r -> f r x = f1 x) -> (forall l, LS2 R (fun r => g r l) (g1 l)) ->
  LS2 R (fun r => bindP (calc_log_ip I Orc r size (f r)) (g r)) (bindP (calc_log_ip I Orc 0 1 f1) g1).
Proof.
  intros Hf H. eapply LS2_bind; [apply LS2_log; exact Hf|]. intros a b Hab.
  eapply LS2_ext; [|apply (H b)]. intros r Hr. cbn. now rewrite Hab.
Qed.

(** matrices: rank r holds those of its own projections *)
Definition RelQ (q : Z -> Z -> Q Orc) (q1 : Z -> Q Orc) : Prop :=
  forall r, In r rs -> forall x, lo r <= x < hi r -> q r x = q1 x.
Definition Rel (s : Z -> st Orc) (s1 : st Orc) : Prop :=
  exists p w l n q q1, (forall r, In r rs -> s r = St Orc p w (q r) l n) /\ s1 = St Orc p w q1 l n /\ RelQ q q1.

Lemma range_in r x : In r rs -> lo r <= x < hi r -> 0 <= x < NQ.
Proof.
  intros Hr Hx. apply zrange_in in Hr. pose proof (split_within NQ size r Hq ltac:(lia) Hr). unfold qpStart, qpEnd in Hx. lia.
Qed.
Lemma range_of x : 0 <= x < NQ -> exists r, In r rs /\ lo r <= x < hi r.
Proof.
  intros Hx. destruct (split_unique NQ size Hq ltac:(lia) x Hx) as (r & (Hr & Hr') & _).
  exists r. split; [apply zrange_in; exact Hr|exact Hr'].
Qed.

Lemma calc_all_spec rank sz w qs : let a := qpStart I rank sz in let b := qpEnd I rank sz in a <= b ->
  let r := calc_all I Orc rank sz w qs in
  0 <= snd r /\ (snd r = 0 -> forall q, a <= q < b -> snd (calcM Orc w q (qs q)) = 0 /\ fst r q = fst (calcM Orc w q (qs q))) /\
  (snd r <> 0 -> exists q, a <= q < b /\ snd (calcM Orc w q (qs q)) <> 0).
Proof.
  intros a b Hab r.
  assert (H : (fun i (st : (Z -> Q Orc) * Z) => 0 <= snd st /\
     (snd st = 0 -> forall q, a <= q < i -> snd (calcM Orc w q (qs q)) = 0 /\ fst st q = fst (calcM Orc w q (qs q))) /\
     (snd st <> 0 -> exists q, a <= q < i /\ snd (calcM Orc w q (qs q)) <> 0) /\
     (snd st = 0 -> forall q, i <= q -> fst st q = qs q)) b r).
  { unfold r, calc_all. fold a b. apply loop_inv; [assumption| |].
    - cbn. split; [lia|]. split; [intros; lia|]. split; [intros H; now contradiction H|reflexivity].
    - intros i st Hi (H1 & H2 & H3 & H4). destruct (snd st =? 0) eqn:E0.
      + apply Z.eqb_eq in E0. cbn [fst snd]. rewrite (H4 E0 i ltac:(lia)).
        split; [apply (r_info _ reg)|]. split; [|split].
        * intros Hs q Hq0. destruct (Z.eq_dec q i) as [->|Hne].
          -- split; [exact Hs|]. now rewrite upd_same.
          -- rewrite upd_other by assumption. apply H2; [assumption|lia].
        * intros Hs. exists i. split; [lia|exact Hs].
        * intros _ q Hq0. rewrite upd_other by lia. apply H4; [assumption|lia].
      + apply Z.eqb_neq in E0. split; [assumption|]. split; [intros; contradiction|]. split; [|intros; contradiction].
        intros _. destruct (H3 E0) as (q & Hq0 & Hf). exists q. split; [lia|assumption]. }
  cbn beta in H. destruct H as (H1 & H2 & H3 & _). auto.
Qed.

Lemma fresh_ok w q a : (forall x, 0 <= x < NQ -> ~ singular Orc w x) -> 0 <= q < NQ -> snd (calcM Orc w q a) = 0.
Proof.
  intros H Hx. destruct (Z.eq_dec (snd (calcM Orc w q a)) 0) as [E|E]; [exact E|]. exfalso. apply (H q Hx). now exists a.
Qed.
Lemma lo_hi r : In r rs -> lo r <= hi r.
Proof.
  intros Hr. apply zrange_in in Hr. pose proof (split_within NQ size r Hq ltac:(lia) Hr). unfold qpStart, qpEnd. lia.
Qed.
Lemma one_ab : qpStart I 0 1 <= qpEnd I 0 1.
Proof. rewrite start1, end1. exact Hq. Qed.

(** regular walkers: both sides compute the same matrices, whatever was stored before *)
Lemma calc_all_rel w (q : Z -> Z -> Q Orc) q1 : (forall x, 0 <= x < NQ -> ~ singular Orc w x) ->
  RelQ (fun r => fst (calc_all I Orc r size w (q r))) (fst (calc_all I Orc 0 1 w q1)).
Proof.
  intros Hs r Hr x Hx. pose proof (range_in r x Hr Hx) as Hx0.
  destruct (calc_all_spec r size w (q r) (lo_hi r Hr)) as (_ & A & B).
  destruct (calc_all_spec 0 1 w q1 one_ab) as (_ & A1 & B1). rewrite start1, end1 in A1, B1.
  assert (E : snd (calc_all I Orc r size w (q r)) = 0).
  { destruct (Z.eq_dec (snd (calc_all I Orc r size w (q r))) 0) as [E|E]; [exact E|].
    destruct (B E) as (y & Hy & F). rewrite fresh_ok in F; [now contradiction F|assumption|]. eapply range_in; eassumption. }
  assert (E1 : snd (calc_all I Orc 0 1 w q1) = 0).
  { destruct (Z.eq_dec (snd (calc_all I Orc 0 1 w q1)) 0) as [E1|E1]; [exact E1|].
    destruct (B1 E1) as (y & Hy & F). rewrite fresh_ok in F; [now contradiction F|assumption|assumption]. }
  destruct (A E x Hx) as (Z0 & ->). destruct (A1 E1 x Hx0) as (Z1 & ->). now rewrite (r_fresh _ reg w x (q r x) (q1 x)).
Qed.
(** the reduced flag is positive exactly when the flag of the single process is *)
Lemma flags w (q : Z -> Z -> Q Orc) q1 :
  (0 <? maxi rs (fun r => snd (calc_all I Orc r size w (q r)))) = (0 <? snd (calc_all I Orc 0 1 w q1)) /\
  ((0 <? snd (calc_all I Orc 0 1 w q1)) = false -> forall x, 0 <= x < NQ -> ~ singular Orc w x).
Proof.
  destruct (calc_all_spec 0 1 w q1 one_ab) as (P1 & A1 & B1). rewrite start1, end1 in A1, B1.
  assert (Hnn : forall r, In r rs -> 0 <= snd (calc_all I Orc r size w (q r))).
  { intros r Hr. apply (calc_all_spec r size w (q r) (lo_hi r Hr)). }
  assert (HS : (0 <? snd (calc_all I Orc 0 1 w q1)) = false -> forall x, 0 <= x < NQ -> ~ singular Orc w x).
  { intros E x Hx (a & Ha). apply Z.ltb_ge in E. destruct (A1 ltac:(lia) x Hx) as (Z0 & _).
    apply Ha. rewrite (r_fresh _ reg w x (q1 x) a Z0). exact Z0. }
  split; [|exact HS].
  destruct (0 <? snd (calc_all I Orc 0 1 w q1)) eqn:E1.
  - apply Z.ltb_lt in E1. apply Z.ltb_lt. apply maxi_pos; [exact rsne|exact Hnn|].
    destruct (B1 ltac:(lia)) as (x & Hx & F). destruct (range_of x Hx) as (r & Hr & Hxr). exists r. split; [exact Hr|].
    destruct (calc_all_spec r size w (q r) (lo_hi r Hr)) as (Pr & Ar & _).
    destruct (Z.eq_dec (snd (calc_all I Orc r size w (q r))) 0) as [E|E]; [|lia].
    destruct (Ar E x Hxr) as (Z0 & _). exfalso. apply F. rewrite (r_fresh _ reg w x (q r x) (q1 x) Z0). exact Z0.
  - destruct (0 <? maxi rs _) eqn:Em; [|reflexivity]. apply Z.ltb_lt in Em. apply maxi_pos in Em; [|exact rsne|exact Hnn].
    destruct Em as (r & Hr & Hpos). destruct (calc_all_spec r size w (q r) (lo_hi r Hr)) as (_ & _ & Br).
    destruct (Br ltac:(lia)) as (x & Hx & F). exfalso. apply (HS eq_refl x (range_in r x Hr Hx)). now exists (q r x).
Qed.

(** ** Steps *)
Lemma Rel_intro p w q l n q1 : RelQ q q1 -> Rel (fun r => St Orc p w (q r) l n) (St Orc p w q1 l n).
Proof. intros H. exists p, w, l, n, q, q1. auto. Qed.
Lemma LS2_ret_rel p w q l n q1 : RelQ q q1 -> LS2 Rel (fun r => Ret (St Orc p w (q r) l n)) (Ret (St Orc p w q1 l n)).
Proof. intros H. eapply LS2_ret; [intros; reflexivity|]. now apply Rel_intro. Qed.
Lemma LS2_rel {B} (R : (Z -> B) -> B -> Prop) (f : Z -> st Orc -> prog B) g (s : Z -> st Orc) s1 : Rel s s1 ->
  (forall p w l n q q1, RelQ q q1 -> LS2 R (fun r => f r (St Orc p w (q r) l n)) (g (St Orc p w q1 l n))) ->
  LS2 R (fun r => f r (s r)) (g s1).
Proof.
  intros (p & w & l & n & q & q1 & E & -> & HR) H. eapply LS2_ext; [|apply (H p w l n q q1 HR)].
  intros r Hr. cbn. now rewrite E.
Qed.

Lemma LS2_metropolis p0 w0 q q1 l n w1 cnt m p revert : RelQ q q1 -> (forall w, local (revert w)) ->
  LS2 Rel (fun r => metropolis I Orc r size (St Orc p0 w0 (q r) l n) w0 w1 cnt m p revert)
          (metropolis I Orc 0 1 (St Orc p0 w0 q1 l n) w0 w1 cnt m p revert).
Proof.
  intros HR Hr. unfold metropolis. cbn [qs logIpOld nAccept].
  eapply LS2_log_bind; [intros r Hi x Hx; now rewrite (HR r Hi x Hx)|]. intros l'. destruct (accept _ _ _ _ _ _).
  - eapply LS2_local_bind; [apply local_ofOpt|]. intros c. cbn beta.
    apply (LS2_ret_rel (p + 1) (set_cnt w1 c)
      (fun r x => if (lo r <=? x) && (x <? hi r) then updM Orc x (q r x) w1 m else q r x)).
    intros r Hi x Hx. pose proof (range_in r x Hi Hx) as Hx0. rewrite start1, end1.
    replace (lo r <=? x) with true by lia. replace (x <? hi r) with true by lia.
    replace (0 <=? x) with true by lia. replace (x <? NQ) with true by lia. cbn. now rewrite (HR r Hi x Hx).
  - eapply LS2_local_bind; [apply Hr|]. intros w. now apply LS2_ret_rel.
Qed.
Lemma Bad_recalc w : ~ Bad (Recalc w) -> forall x, 0 <= x < NQ -> ~ singular Orc w x.
Proof. intros H x Hx Hs. apply H. exists w, x. auto. Qed.
Lemma LS2_recalc s s1 : Rel s s1 -> LS2 Rel (fun r => recalc I Orc r size (s r)) (recalc I Orc 0 1 s1).
Proof.
  intros Hs. apply (LS2_rel Rel (fun r s => recalc I Orc r size s) _ s s1 Hs). intros p w l n q q1 HR.
  unfold recalc. cbn [nAccept wk qs pos]. destruct (_ <? _); [|now apply LS2_ret_rel].
  eapply LS2_emit; [intros; reflexivity|]. intros Hb. cbn beta zeta.
  pose proof (calc_all_rel w q q1 (Bad_recalc w Hb)) as HR'.
  eapply LS2_log_bind; [intros r Hi x Hx; now rewrite (HR' r Hi x Hx)|]. intros l'. now apply LS2_ret_rel.
Qed.
Lemma LS2_metro_recalc p0 w0 q q1 l n w1 cnt m p revert : RelQ q q1 -> (forall w, local (revert w)) ->
  LS2 Rel (fun r => bindP (metropolis I Orc r size (St Orc p0 w0 (q r) l n) w0 w1 cnt m p revert)
                          (fun s' => recalc I Orc r size s'))
          (bindP (metropolis I Orc 0 1 (St Orc p0 w0 q1 l n) w0 w1 cnt m p revert) (fun s' => recalc I Orc 0 1 s')).
Proof.
  intros HR Hr. eapply LS2_bind; [now apply LS2_metropolis|]. intros a b Ha. now apply LS2_recalc.
Qed.

Lemma LS2_hopping p w q q1 l n p' : RelQ q q1 ->
  LS2 Rel (fun r => hopping_step I Orc r size (St Orc p w (q r) l n) p') (hopping_step I Orc 0 1 (St Orc p w q1 l n) p').
Proof.
  intros HR. unfold hopping_step. cbn [wk qs logIpOld nAccept].
  eapply LS2_local_bind; [apply local_hopping|]. intros ((p1, (((mi, ri), rj), sp)), flag).
  destruct (flag =? 1); [now apply LS2_ret_rel|].
  eapply LS2_local_bind; [apply local_update|]. intros w1.
  eapply LS2_local_bind; [apply local_ofOpt|]. intros cnt.
  apply LS2_metro_recalc; [assumption|]. intros; apply local_revert.
Qed.
Lemma LS2_exchange p w q q1 l n p' : RelQ q q1 ->
  LS2 Rel (fun r => exchange_step I Orc r size (St Orc p w (q r) l n) p') (exchange_step I Orc 0 1 (St Orc p w q1 l n) p').
Proof.
  intros HR. unfold exchange_step. cbn [wk qs logIpOld nAccept].
  eapply LS2_local_bind; [apply local_exchange|]. intros (p1, [(((mi, ri), rj), sp)|]); [|now apply LS2_ret_rel].
  eapply LS2_local_bind; [apply local_get|]. intros mj.
  eapply LS2_local_bind; [apply local_update|]. intros w1.
  eapply LS2_local_bind; [apply local_ofOpt|]. intros cnt.
  eapply LS2_local_bind; [apply local_update|]. intros w2.
  eapply LS2_local_bind; [apply local_ofOpt|]. intros cnt'.
  apply LS2_metro_recalc; [assumption|]. intros; apply local_bind; intros; apply local_revert.
Qed.
Lemma LS2_one_move b y p w q q1 l n : RelQ q q1 ->
  LS2 Rel (fun r => one_move_fsz I Orc r size b (St Orc p w (q r) l n) y) (one_move_fsz I Orc 0 1 b (St Orc p w q1 l n) y).
Proof.
  intros HR. unfold one_move_fsz. cbn [wk qs logIpOld nAccept]. destruct y as ((p1, ((((mi, ri), rj), sp), t)), flag).
  destruct (flag =? 1); [now apply LS2_ret_rel|].
  eapply LS2_local_bind; [apply local_update_fsz|]. intros w1.
  eapply LS2_local_bind; [apply local_ofOpt|]. intros cnt.
  apply LS2_metro_recalc; [assumption|]. intros; apply local_revert_fsz.
Qed.
Lemma LS2_hopping_fsz p w q q1 l n p' : RelQ q q1 ->
  LS2 Rel (fun r => hopping_step_fsz I Orc r size (St Orc p w (q r) l n) p') (hopping_step_fsz I Orc 0 1 (St Orc p w q1 l n) p').
Proof.
  intros HR. unfold hopping_step_fsz. cbn [wk].
  destruct (_ =? _); [destruct (_ =? _)|].
  - eapply LS2_local_bind; [apply local_hopping_fsz|]. intros; now apply LS2_one_move.
  - eapply LS2_local_bind; [apply local_flip_conduction|]. intros; now apply LS2_one_move.
  - eapply LS2_local_bind; [apply local_hopping_csz|]. intros; now apply LS2_one_move.
Qed.
Lemma LS2_flip_fsz p w q q1 l n p' : RelQ q q1 ->
  LS2 Rel (fun r => flip_step_fsz I Orc r size (St Orc p w (q r) l n) p') (flip_step_fsz I Orc 0 1 (St Orc p w q1 l n) p').
Proof.
  intros HR. unfold flip_step_fsz. cbn [wk]. eapply LS2_local_bind; [apply local_flip_localspin|]. intros; now apply LS2_one_move.
Qed.
Lemma LS2_exchange_fsz p w q q1 l n p' : RelQ q q1 ->
  LS2 Rel (fun r => exchange_step_fsz I Orc r size (St Orc p w (q r) l n) p') (exchange_step_fsz I Orc 0 1 (St Orc p w q1 l n) p').
Proof.
  intros HR. unfold exchange_step_fsz. cbn [wk qs logIpOld nAccept].
  eapply LS2_local_bind; [apply local_exchange_fsz|]. intros (p1, [(((mi, ri), rj), sp)|]); [|now apply LS2_ret_rel].
  eapply LS2_local_bind; [apply local_get|]. intros mj.
  eapply LS2_local_bind; [apply local_update_fsz|]. intros w1.
  eapply LS2_local_bind; [apply local_ofOpt|]. intros cnt.
  eapply LS2_local_bind; [apply local_update_fsz|]. intros w2.
  eapply LS2_local_bind; [apply local_ofOpt|]. intros cnt'.
  apply LS2_metro_recalc; [assumption|]. intros; apply local_bind; intros; apply local_revert_fsz.
Qed.
Lemma LS2_at_step P p : LS2 Rel P p ->
  LS2 Rel (fun r => bindP (P r) (fun s' => Emit (AtStep (wk _ s')) (Ret s'))) (bindP p (fun s' => Emit (AtStep (wk _ s')) (Ret s'))).
Proof.
  intros H. eapply LS2_bind; [exact H|]. intros a b Ha.
  apply (LS2_rel Rel (fun r s' => Emit (AtStep (wk _ s')) (Ret s')) (fun s' => Emit (AtStep (wk _ s')) (Ret s')) a b Ha).
  intros. cbn [wk]. eapply LS2_emit; [intros; reflexivity|]. intros _. now apply LS2_ret_rel.
Qed.
Lemma LS2_inner s s1 : Rel s s1 -> LS2 Rel (fun r => inner_step I Orc r size (s r)) (inner_step I Orc 0 1 s1).
Proof.
  intros Hs. apply (LS2_rel Rel (fun r s => inner_step I Orc r size s) _ s s1 Hs). intros p w l n q q1 HR.
  unfold inner_step. cbn [pos wk qs logIpOld nAccept]. destruct (get_update_type I Orc p) as (p1, ut).
  apply LS2_at_step. destruct ut; [now apply LS2_hopping|now apply LS2_exchange| |]; apply LS2_recalc; now apply Rel_intro.
Qed.
Lemma LS2_inner_fsz s s1 : Rel s s1 -> LS2 Rel (fun r => inner_step_fsz I Orc r size (s r)) (inner_step_fsz I Orc 0 1 s1).
Proof.
  intros Hs. apply (LS2_rel Rel (fun r s => inner_step_fsz I Orc r size s) _ s s1 Hs). intros p w l n q q1 HR.
  unfold inner_step_fsz. cbn [pos wk qs logIpOld nAccept]. destruct (get_update_type I Orc p) as (p1, ut).
  apply LS2_at_step. destruct ut; [now apply LS2_hopping_fsz|now apply LS2_exchange_fsz|now apply LS2_flip_fsz|].
  apply LS2_recalc; now apply Rel_intro.
Qed.

Section Whole.
Variable initial : walker -> Z -> prog (Z * walker).
Variable step : Z -> st Orc -> prog (st Orc).
Variable step1 : st Orc -> prog (st Orc).
Hypothesis Hinit : forall w p, local (initial w p).
Hypothesis Hstep : forall s s1, Rel s s1 -> LS2 Rel (fun r => step r (s r)) (step1 s1).
(** same position and walker *)
Definition Rel3 (a : Z -> Z * walker * (Z -> Q Orc)) (b : Z * walker * (Z -> Q Orc)) : Prop :=
  forall r, In r rs -> fst (a r) = fst b.
Lemma LS2_initial n w q q1 p :
  LS2 Rel3 (fun r => make_initial_sample I Orc r size initial n w (q r) p) (make_initial_sample I Orc 0 1 initial n w q1 p).
Proof.
  revert w q q1 p. induction n as [|n IH]; intros w q q1 p; cbn [make_initial_sample].
  - eapply LS2_local_bind; [apply Hinit|]. intros (p1, w1). rewrite (proj2 (Z.ltb_lt 1 size) Hsize). cbn [Z.ltb Z.compare Pos.compare Pos.compare_cont bindP].
    eapply LS2_max; [intros; reflexivity|]. cbn. eapply LS2_stop; intros; reflexivity.
  - eapply LS2_local_bind; [apply Hinit|]. intros (p1, w1). rewrite (proj2 (Z.ltb_lt 1 size) Hsize). cbn [Z.ltb Z.compare Pos.compare Pos.compare_cont bindP].
    eapply (LS2_max _ _ _ _ _ _ _ (fun r => snd (calc_all I Orc r size w1 (q r)))
                (fun r y => if 0 <? y then make_initial_sample I Orc r size initial n w1 (fst (calc_all I Orc r size w1 (q r))) p1
                                            else Ret (p1, w1, fst (calc_all I Orc r size w1 (q r))))); [intros; reflexivity|].
    cbn beta. rewrite (proj1 (flags w1 q q1)). destruct (0 <? _).
    + apply (IH w1 (fun r => fst (calc_all I Orc r size w1 (q r))) _ p1).
    + eapply LS2_ret; [intros; reflexivity|]. intros r _. reflexivity.
Qed.
Lemma LS2_outer nOut o s s1 : Rel s s1 -> LS2 Rel (fun r => outer_step I Orc (step r) nOut o (s r)) (outer_step I Orc step1 nOut o s1).
Proof.
  intros Hs. unfold outer_step. eapply LS2_bind.
  - apply (LS2_forM _ _ _ Bad Rel _ (fun r _ s => step r s)); [exact Hs|]. intros; now apply Hstep.
  - intros a b Ha. apply (LS2_rel Rel (fun r s => if nOut - NVMCSample I <=? o
      then Emit (Save (o - (nOut - NVMCSample I)) (wk _ s) (logIpOld _ s)) (Ret s) else Ret s)
      (fun s => if nOut - NVMCSample I <=? o
      then Emit (Save (o - (nOut - NVMCSample I)) (wk _ s) (logIpOld _ s)) (Ret s) else Ret s) a b Ha).
    intros. cbn [wk logIpOld]. destruct (_ <=? _); [|now apply LS2_ret_rel].
    eapply LS2_emit; [intros; reflexivity|]. intros _. now apply LS2_ret_rel.
Qed.
Definition RelB (a : Z -> st Orc * Z) (b : st Orc * Z) : Prop :=
  Rel (fun r => fst (a r)) (fst b) /\ forall r, In r rs -> snd (a r) = snd b.
Lemma LS2_make_sample burn w q q1 p :
  LS2 Rel3 (fun r => make_sample I Orc r size initial (step r) burn w (q r) p) (make_sample I Orc 0 1 initial step1 burn w q1 p).
Proof.
  unfold make_sample.
  apply (LS2_bind _ _ _ Bad Rel3).
  { destruct burn; [|apply LS2_initial]. eapply LS2_ret; [intros; reflexivity|]. intros r _. reflexivity. }
  intros a ((p1, w1), q2) E1. cbn in E1.
  eapply LS2_ext with (P := fun r => _).
  { intros r Hr. specialize (E1 r Hr). destruct (a r) as ((p2, w2), q3) eqn:Ea. cbn in E1. injection E1 as -> ->.
    replace q3 with (snd (a r)) by (now rewrite Ea). reflexivity. }
  cbn beta. apply (LS2_bind _ _ _ Bad RelB).
  - eapply LS2_emit; [intros; reflexivity|]. intros Hb. cbn beta zeta.
    pose proof (calc_all_rel w1 (fun r => snd (a r)) q2 (Bad_recalc w1 Hb)) as HR. cbn beta in HR.
    eapply LS2_log_bind; [intros r Hi x Hx; now rewrite (HR r Hi x Hx)|]. intros l. destruct (finite Orc l).
    + eapply LS2_ret; [intros; reflexivity|]. split; [|reflexivity].
      apply (Rel_intro p1 w1 (fun r => fst (calc_all I Orc r size w1 (snd (a r))))). exact HR.
    + apply (LS2_bind _ _ _ Bad Rel3); [apply (LS2_initial 100 w1 (fun r => fst (calc_all I Orc r size w1 (snd (a r)))))|].
      intros a2 ((p2, w2), q4) E2. cbn in E2.
      eapply LS2_ext with (P := fun r => _).
      { intros r Hr. specialize (E2 r Hr). destruct (a2 r) as ((p3, w3), q3) eqn:Ea. cbn in E2. injection E2 as -> ->.
        replace q3 with (snd (a2 r)) by (now rewrite Ea). reflexivity. }
      cbn beta. eapply LS2_emit; [intros; reflexivity|]. intros Hb2. cbn beta zeta.
      pose proof (calc_all_rel w2 (fun r => snd (a2 r)) q4 (Bad_recalc w2 Hb2)) as HR2. cbn beta in HR2.
      eapply LS2_log_bind; [intros r Hi x Hx; now rewrite (HR2 r Hi x Hx)|]. intros l2.
      eapply LS2_ret; [intros; reflexivity|]. split; [|reflexivity].
      apply (Rel_intro p2 w2 (fun r => fst (calc_all I Orc r size w2 (snd (a2 r))))). exact HR2.
  - intros b (s1, bf) (Hb & Ebf). cbn in Hb, Ebf.
    set (nOut := if bf =? 0 then NVMCWarmUp I + NVMCSample I else NVMCSample I + 1).
    eapply LS2_ext with (P := fun r => bindP (forM (zrange 0 nOut) (outer_step I Orc (step r) nOut) (fst (b r)))
       (fun s => Ret (pos _ s, wk _ s, qs _ s))).
    { intros r Hr. specialize (Ebf r Hr). destruct (b r) as (s, bf'). cbn in Ebf. subst bf'. reflexivity. }
    apply (LS2_bind _ _ _ Bad Rel).
    + apply (LS2_forM _ _ _ Bad Rel _ (fun r o s => outer_step I Orc (step r) nOut o s)); [exact Hb|]. intros; now apply LS2_outer.
    + intros c d (pc & wc & lc & nc & qc & qd & Ec & -> & _). eapply LS2_ret; [intros; reflexivity|].
      intros r Hr. rewrite Ec by assumption. reflexivity.
Qed.
End Whole.
End Single.
