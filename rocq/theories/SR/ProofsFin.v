(** Solving the system; distribution over a process grid; parallel update *)
From Coq Require Import ZArith List Bool Reals Lia Lra Permutation.
From Coquelicot Require Import Complex.
From Verif Require Import Base.ZLoop Base.RSum Par.Model Par.Proofs SR.Model SR.Spec SR.Proofs SR.ProofsSel SR.ProofsMat SR.ProofsCG SR.ProofsConv.
Import ListNotations.
Local Open Scope Z_scope.

Lemma cg_residual n A g thresh max_iter : 0 <= n -> 0 <= max_iter -> (0 < thresh)%R ->
  (forall x y a i, (0 <= i < n)%Z -> A (fun i => x i + a * y i) i = A x i + a * A y i)%R ->
  let s := cg_main n max_iter thresh A g in
  (forall i, (0 <= i < n)%Z -> cr s i = g i - A (cx s) i)%R /\
  (cstop s = true -> (rsum (zrange 0 n) (fun i => Rsqr (g i - A (cx s) i)) < thresh)%R).
Proof.
  intros Hn Hm Ht HL s. unfold s, cg_main. clear s. change (loop 0 max_iter _ _) with (st n A g thresh max_iter).
  assert (A0 : forall i, (0 <= i < n)%Z -> A (fun _ => 0%R) i = 0%R).
  { intros i Hi. pose proof (HL (fun _ => 0%R) (fun _ => 0%R) 1%R i Hi) as E. assert (F : (fun i : Z => (0 + 1 * 0)%R) = (fun _ => 0%R)).
    { apply FunctionalExtensionality.functional_extensionality. intros. ring. } cbv beta in E. rewrite F in E. lra. }
  pose proof (st_residual n A g thresh HL A0 max_iter Hm) as R. pose proof (st_delta n A g thresh Hn A0 max_iter Ht Hm) as D.
  split; [exact R|]. intros E. pose proof (st_stop n A g thresh A0 max_iter Hm E) as L. rewrite D in L. unfold dot in L.
  rewrite (rsum_ext _ _ (fun i => cr (st n A g thresh max_iter) i * cr (st n A g thresh max_iter) i)%R); [exact L|].
  intros i Hi. apply zrange_in in Hi. now rewrite <- (R i Hi).
Qed.
Lemma cg_matrix n A M g thresh max_iter : 0 <= n <= max_iter -> (0 < thresh)%R ->
  (forall x i, 0 <= i < n -> A x i = rsum (zrange 0 n) (fun j => M i j * x j)%R) -> symmetric n M -> pos_def n M ->
  solves n M g (cx (cg_main n max_iter thresh A g)) thresh.
Proof.
  intros Hn Ht HA HS HP. unfold solves.
  assert (H := cg_solves n A g thresh (proj1 Hn)).
  assert (HL : forall x y a i, (0 <= i < n)%Z -> (A (fun i => x i + a * y i) i = A x i + a * A y i)%R).
  { intros x y a i Hi. rewrite !HA by assumption. rewrite <- rsum_scal, <- rsum_add. apply rsum_ext. intros. ring. }
  assert (H0 : forall i, (0 <= i < n)%Z -> A (fun _ => 0%R) i = 0%R).
  { intros i Hi. rewrite HA by assumption. apply rsum_zero. intros. ring. }
  assert (HSy : forall u v, dot n (A u) v = dot n u (A v)).
  { intros u v. unfold dot. rewrite (rsum_ext _ (fun i => A u i * v i)%R (fun i => rsum (zrange 0 n) (fun j => M i j * u j * v i))%R).
    2:{ intros i Hi. apply zrange_in in Hi. rewrite HA by assumption. now rewrite rsum_scal_r. }
    rewrite rsum_swap. apply rsum_ext. intros i Hi. apply zrange_in in Hi. rewrite HA by assumption. rewrite <- rsum_scal. apply rsum_ext. intros j Hj. apply zrange_in in Hj.
    rewrite (HS j i) by assumption. ring. }
  assert (HPo : forall u, (0 < dot n u u -> 0 < dot n u (A u))%R).
  { intros u Hu. unfold dot. rewrite (rsum_ext _ _ (fun i => rsum (zrange 0 n) (fun j => u i * M i j * u j))%R).
    2:{ intros i Hi. apply zrange_in in Hi. rewrite HA by assumption. rewrite <- rsum_scal. apply rsum_ext. intros. ring. }
    apply HP. destruct (forallb (fun i => if Req_EM_T (u i) 0 then true else false) (zrange 0 n)) eqn:E.
    - exfalso. assert (dot n u u = 0%R); [|lra]. apply rsum_zero. intros i Hi. rewrite forallb_forall in E. specialize (E i Hi).
      destruct (Req_EM_T (u i) 0) as [->|]; [ring|discriminate].
    - assert (X : existsb (fun i => if Req_EM_T (u i) 0 then false else true) (zrange 0 n) = true).
      { clear -E. induction (zrange 0 n) as [|i l IH]; cbn [forallb existsb] in *; [discriminate|]. destruct (Req_EM_T (u i) 0); cbn [andb orb] in *; auto. }
      apply existsb_exists in X. destruct X as (i & Hi & Hx). apply zrange_in in Hi. exists i. split; [exact Hi|]. destruct (Req_EM_T (u i) 0); [discriminate|assumption]. }
  specialize (H HL H0 HSy HPo Ht max_iter (proj2 Hn)). cbn zeta in H. unfold dot in H.
  rewrite (rsum_ext _ _ (fun i => (g i - A (cx (cg_main n max_iter thresh A g)) i) * (g i - A (cx (cg_main n max_iter thresh A g)) i))%R); [exact H|].
  intros i Hi. apply zrange_in in Hi. rewrite HA by assumption. reflexivity.
Qed.

(** ** positive definiteness of the matrix with the diagonal factor *)
Lemma covMat_sym l idx del n : symmetric n (covMat l idx del).
Proof. intros i j _ _. unfold covMat. rewrite covO_sym, (Z.eqb_sym j i). destruct (Z.eqb_spec i j) as [->|]; reflexivity. Qed.
Lemma covMat_psd l idx del n : 0 <= n -> (forall s, In s (counted l) -> 0 <= wgt s)%R -> (0 < total_weight l)%R -> (0 <= del)%R ->
  pos_semidef n (covMat l idx del).
Proof.
  intros Hn Hw HW Hd x. unfold covMat.
  rewrite (quad_split n (fun i j => covO l (idx i) (idx j)) del x Hn).
  pose proof (cov_psd l (zrange 0 n) idx x Hw HW) as P.
  assert (0 <= rsum (zrange 0 n) (fun i => x i * x i * covO l (idx i) (idx i)))%R.
  { apply rsum_nonneg. intros i _. apply Rmult_le_pos; [apply Rle_0_sqr|now apply cov_diag_nonneg]. }
  apply Rplus_le_le_0_compat; [exact P|]. now apply Rmult_le_pos.
Qed.
Lemma covMat_pd l idx del n : 0 <= n -> (forall s, In s (counted l) -> 0 <= wgt s)%R -> (0 < total_weight l)%R -> (0 < del)%R ->
  (forall i, 0 <= i < n -> (0 < covO l (idx i) (idx i))%R) -> pos_def n (covMat l idx del).
Proof.
  intros Hn Hw HW Hd Hdiag x (i & Hi & Hx). unfold covMat.
  rewrite (quad_split n (fun i j => covO l (idx i) (idx j)) del x Hn).
  pose proof (cov_psd l (zrange 0 n) idx x Hw HW) as P.
  assert (0 < rsum (zrange 0 n) (fun i => x i * x i * covO l (idx i) (idx i)))%R.
  { apply (rsum_pos_elem _ _ i).
    - intros j Hj. apply Rmult_le_pos; [apply Rle_0_sqr|]. now apply cov_diag_nonneg.
    - now apply zrange_in.
    - apply Rmult_lt_0_compat; [now apply Rsqr_pos_lt|now apply Hdiag]. }
  apply Rplus_le_lt_0_compat; [exact P|]. now apply Rmult_lt_0_compat.
Qed.
(** the diagonal compared with the threshold *)
Lemma sdiag_cov S l OO HO p : total_weight l <> 0%R -> is_average S l OO HO -> 0 <= p < 2 * S - 2 -> sdiag S OO p = covO l p p.
Proof.
  intros HW HA Hp. unfold sdiag, covO. 
  assert (N0 : forall k, 0 <= k < 0 -> 0 <= (fun _ : Z => 0) k < 2 * S - 2) by (intros; lia).
  rewrite (avg_second S 0 _ l OO HO HW HA N0 p p Hp Hp), (avg_first S 0 _ l OO HO HW HA N0 p Hp). reflexivity.
Qed.

(** ** block-cyclic distribution *)
Lemma blk_le a b m x y : 0 <= x < m -> 0 <= y < m -> a * m + x <= m * b + y -> a <= b.
Proof. intros Hx Hy H. destruct (Z.le_gt_cases a b) as [|G]; [assumption|]. assert ((b + 1) * m <= a * m) by (apply Z.mul_le_mono_nonneg_r; lia). lia. Qed.
Lemma blk_lt a b m x y : 0 <= x < m -> 0 <= y < m -> a < b -> a * m + x < m * b + y.
Proof. intros Hx Hy H. assert ((a + 1) * m <= b * m) by (apply Z.mul_le_mono_nonneg_r; lia). lia. Qed.
Lemma numroc_iff n mb np r ir : 0 <= n -> 0 < mb -> 0 < np -> 0 <= r < np -> 0 <= ir ->
  (ir < numroc n mb r np <-> local_to_global ir mb np r < n).
Proof.
  intros Hn Hmb Hnp Hr Hir. unfold numroc, local_to_global.
  pose proof (Z.div_mod n mb ltac:(lia)) as E1. pose proof (Z.mod_pos_bound n mb Hmb) as B1.
  pose proof (Z.div_mod (n / mb) np ltac:(lia)) as E2. pose proof (Z.mod_pos_bound (n / mb) np Hnp) as B2.
  pose proof (Z.div_mod ir mb ltac:(lia)) as E3. pose proof (Z.mod_pos_bound ir mb Hmb) as B3.
  set (Q := n / mb) in *. set (rem := n mod mb) in *. set (q := Q / np) in *. set (e := Q mod np) in *. set (lb := ir / mb) in *. set (off := ir mod mb) in *.
  clearbody Q rem q e lb off. subst ir. subst n. subst Q.
  replace (lb * np * mb + r * mb + off) with ((lb * np + r) * mb + off) by ring.
  pose proof (fun a b => blk_le a b mb off rem B3 B1) as BL. pose proof (fun a b => blk_lt a b mb off rem B3 B1) as BG.
  pose proof (fun a b => blk_le a b np r e Hr B2) as PL.
  destruct (Z.ltb_spec r e).
  - split; intros H0.
    + assert (lb <= q) by nia. apply BG. nia.
    + pose proof (BL _ _ (Z.lt_le_incl _ _ H0)) as BL'. specialize (PL lb q ltac:(lia)). nia.
  - destruct (Z.eqb_spec r e) as [->|].
    + split; intros H0.
      * assert (lb <= q) by nia. destruct (Z.eq_dec lb q) as [->|]; [nia|]. apply BG. nia.
      * pose proof (BL _ _ (Z.lt_le_incl _ _ H0)) as BL'. specialize (PL lb q ltac:(lia)). destruct (Z.eq_dec lb q) as [->|]; [nia|]. nia.
    + split; intros H0.
      * assert (lb + 1 <= q) by nia. apply BG. nia.
      * pose proof (BL _ _ (Z.lt_le_incl _ _ H0)) as BL'. specialize (PL lb q ltac:(lia)). destruct (Z.eq_dec lb q) as [->|]; [lia|]. nia.
Qed.
Lemma l2g_nonneg mb np r ir : 0 < mb -> 0 < np -> 0 <= r -> 0 <= ir -> 0 <= local_to_global ir mb np r.
Proof.
  intros Hmb Hnp Hr Hir. unfold local_to_global. pose proof (Z.div_pos ir mb Hir Hmb). pose proof (Z.mod_pos_bound ir mb Hmb). nia.
Qed.
Lemma l2g_inj mb np r ir r' ir' : 0 < mb -> 0 < np -> 0 <= r < np -> 0 <= r' < np -> 0 <= ir -> 0 <= ir' ->
  local_to_global ir mb np r = local_to_global ir' mb np r' -> r = r' /\ ir = ir'.
Proof.
  intros Hmb Hnp Hr Hr' Hi Hi' E. unfold local_to_global in E.
  pose proof (Z.div_mod ir mb ltac:(lia)) as E3. pose proof (Z.mod_pos_bound ir mb Hmb) as B3.
  pose proof (Z.div_mod ir' mb ltac:(lia)) as E3'. pose proof (Z.mod_pos_bound ir' mb Hmb) as B3'.
  set (lb := ir / mb) in *. set (off := ir mod mb) in *. set (lb' := ir' / mb) in *. set (off' := ir' mod mb) in *. clearbody lb off lb' off'.
  assert (lb * np + r = lb' * np + r') by nia. assert (off = off') by nia. assert (lb = lb') by nia. subst. split; nia.
Qed.
Lemma l2g_surj n mb np s : 0 < mb -> 0 < np -> 0 <= s < n ->
  exists r ir, 0 <= r < np /\ 0 <= ir < numroc n mb r np /\ local_to_global ir mb np r = s.
Proof.
  intros Hmb Hnp Hs. pose proof (Z.div_mod s mb ltac:(lia)) as E1. pose proof (Z.mod_pos_bound s mb Hmb) as B1.
  pose proof (Z.div_mod (s / mb) np ltac:(lia)) as E2. pose proof (Z.mod_pos_bound (s / mb) np Hnp) as B2.
  assert (Qn : 0 <= s / mb) by (apply Z.div_pos; lia). assert (Qp : 0 <= s / mb / np) by (apply Z.div_pos; lia).
  exists ((s / mb) mod np), (s / mb / np * mb + s mod mb).
  assert (L : local_to_global (s / mb / np * mb + s mod mb) mb np ((s / mb) mod np) = s).
  { unfold local_to_global. rewrite Z.div_add_l by lia. rewrite (Z.add_comm (s / mb / np * mb) (s mod mb)), Z.mod_add by lia.
    rewrite (Z.div_small (s mod mb)), (Z.mod_small (s mod mb)) by lia. nia. }
  split; [lia|]. split; [|exact L]. split; [nia|]. apply numroc_iff; try lia; try nia.
Qed.
Lemma numroc_nonneg n mb r np : 0 <= n -> 0 < mb -> 0 < np -> 0 <= r < np -> 0 <= numroc n mb r np.
Proof.
  intros Hn Hmb Hnp Hr. unfold numroc. pose proof (Z.div_pos n mb Hn Hmb). pose proof (Z.div_pos (n / mb) np ltac:(lia) Hnp). pose proof (Z.mod_pos_bound n mb Hmb).
  destruct (r <? n / mb mod np); [nia|]. destruct (r =? n / mb mod np); nia.
Qed.

Lemma block_cell nr nc (v : Z -> Z -> R) (b : Z -> Z -> bool) (c : R) s0 ir ic : 0 <= ir < nr -> 0 <= ic < nc ->
  loop 0 nc (fun ic s => loop 0 nr (fun ir s =>
    let k := ir + ic * nr in let s := upd s k (v ir ic) in if b ir ic then upd s k (s k * c)%R else s) s) s0 (ir + ic * nr) =
  (if b ir ic then v ir ic * c else v ir ic)%R.
Proof.
  intros Hir Hic. set (val := fun ir ic => if b ir ic then (v ir ic * c)%R else v ir ic).
  assert (Cell : forall ir ic s x, (let k := ir + ic * nr in let s := upd s k (v ir ic) in if b ir ic then upd s k (s k * c)%R else s) x = if x =? ir + ic * nr then val ir ic else s x).
  { intros a e s x. cbn zeta. unfold val. destruct (b a e); rewrite !upd_get; destruct (Z.eqb_spec x (a + e * nr)); try reflexivity. now rewrite Z.eqb_refl. }
  assert (Row : forall e s a e', 0 <= a < nr -> loop 0 nr (fun ir s => let k := ir + e * nr in let s := upd s k (v ir e) in if b ir e then upd s k (s k * c)%R else s) s (a + e' * nr) = if e' =? e then val a e else s (a + e' * nr)).
  { intros e s a e' Ha.
    assert (T : forall a, 0 <= a < nr -> loop 0 nr (fun ir s => let k := ir + e * nr in let s := upd s k (v ir e) in if b ir e then upd s k (s k * c)%R else s) s (a + e' * nr) = if (e' =? e) && (a <? nr) then val a e else s (a + e' * nr)).
    { apply (loop_inv (fun m s' => forall a, 0 <= a < nr -> s' (a + e' * nr) = if (e' =? e) && (a <? m) then val a e else s (a + e' * nr))); [lia| |].
      - intros a' Ha'. destruct (Z.ltb_spec a' 0); [lia|]. now rewrite andb_false_r.
      - intros m s' Hm IH a' Ha'. rewrite Cell. destruct (Z.eqb_spec (a' + e' * nr) (m + e * nr)) as [E|E].
        + assert (e' = e) by nia. subst e'. assert (a' = m) by nia. subst a'. rewrite Z.eqb_refl. destruct (Z.ltb_spec m (m + 1)); [reflexivity|lia].
        + rewrite IH by assumption. destruct (Z.eqb_spec e' e) as [->|]; cbn [andb]; [|reflexivity]. assert (a' <> m) by (intros ->; now apply E).
          destruct (Z.ltb_spec a' m), (Z.ltb_spec a' (m + 1)); try lia; reflexivity. }
    rewrite T by assumption. destruct (Z.ltb_spec a nr); [|lia]. now rewrite andb_true_r. }
  assert (T : loop 0 nc (fun ic s => loop 0 nr (fun ir s => let k := ir + ic * nr in let s := upd s k (v ir ic) in if b ir ic then upd s k (s k * c)%R else s) s) s0 (ir + ic * nr) = if ic <? nc then val ir ic else s0 (ir + ic * nr)).
  { apply (loop_inv (fun m s' => s' (ir + ic * nr) = if ic <? m then val ir ic else s0 (ir + ic * nr))); [lia| |].
    - destruct (Z.ltb_spec ic 0); [lia|reflexivity].
    - intros m s' Hm IH. rewrite Row by assumption. destruct (Z.eqb_spec ic m) as [->|].
      + destruct (Z.ltb_spec m (m + 1)); [reflexivity|lia].
      + rewrite IH. destruct (Z.ltb_spec ic m), (Z.ltb_spec ic (m + 1)); try lia; reflexivity. }
  rewrite T. destruct (Z.ltb_spec ic nc); [reflexivity|lia].
Qed.
Lemma block_entry S del dt n mb nprow npcol myprow mypcol idx OO HO s0 S0 g0 ir ic :
  0 <= n -> 0 < mb -> 0 < nprow -> 0 < npcol -> 0 <= myprow < nprow -> 0 <= mypcol < npcol ->
  (forall a b, 0 <= a < n -> 0 <= b < n -> idx a = idx b -> a = b) ->
  0 <= ir < numroc n mb myprow nprow -> 0 <= ic < numroc n mb mypcol npcol ->
  pd_block S del n mb nprow npcol myprow mypcol idx OO s0 (ir + ic * numroc n mb myprow nprow) =
  fst (stcOptInit S del dt n idx OO HO S0 g0) (local_to_global ir mb nprow myprow + n * local_to_global ic mb npcol mypcol).
Proof.
  intros Hn Hmb Hnr Hnc Hr Hc Hinj Hir Hic. unfold pd_block.
  rewrite (block_cell (numroc n mb myprow nprow) (numroc n mb mypcol npcol)
    (fun ir ic => let pi := idx (local_to_global ir mb nprow myprow) in let pj := idx (local_to_global ic mb npcol mypcol) in
       fst (OO ((pi + 2) * (2 * S) + (pj + 2))%Z) - fst (OO (pi + 2)%Z) * fst (OO (pj + 2)%Z))%R
    (fun ir ic => idx (local_to_global ir mb nprow myprow) =? idx (local_to_global ic mb npcol mypcol)) (1 + del)%R) by assumption.
  pose proof (proj1 (numroc_iff n mb nprow myprow ir Hn Hmb Hnr Hr ltac:(lia)) ltac:(lia)) as G1.
  pose proof (proj1 (numroc_iff n mb npcol mypcol ic Hn Hmb Hnc Hc ltac:(lia)) ltac:(lia)) as G2.
  pose proof (l2g_nonneg mb nprow myprow ir Hmb Hnr ltac:(lia) ltac:(lia)) as P1. pose proof (l2g_nonneg mb npcol mypcol ic Hmb Hnc ltac:(lia) ltac:(lia)) as P2.
  set (gi := local_to_global ir mb nprow myprow) in *. set (gj := local_to_global ic mb npcol mypcol) in *.
  unfold stcOptInit. cbn [fst].
  rewrite (stc_cell n (fun si sj => fst (OO ((idx si + 2) * (2 * S) + (idx sj + 2))%Z) - fst (OO (idx si + 2)%Z) * fst (OO (idx sj + 2)%Z))%R (fun _ => 1 + del)%R) by lia.
  destruct (Z.eqb_spec (idx gi) (idx gj)) as [E|E].
  - assert (gi = gj) by (apply Hinj; [lia|lia|exact E]). destruct (Z.eqb_spec gi gj) as [<-|]; [|contradiction]. reflexivity.
  - destruct (Z.eqb_spec gi gj) as [F|]; [rewrite F in E; now contradiction E|reflexivity].
Qed.
Lemma block_vec dt S del n mb nprow myprow idx OO HO g0 S0 g1 ir :
  0 <= n -> 0 < mb -> 0 < nprow -> 0 <= myprow < nprow -> 0 <= ir < numroc n mb myprow nprow ->
  pd_vec dt n mb nprow myprow idx OO HO g0 ir = snd (stcOptInit S del dt n idx OO HO S0 g1) (local_to_global ir mb nprow myprow).
Proof.
  intros Hn Hmb Hnr Hr Hir. unfold pd_vec, stcOptInit. cbn [snd].
  pose proof (proj1 (numroc_iff n mb nprow myprow ir Hn Hmb Hnr Hr ltac:(lia)) ltac:(lia)) as G1.
  pose proof (l2g_nonneg mb nprow myprow ir Hmb Hnr ltac:(lia) ltac:(lia)) as P1.
  rewrite (loop_upd_range n (fun si => - dt * 2 * (fst (HO (idx si + 2)%Z) - fst (HO 0%Z) * fst (OO (idx si + 2)%Z)))%R) by lia.
  rewrite (loop_upd_range (numroc n mb myprow nprow) (fun ir => let pi := idx (local_to_global ir mb nprow myprow) in - dt * 2 * (fst (HO (pi + 2)%Z) - fst (HO 0%Z) * fst (OO (pi + 2)%Z)))%R) by lia.
  reflexivity.
Qed.
Lemma gather_restores n mb nprow (y : Z -> R) g si : 0 < mb -> 0 < nprow -> 0 <= si < n ->
  (forall r ir, 0 <= r < nprow -> 0 <= ir < numroc n mb r nprow -> g r ir = y (local_to_global ir mb nprow r)) ->
  pd_gather n mb nprow g si = y si.
Proof.
  intros Hmb Hnr Hsi Hg. unfold pd_gather.
  assert (One : forall r, 0 <= r < nprow ->
    loop 0 (numroc n mb r nprow) (fun ir w => upd w (local_to_global ir mb nprow r) (g r ir)) (fun _ => 0%R) si =
    if existsb (fun ir => local_to_global ir mb nprow r =? si) (zrange 0 (numroc n mb r nprow)) then y si else 0%R).
  { intros r Hr.
    apply (loop_inv (fun e w => w si = if existsb (fun ir => local_to_global ir mb nprow r =? si) (zrange 0 e) then y si else 0%R)).
    - apply numroc_nonneg; lia.
    - rewrite zrange_nil by lia. reflexivity.
    - intros e w He IH. rewrite zrange_snoc, existsb_app by lia. cbn [existsb]. rewrite upd_get, orb_false_r. rewrite (Z.eqb_sym (local_to_global e mb nprow r) si).
      destruct (Z.eqb_spec si (local_to_global e mb nprow r)) as [->|].
      + rewrite orb_true_r. apply Hg; lia.
      + rewrite orb_false_r. exact IH. }
  destruct (l2g_surj n mb nprow si Hmb Hnr Hsi) as (r0 & ir0 & Hr0 & Hir0 & E0).
  rewrite (rsum_ext _ _ (fun r => if Z.eqb r r0 then y si else 0%R)).
  - apply (rsum_delta _ r0 (fun _ => y si)); [apply zrange_NoDup|now apply zrange_in].
  - intros r Hr. apply zrange_in in Hr. rewrite One by assumption.
    destruct (existsb (fun ir => local_to_global ir mb nprow r =? si) (zrange 0 (numroc n mb r nprow))) eqn:X.
    + apply existsb_exists in X. destruct X as (ir & Hir & E). apply zrange_in in Hir. apply Z.eqb_eq in E.
      destruct (l2g_inj mb nprow r ir r0 ir0) as (-> & _); try lia. now rewrite Z.eqb_refl.
    + destruct (Z.eqb_spec r r0) as [->|]; [|reflexivity]. exfalso.
      assert (existsb (fun ir => local_to_global ir mb nprow r0 =? si) (zrange 0 (numroc n mb r0 nprow)) = true); [|congruence].
      apply existsb_exists. exists ir0. split; [now apply zrange_in|]. now apply Z.eqb_eq.
Qed.

(** ** parallel update *)
Lemma NoDup_snoc_inv {A} (l : list A) x : NoDup (l ++ [x]) -> NoDup l /\ ~ In x l.
Proof. intros H. apply NoDup_remove in H. rewrite app_nil_r in H. exact H. Qed.
Lemma update_iter s r para : 0 <= nSmat s ->
  (forall a b, 0 <= a < nSmat s -> 0 <= b < nSmat s -> cell_of s a = cell_of s b -> a = b) ->
  (forall si, 0 <= si < nSmat s -> update_para 0 s r para (cell_of s si) = Cplus (para (cell_of s si)) (increment s r si)) /\
  (forall c, (forall si, 0 <= si < nSmat s -> cell_of s si <> c) -> update_para 0 s r para c = para c).
Proof.
  intros Hn Hinj. unfold update_para. cbn [Z.eqb].
  assert (Step : forall pa si x, (let pi := smatToParaIdx s si in if pi mod 2 =? 0 then upd pa (pi / 2) (Cplus (pa (pi / 2)) (RtoC (r si)))
      else upd pa ((pi - 1) / 2) (Cplus (pa ((pi - 1) / 2)) (Cmult (RtoC (r si)) Ci))) x = if x =? cell_of s si then Cplus (pa x) (increment s r si) else pa x).
  { intros pa si x. cbn zeta. unfold cell_of, increment. cbn zeta. destruct (smatToParaIdx s si mod 2 =? 0); rewrite upd_get;
      match goal with |- context [x =? ?c] => destruct (Z.eqb_spec x c) as [->|] end; reflexivity. }
  match goal with |- context [loop 0 _ ?f para] => set (F := f) end.
  assert (T : (forall si, 0 <= si < nSmat s -> si < nSmat s -> loop 0 (nSmat s) F para (cell_of s si) = Cplus (para (cell_of s si)) (increment s r si)) /\
    (forall c, (forall si, 0 <= si < nSmat s -> si < nSmat s -> cell_of s si <> c) -> loop 0 (nSmat s) F para c = para c)).
  { apply (loop_inv (fun e pa => (forall si, 0 <= si < nSmat s -> si < e -> pa (cell_of s si) = Cplus (para (cell_of s si)) (increment s r si)) /\
      (forall c, (forall si, 0 <= si < nSmat s -> si < e -> cell_of s si <> c) -> pa c = para c))); [lia| |].
    - split; [intros; lia|reflexivity].
    - intros e pa He (IH1 & IH2). split.
      + intros si Hsi Hse. unfold F. rewrite Step. destruct (Z.eqb_spec (cell_of s si) (cell_of s e)) as [E|E].
        * apply Hinj in E; [|lia|lia]. subst si. rewrite IH2; [reflexivity|]. intros sj Hsj Hlt E. apply Hinj in E; lia.
        * apply IH1; [lia|]. assert (si <> e) by (intros ->; now apply E). lia.
      + intros c Hc. unfold F. rewrite Step. destruct (Z.eqb_spec c (cell_of s e)) as [E|E]; [exfalso; apply (Hc e); [lia|lia|now symmetry]|].
        apply IH2. intros; apply Hc; lia. }
  destruct T as (T1 & T2). split; [intros; apply T1; lia|]. intros c Hc. apply T2. intros; now apply Hc.
Qed.
Lemma parallel_ok s r para sched : 0 <= nSmat s ->
  (forall a b, 0 <= a < nSmat s -> 0 <= b < nSmat s -> cell_of s a = cell_of s b -> a = b) ->
  complete_schedule (nSmat s) sched -> forall c, parallel_update s r sched para c = update_para 0 s r para c.
Proof.
  intros Hn Hinj (ND & HRd & HWr & Hord).
  assert (Inv : forall pre post, sched = pre ++ post ->
    let st := fold_left (fun st e => exec_event s r e st) pre (para, fun _ => RtoC 0) in
    (forall si, 0 <= si < nSmat s -> In (Wr si) pre -> fst st (cell_of s si) = Cplus (para (cell_of s si)) (increment s r si)) /\
    (forall c, (forall si, In (Wr si) pre -> cell_of s si <> c) -> fst st c = para c) /\
    (forall si, In (Rd si) pre -> snd st si = para (cell_of s si))).
  { induction pre as [|e pre IH] using rev_ind; intros post E; cbn zeta.
    - cbn [fold_left fst snd]. split; [intros ? ? []|]. split; [reflexivity|intros ? []].
    - rewrite fold_left_app. cbn [fold_left]. rewrite <- app_assoc in E. cbn [app] in E. specialize (IH (e :: post) E). cbn zeta in IH.
      destruct (fold_left (fun st e => exec_event s r e st) pre (para, fun _ => RtoC 0)) as (pa, reg). cbn [fst snd] in *.
      destruct IH as (I1 & I2 & I3).
      assert (NDe : ~ In e pre). { intros Hin. rewrite E in ND. apply NoDup_remove_2 in ND. apply ND. apply in_or_app. now left. }
      destruct e as [si|si]; cbn [exec_event fst snd].
      + assert (Hsi : 0 <= si < nSmat s). { apply HRd. rewrite E. apply in_or_app. right. now left. }
        split; [|split].
        * intros sj Hsj Hin. apply I1; [exact Hsj|]. apply in_app_or in Hin. destruct Hin as [|[H|[]]]; [assumption|discriminate].
        * intros c Hc. apply I2. intros sj Hin. apply Hc. apply in_or_app. now left.
        * intros sj Hin. rewrite upd_get. destruct (Z.eqb_spec sj si) as [->|].
          -- apply I2. intros sk Hin' E'. assert (Hsk : 0 <= sk < nSmat s). { apply HWr. rewrite E. apply in_or_app. now left. }
             apply Hinj in E'; try assumption. subst sk.
             (* a store of si before its load *)
             apply in_split in Hin'. destruct Hin' as (p1 & p2 & E2). specialize (Hord p1 (p2 ++ Rd si :: post) si).
             rewrite E, E2, <- app_assoc in Hord. specialize (Hord eq_refl). apply NDe. rewrite E2. apply in_or_app. now left.
          -- apply in_app_or in Hin. destruct Hin as [Hin|[H|[]]]; [now apply I3|]. injection H as ->. contradiction.
      + assert (Hsi : 0 <= si < nSmat s). { apply HWr. rewrite E. apply in_or_app. right. now left. }
        pose proof (Hord pre post si E) as HR. specialize (I3 si HR) as Hreg.
        split; [|split].
        * intros sj Hsj Hin. rewrite upd_get. destruct (Z.eqb_spec (cell_of s sj) (cell_of s si)) as [E'|E'].
          -- apply Hinj in E'; try assumption. subst sj. rewrite Hreg. reflexivity.
          -- apply I1; [exact Hsj|]. apply in_app_or in Hin. destruct Hin as [|[H|[]]]; [assumption|]. injection H as ->. now contradiction E'.
        * intros c Hc. rewrite upd_get. destruct (Z.eqb_spec c (cell_of s si)) as [->|].
          -- exfalso. apply (Hc si); [|reflexivity]. apply in_or_app. right. now left.
          -- apply I2. intros sj Hin. apply Hc. apply in_or_app. now left.
        * intros sj Hin. apply I3. apply in_app_or in Hin. destruct Hin as [|[H|[]]]; [assumption|discriminate]. }
  destruct (Inv sched [] (eq_sym (app_nil_r sched))) as (I1 & I2 & _). destruct (update_iter s r para Hn Hinj) as (U1 & U2).
  intros c. unfold parallel_update.
  destruct (existsb (fun si => cell_of s si =? c) (zrange 0 (nSmat s))) eqn:X.
  - apply existsb_exists in X. destruct X as (si & Hsi & E). apply zrange_in in Hsi. apply Z.eqb_eq in E. subst c. rewrite U1 by assumption.
    apply I1; [assumption|]. now apply HWr.
  - assert (NX : forall si, 0 <= si < nSmat s -> cell_of s si <> c).
    { intros si Hsi E. assert (existsb (fun si => cell_of s si =? c) (zrange 0 (nSmat s)) = true); [|congruence]. apply existsb_exists. exists si. split; [now apply zrange_in|]. now apply Z.eqb_eq. }
    rewrite U2 by assumption. apply I2. intros si Hin. apply NX. now apply HWr.
Qed.
