(** The whole loop. *)
From Coq Require Import ZArith List Bool Lia Reals Lra Permutation.
From Coquelicot Require Import Complex.
From Verif Require Import Base.ZLoop Base.RSum Pf.Pfaffian Pf.Spec Green.Spec Ham.Model Ham.Spec Uhf.Model Uhf.Spec Uhf.Rows Uhf.Proofs Uhf.State.
Import ListNotations.
Local Open Scope Z_scope.

Lemma copied n (A : matrix) a0 i j : 0 <= i < n -> 0 <= j < n ->
  loop 0 n (fun j a => loop 0 n (fun i a => upd a (j * n + i) (A i j)) a) a0 (i + j * n) = A i j.
Proof.
  intros Hi Hj. set (P := fun m (a : Z -> C) => forall j, 0 <= j < m -> forall i, 0 <= i < n -> a (i + j * n) = A i j).
  assert (Q : P n (loop 0 n (fun j a => loop 0 n (fun i a => upd a (j * n + i) (A i j)) a) a0)); [|now apply Q].
  apply (loop_inv P); [lia|intros k Hk; lia|]. intros m a Hm HP.
  set (P' := fun k (b : Z -> C) => P m b /\ forall i, 0 <= i < k -> b (i + m * n) = A i m).
  assert (Q : P' n (loop 0 n (fun i a => upd a (m * n + i) (A i m)) a)).
  - apply (loop_inv P'); [lia|split; [exact HP|intros; lia]|]. intros k b Hk (B1 & B2). split.
    + intros j' Hj' i' Hi'. unfold upd. destruct (Z.eqb_spec (i' + j' * n) (m * n + k)); [nia|now apply B1].
    + intros i' Hi'. unfold upd. destruct (Z.eqb_spec (i' + m * n) (m * n + k)) as [E|E]; [f_equal; lia|apply B2; lia].
  - destruct Q as (Q1 & Q2). intros j' Hj' i' Hi'. destruct (Z.eq_dec j' m) as [->|]; [now apply Q2|apply Q1; lia].
Qed.
(** the Hermitian matrix with the upper triangle of A *)
Definition from_upper (A : matrix) : matrix := fun i j => if i <? j then A i j else if j <? i then Cconj (A j i) else RtoC (fst (A i i)).
Lemma from_upper_hermitian n A : hermitian n (from_upper A).
Proof.
  intros i j _ _. unfold from_upper. destruct (Z.ltb_spec i j), (Z.ltb_spec j i); try lia; rewrite ?Cconj_conj; try reflexivity. rewrite Cconj_real. now replace j with i by lia.
Qed.
Lemma from_upper_same n A i j : hermitian n A -> 0 <= i < n -> 0 <= j < n -> from_upper A i j = A i j.
Proof.
  intros HA Hi Hj. unfold from_upper. destruct (Z.ltb_spec i j); [reflexivity|]. destruct (Z.ltb_spec j i); [symmetry; now apply HA|].
  replace j with i by lia. pose proof (real_conj _ (eq_sym (HA i i Hi Hi))) as E. destruct (A i i). cbn in *. now subst.
Qed.
(** the entries on and above the diagonal decide pairings with Hermitian matrices *)
Definition triangle (G : matrix) : matrix := fun i j => if i <? j then Cmult (RtoC 2) (G i j) else if j <? i then RtoC 0 else G i i.
Lemma mirror n (f : Z -> Z -> R) : rsum (zrange 0 n) (fun i => rsum (zrange 0 n) (fun j => f i j)) =
  rsum (zrange 0 n) (fun i => rsum (zrange 0 n) (fun j => if i <? j then (f i j + f j i)%R else if j <? i then 0%R else f i i)).
Proof.
  transitivity (rsum (zrange 0 n) (fun i => rsum (zrange 0 n) (fun j => ((if i <? j then f i j else 0) + (if j <? i then 0 else if i <? j then 0 else f i i) + (if j <? i then f i j else 0))%R))).
  { apply rsum_ext. intros i _. apply rsum_ext. intros j _. destruct (Z.ltb_spec i j), (Z.ltb_spec j i); try lia; try lra. replace j with i by lia. lra. }
  transitivity (rsum (zrange 0 n) (fun i => rsum (zrange 0 n) (fun j => ((if i <? j then f i j else 0) + (if j <? i then 0 else if i <? j then 0 else f i i))%R)) +
    rsum (zrange 0 n) (fun i => rsum (zrange 0 n) (fun j => if j <? i then f i j else 0%R)))%R.
  { rewrite <- rsum_add. apply rsum_ext. intros i _. now rewrite <- rsum_add. }
  rewrite (rsum_swap (zrange 0 n) (zrange 0 n) (fun i j => if j <? i then f i j else 0%R)). rewrite <- rsum_add. apply rsum_ext. intros i _. rewrite <- rsum_add. apply rsum_ext. intros j _.
  destruct (Z.ltb_spec i j), (Z.ltb_spec j i); try lia; lra.
Qed.
Lemma triangle_pairing n K G : hermitian n G -> fst (pairing n (from_upper K) G) = fst (pairing n K (triangle G)).
Proof.
  intros HG. unfold pairing. rewrite !csum_re.
  transitivity (rsum (zrange 0 n) (fun i => rsum (zrange 0 n) (fun j => fst (Cmult (from_upper K i j) (G i j))))); [apply rsum_ext; intros; now rewrite csum_re|].
  rewrite mirror. apply rsum_ext. intros i Hi. rewrite csum_re. apply rsum_ext. intros j Hj. apply zrange_in in Hi. apply zrange_in in Hj. unfold from_upper, triangle. rewrite (Z.ltb_irrefl i).
  destruct (Z.ltb_spec i j), (Z.ltb_spec j i); try lia.
  - rewrite (HG i j) by assumption. cbn. ring.
  - cbn. ring.
  - replace j with i by lia. pose proof (real_conj _ (eq_sym (HG i i Hi Hi))) as E. destruct (G i i). cbn in *. subst. ring.
Qed.

(** changing the Green function changes the one-particle matrix in proportion to the interactions *)
Definition wick_both (G D : matrix) (ops : list (Z * Z)) : C :=
  match ops with [(a, b); (c, d)] => Cminus (Cplus (Cmult (G a b) (D c d)) (Cmult (D a b) (G c d))) (Cplus (Cmult (G a d) (D c b)) (Cmult (D a d) (G c b))) | _ => RtoC 0 end.
Lemma wick_change G G' D ops : Cminus (Cminus (wick (plus G (scale (RtoC 1) D)) ops) (wick G ops)) (Cminus (wick (plus G' (scale (RtoC 1) D)) ops) (wick G' ops)) =
  wick_both (fun i j => Cminus (G i j) (G' i j)) D ops.
Proof. unfold plus, scale. destruct ops as [|(a, b) [|(c, d) [|? ?]]]; cbn [wick wick_both]; ring. Qed.
Lemma re_mod z : (Rabs (fst z) <= Cmod z)%R.
Proof. unfold Cmod. rewrite <- sqrt_Rsqr_abs. apply sqrt_le_1_alt. unfold Rsqr. nra. Qed.
Lemma csum_mod {A} (l : list A) f : (Cmod (csum l f) <= rsum l (fun x => Cmod (f x)))%R.
Proof. induction l as [|x l IH]; cbn [csum rsum]; [rewrite Cmod_0; lra|]. pose proof (Cmod_triangle (f x) (csum l f)). lra. Qed.
Lemma product_mod x y a b : (Cmod x <= a)%R -> (Cmod y <= b)%R -> (Cmod (Cmult x y) <= a * b)%R.
Proof. intros. rewrite Cmod_mult. pose proof (Cmod_ge_0 x). pose proof (Cmod_ge_0 y). nra. Qed.
Definition in_range (n : Z) (O : observable) : Prop := forall t, In t O -> forall a b, In (a, b) (snd t) -> 0 <= a < n /\ 0 <= b < n.
Lemma both_bound n O G D x y : in_range n O -> (forall i j, 0 <= i < n -> 0 <= j < n -> (Cmod (G i j) <= x)%R) -> (forall i j, 0 <= i < n -> 0 <= j < n -> (Cmod (D i j) <= y)%R) ->
  (Cmod (csum O (fun t => Cmult (fst t) (wick_both G D (snd t)))) <= 4 * strength O * x * y)%R.
Proof.
  intros HO HG HD. eapply Rle_trans; [apply csum_mod|]. unfold strength. replace (4 * rsum O (fun t => match snd t with [_; _] => Cmod (fst t) | _ => 0%R end) * x * y)%R with
    (rsum O (fun t => (4 * x * y * match snd t with [_; _] => Cmod (fst t) | _ => 0%R end)%R)) by (rewrite rsum_scal; ring).
  apply rsum_le. intros (c, ops) I. pose proof (HO _ I) as HI. cbn [fst snd] in *. rewrite Cmod_mult. pose proof (Cmod_ge_0 c).
  destruct ops as [|(a, b) [|(c', d) [|? ?]]]; cbn [wick_both]; try (rewrite Cmod_0; lra).
  destruct (HI a b ltac:(now left)) as (Ha & Hb). destruct (HI c' d ltac:(right; now left)) as (Hc & Hd).
  assert (L : (Cmod (Cminus (Cplus (Cmult (G a b) (D c' d)) (Cmult (D a b) (G c' d))) (Cplus (Cmult (G a d) (D c' b)) (Cmult (D a d) (G c' b)))) <= 4 * x * y)%R).
  { unfold Cminus. eapply Rle_trans; [apply Cmod_triangle|]. rewrite Cmod_opp. pose proof (Cmod_triangle (Cmult (G a b) (D c' d)) (Cmult (D a b) (G c' d))). pose proof (Cmod_triangle (Cmult (G a d) (D c' b)) (Cmult (D a d) (G c' b))).
    pose proof (product_mod _ _ _ _ (HG a b Ha Hb) (HD c' d Hc Hd)). pose proof (product_mod _ _ _ _ (HD a b Ha Hb) (HG c' d Hc Hd)).
    pose proof (product_mod _ _ _ _ (HG a d Ha Hd) (HD c' b Hc Hb)). pose proof (product_mod _ _ _ _ (HD a d Ha Hd) (HG c' b Hc Hb)). lra. }
  nra.
Qed.
Lemma distance_entry n A B i j : 0 <= i < n -> 0 <= j < n -> (Cmod (Cminus (A i j) (B i j)) <= sqrt (distance2 n A B))%R.
Proof.
  intros Hi Hj. rewrite <- (sqrt_pow2 (Cmod (Cminus (A i j) (B i j)))) by apply Cmod_ge_0. apply sqrt_le_1_alt.
  eapply Rle_trans; [|apply (rsum_each (zrange 0 n) (fun i => rsum (zrange 0 n) (fun j => (Cmod (Cminus (A i j) (B i j)) ^ 2)%R)) ltac:(intros; apply rsum_nonneg; intros; apply pow2_ge_0) i ltac:(now apply zrange_in))].
  apply (rsum_each (zrange 0 n) (fun j => (Cmod (Cminus (A i j) (B i j)) ^ 2)%R)); [intros; apply pow2_ge_0|now apply zrange_in].
Qed.

Lemma cell_in_range V i s : 0 <= i < sites V -> 0 <= s <= 1 -> 0 <= i + s * sites V < 2 * sites V. Proof. intros. nia. Qed.
Lemma strings_in_range V H : 0 < sites V -> sites_ok V H -> in_range (2 * sites V) (hamiltonian V H).
Proof.
  intros HN HS t I a b J. unfold hamiltonian, diagonal, hopping in I. rewrite !in_app_iff, !in_flat_map in I. unfold site in *.
  pose proof (ok_intra V H HS) as K1. pose proof (ok_inter V H HS) as K2. pose proof (ok_hund V H HS) as K3. pose proof (ok_transfer V H HS) as K4.
  pose proof (ok_exchange V H HS) as K5. pose proof (ok_pair V H HS) as K6. pose proof (ok_interall V H HS) as K7. unfold site, spin in *.
  repeat match goal with
  | I : _ \/ _ |- _ => destruct I as [I|I]
  | I : exists _, _ |- _ => let k := fresh "kk" in let h := fresh "Hkk" in destruct I as (k & h & I); apply zrange_in in h
  end;
  first [pose proof (K1 _ Hkk)|pose proof (K2 _ Hkk)|pose proof (K3 _ Hkk)|pose proof (K4 _ Hkk)|pose proof (K5 _ Hkk)|pose proof (K6 _ Hkk)|pose proof (K7 _ Hkk)].
  all: unfold h_intra, h_inter, h_hund, h_transfer, h_exchange, h_pair, h_interall, number in I; cbn [map In] in I.
  all: repeat match goal with I : _ \/ _ |- _ => destruct I as [I|I] end; try contradiction; subst t; cbn [snd In] in J.
  all: repeat match goal with J : _ \/ _ |- _ => destruct J as [J|J] end; try contradiction; injection J as <- <-; clear K1 K2 K3 K4 K5 K6 K7; split; first [lia|apply cell_in_range; lia|destruct (sites V) eqn:?; lia].
Qed.
Section Loop.
Variables (V : wave) (H : terms) (Nsize : Z) (zheev : Z -> (Z -> C) -> (Z -> R) * (Z -> C)).
Notation N := (sites V).
Notation n := (2 * N).
Notation O := (hamiltonian V H).
Hypothesis HN : 0 < N.
Hypothesis HS : sites_ok V H.
Hypothesis HT : two_sites H.
Hypothesis HZ : diagonalises n zheev.
Hypothesis HM : 0 <= Nsize <= n.

Lemma ham_change G G' D : (forall i, 0 <= i < n -> snd (G i i) = 0%R) -> (forall i, 0 <= i < n -> snd (G' i i) = 0%R) ->
  Cminus (pairing n (makeham N H G) D) (pairing n (makeham N H G') D) = csum O (fun t => Cmult (fst t) (wick_both (fun i j => Cminus (G i j) (G' i j)) D (snd t))).
Proof.
  intros HG HG'. pose proof (ham_derivative V H HN HS HT G D (RtoC 1) HG) as E. pose proof (ham_derivative V H HN HS HT G' D (RtoC 1) HG') as E'.
  transitivity (Cminus (Cminus (mean_energy O (plus G (scale (RtoC 1) D))) (mean_energy O G)) (Cminus (mean_energy O (plus G' (scale (RtoC 1) D))) (mean_energy O G'))).
  { rewrite E, E'. ring. }
  unfold mean_energy. rewrite <- !csum_sub. apply csum_ext. intros t _. rewrite <- wick_change. ring.
Qed.

(** one pass *)
Definition orbital (G : matrix) (k i : Z) : C := Cconj (pR (step N H Nsize zheev 1%R G) i k).
Lemma step_orbitals mix G : let p := step N H Nsize zheev mix G in let v := orbital G in
  pGreen p = filled v Nsize /\
  (forall k i, 0 <= k < n -> 0 <= i < n -> csum (zrange 0 n) (fun j => Cmult (from_upper (makeham N H G) i j) (v k j)) = Cmult (RtoC (pEigen p k)) (v k i)) /\
  (forall k l, 0 <= k < n -> 0 <= l < n -> csum (zrange 0 n) (fun i => Cmult (Cconj (v k i)) (v l i)) = kron k l) /\
  (forall k l, 0 <= k <= l -> l < n -> (pEigen p k <= pEigen p l)%R).
Proof.
  cbv zeta. unfold orbital, step, diag, zheevall. set (a := loop 0 n _ _). pose proof (HZ a) as Q. cbv zeta in Q. destruct (zheev n a) as (w, vec) eqn:Ez. cbn [fst snd pGreen pEigen pR] in *.
  destruct Q as (Q1 & Q2 & Q3). split; [|split; [|split]].
  - unfold green, filled. cbn [pR]. reflexivity || (apply FunctionalExtensionality.functional_extensionality; intros i; apply FunctionalExtensionality.functional_extensionality; intros j; apply csum_ext; intros k _; rewrite !Cconj_conj; reflexivity).
  - intros k i Hk Hi. rewrite Cconj_conj, <- (Q1 k i Hk Hi). apply csum_ext. intros j Hj. apply zrange_in in Hj. rewrite Cconj_conj. f_equal. unfold upper_part, from_upper. unfold a. rewrite !copied by assumption. reflexivity.
  - intros k l Hk Hl. rewrite <- (Q2 k l Hk Hl). apply csum_ext. intros i _. now rewrite !Cconj_conj.
  - exact Q3.
Qed.
Lemma step_state mix G : let p := step N H Nsize zheev mix G in projector n (pGreen p) /\ trace n (pGreen p) = RtoC (IZR Nsize) /\ pNum p = IZR Nsize.
Proof.
  cbv zeta. destruct (step_orbitals mix G) as (E & _ & Q2 & _). rewrite E. split; [apply filled_projector; [exact Q2|lia]|].
  pose proof (filled_trace n (orbital G) Q2 Nsize HM) as T. split; [exact T|].
  assert (EN : pNum (step N H Nsize zheev mix G) = cal_num N (pGreen (step N H Nsize zheev mix G))) by (unfold step; destruct (diag _ _ _) as ((? & ?) & ?); reflexivity).
  rewrite EN, E. apply (f_equal fst) in T. cbn [fst RtoC] in T. rewrite <- T. unfold cal_num, trace. rewrite csum_re.
  set (f := filled (orbital G) Nsize). set (P := fun j e => e = rsum (zrange 0 j) (fun i => fst (f i i))). assert (Q : P n (loop 0 n (fun i e => (e + fst (f i i))%R) 0%R)); [|exact Q].
  apply (loop_inv P); [lia|unfold P; now rewrite zrange_nil by lia|]. intros i e Hi Ee. unfold P in *. rewrite zrange_snoc, rsum_app by lia. rewrite Ee. cbn. lra.
Qed.
Lemma step_lowest mix G P : projector n P -> trace n P = RtoC (IZR Nsize) ->
  (fst (pairing n (from_upper (makeham N H G)) (pGreen (step N H Nsize zheev mix G))) <= fst (pairing n (from_upper (makeham N H G)) P))%R.
Proof.
  intros HP HT'. destruct (step_orbitals mix G) as (E & Q1 & Q2 & Q3). rewrite E.
  apply (lowest n (orbital G) ltac:(lia) Q2 (from_upper (makeham N H G)) (pEigen (step N H Nsize zheev mix G)) Q1 Q3 Nsize P HM HP HT').
Qed.
Lemma step_energy mix G : let p := step N H Nsize zheev mix G in
  pEnergy p = (fst (pairing n (from_upper (makeham N H G)) (pGreen p)) - fst (second_order O (pGreen p)))%R.
Proof.
  cbv zeta. destruct (step_orbitals mix G) as (E & Q1 & Q2 & _). destruct (step_state mix G) as ((PH & _) & _).
  assert (EE : pEnergy (step N H Nsize zheev mix G) = cal_energy N H Nsize (pEigen (step N H Nsize zheev mix G)) (pGreen (step N H Nsize zheev mix G))) by (unfold step; destruct (diag _ _ _) as ((? & ?) & ?); reflexivity).
  rewrite EE, (energy_is V H HS Nsize _ _ (hermitian_diag V _ PH)). f_equal. rewrite E, (band n (orbital G) Q2 _ _ Q1 Nsize) by lia. reflexivity.
Qed.
Lemma step_bound mix G : real_energies n O -> (forall i, 0 <= i < n -> snd (G i i) = 0%R) -> let p := step N H Nsize zheev mix G in
  (Rabs (pEnergy p - fst (mean_energy O (pGreen p))) <= 8 * strength O * sqrt (distance2 n G (pGreen p)))%R.
Proof.
  intros HR HG. cbv zeta. rewrite step_energy. destruct (step_state mix G) as (PP & _). pose proof PP as (PH & _). set (Gn := pGreen (step N H Nsize zheev mix G)) in *.
  pose proof (hermitian_diag V _ PH) as HD. rewrite (mean_from_ham V H HN HS HT Gn HD).
  pose proof (ham_hermitian V H HN HS HT Gn HR PH) as HH.
  rewrite (pairing_ext n (makeham N H Gn) (from_upper (makeham N H Gn))) by (intros; symmetry; now apply from_upper_same with (n := n)).
  match goal with |- (Rabs ?e <= _)%R => replace e with (fst (Cminus (pairing n (makeham N H G) (triangle Gn)) (pairing n (makeham N H Gn) (triangle Gn)))) by (rewrite <- ?triangle_pairing; cbn [fst Cminus Cplus Copp]; rewrite <- !triangle_pairing by exact PH; lra) end.
  rewrite (ham_change G Gn (triangle Gn) HG HD). eapply Rle_trans; [apply re_mod|].
  eapply Rle_trans; [apply (both_bound n O _ _ (sqrt (distance2 n G Gn)) 2 (strings_in_range V H HN HS))|right; ring].
  - intros i j Hi Hj. now apply distance_entry.
  - intros i j Hi Hj. unfold triangle. pose proof (entry_bound n Gn PP). destruct (i <? j); [|destruct (j <? i)].
    + rewrite Cmod_mult, Cmod_R, Rabs_right by lra. specialize (H0 i j Hi Hj). lra.
    + rewrite Cmod_0. lra.
    + specialize (H0 i i Hi Hi). lra.
Qed.
Lemma rest_is mix G : let p := step N H Nsize zheev mix G in pRest p = (sqrt (distance2 n G (pGreen p)) / (2 * IZR N * IZR N))%R.
Proof.
  cbv zeta. assert (E : pRest (step N H Nsize zheev mix G) = cal_rest N (pGreen (step N H Nsize zheev mix G)) G) by (unfold step; destruct (diag _ _ _) as ((? & ?) & ?); reflexivity).
  rewrite E. set (Gn := pGreen _). unfold cal_rest. f_equal. f_equal. unfold distance2.
  set (d := fun i j => (Cmod (Cminus (G i j) (Gn i j)) ^ 2)%R).
  assert (EI : forall i e, loop 0 n (fun j e => let tmp := Cmod (Cminus (G i j) (Gn i j)) in (e + tmp * tmp)%R) e = (e + rsum (zrange 0 n) (d i))%R).
  { intros i e. set (P := fun j x => x = (e + rsum (zrange 0 j) (d i))%R). assert (Q : P n (loop 0 n (fun j e => let tmp := Cmod (Cminus (G i j) (Gn i j)) in (e + tmp * tmp)%R) e)); [|exact Q].
    apply (loop_inv P); [lia|unfold P; rewrite zrange_nil by lia; cbn; lra|]. intros j x Hj Ex. unfold P in *. rewrite zrange_snoc, rsum_app by lia. rewrite Ex. unfold d. cbn. ring. }
  set (P := fun j x => x = rsum (zrange 0 j) (fun i => rsum (zrange 0 n) (d i))).
  assert (Q : P n (loop 0 n (fun i e => loop 0 n (fun j e => let tmp := Cmod (Cminus (G i j) (Gn i j)) in (e + tmp * tmp)%R) e) 0%R)); [|exact Q].
  apply (loop_inv P); [lia|unfold P; rewrite zrange_nil by lia; reflexivity|]. intros i x Hi Ex. unfold P in *. rewrite EI, zrange_snoc, rsum_app by lia. rewrite Ex. cbn. lra.
Qed.
Lemma mixed_is mix G i j : let p := step N H Nsize zheev mix G in pMixed p i j = Cplus (Cmult (RtoC (1 - mix)) (G i j)) (Cmult (RtoC mix) (pGreen p i j)).
Proof. cbv zeta. unfold step. destruct (diag _ _ _) as ((? & ?) & ?). cbn [pMixed pGreen]. unfold mixed. ring. Qed.
Lemma step_irrelevant mix mix' G : let p := step N H Nsize zheev mix G in let p' := step N H Nsize zheev mix' G in pGreen p = pGreen p' /\ pEigen p = pEigen p' /\ pEnergy p = pEnergy p' /\ pR p = pR p'.
Proof. cbv zeta. unfold step. destruct (diag _ _ _) as ((? & ?) & ?). repeat split. Qed.

(** the loop *)
Lemma iterate_last eps mix k : forall G0 p b, (forall i, 0 <= i < n -> snd (G0 i i) = 0%R) -> iterate N H Nsize zheev eps mix k G0 = Some (p, b) ->
  exists G, (forall i, 0 <= i < n -> snd (G i i) = 0%R) /\ p = step N H Nsize zheev mix G /\ (b = true <-> (pRest p < eps)%R).
Proof.
  induction k as [|k IH]; intros G0 p b HG E; [discriminate|]. cbn [iterate] in E. cbv zeta in E. destruct (Rlt_dec _ eps) as [L|L].
  - injection E as <- <-. exists G0. repeat split; auto.
  - destruct k as [|k]; [injection E as <- <-; exists G0; repeat split; auto; intros; try discriminate; try contradiction|].
    apply (IH _ _ _) in E; [exact E|]. intros i Hi. rewrite mixed_is. destruct (step_state mix G0) as ((PH & _) & _). pose proof (hermitian_diag V _ PH i Hi) as Z1. pose proof (HG i Hi) as Z2.
    destruct (G0 i i), (pGreen (step N H Nsize zheev mix G0) i i). cbn in *. subst. ring.
Qed.
Lemma iterate_energy eps mix k G0 p : real_energies n O -> (forall i, 0 <= i < n -> snd (G0 i i) = 0%R) -> iterate N H Nsize zheev eps mix k G0 = Some (p, true) ->
  projector n (pGreen p) /\ trace n (pGreen p) = RtoC (IZR Nsize) /\ pNum p = IZR Nsize /\
  (Rabs (pEnergy p - fst (mean_energy O (pGreen p))) <= 16 * IZR N ^ 2 * eps * strength O)%R.
Proof.
  intros HR HG E. destruct (iterate_last eps mix k G0 p true HG E) as (G & HG' & -> & (L & _)). specialize (L eq_refl). destruct (step_state mix G) as (S1 & S2 & S3).
  split; [exact S1|split; [exact S2|split; [exact S3|]]]. eapply Rle_trans; [apply step_bound; assumption|]. rewrite rest_is in L. set (s := sqrt _) in *.
  assert (0 <= strength O)%R by (apply rsum_nonneg; intros (c, ops) _; cbn; destruct ops as [|? [|? [|? ?]]]; try lra; apply Cmod_ge_0).
  assert (0 < IZR N)%R by (now apply IZR_lt). assert (s <= 2 * IZR N ^ 2 * eps)%R.
  { apply (Rmult_lt_compat_r (2 * IZR N * IZR N)) in L; [|nra]. replace (s / (2 * IZR N * IZR N) * (2 * IZR N * IZR N))%R with s in L by (field; lra). lra. }
  nra.
Qed.

(** a fixed point is stationary *)
Lemma commutes mix G i j : 0 <= i < n -> 0 <= j < n -> let p := step N H Nsize zheev mix G in let A := from_upper (makeham N H G) in
  csum (zrange 0 n) (fun m => Cmult (A m i) (pGreen p m j)) = csum (zrange 0 n) (fun m => Cmult (pGreen p i m) (A j m)).
Proof.
  intros Hi Hj. cbv zeta. destruct (step_orbitals mix G) as (E & Q1 & Q2 & _). set (A := from_upper _) in *. rewrite E. pose proof (from_upper_hermitian n (makeham N H G)) as AH. fold A in AH. unfold filled.
  transitivity (csum (zrange 0 Nsize) (fun k => Cmult (RtoC (pEigen (step N H Nsize zheev mix G) k)) (Cmult (Cconj (orbital G k i)) (orbital G k j)))).
  - transitivity (csum (zrange 0 n) (fun m => csum (zrange 0 Nsize) (fun k => Cmult (orbital G k j) (Cmult (A m i) (Cconj (orbital G k m)))))); [apply csum_ext; intros m _; rewrite <- csum_scal; apply csum_ext; intros; ring|].
    rewrite csum_swap. apply csum_ext. intros k Hk. apply zrange_in in Hk. rewrite csum_scal.
    assert (E1 : csum (zrange 0 n) (fun m => Cmult (A m i) (Cconj (orbital G k m))) = Cmult (RtoC (pEigen (step N H Nsize zheev mix G) k)) (Cconj (orbital G k i))).
    { rewrite <- (Cconj_real (pEigen _ k)), <- Cconj_mult, <- Q1, csum_conj by lia. apply csum_ext. intros m Hm. apply zrange_in in Hm. rewrite Cconj_mult, (AH i m) by assumption. reflexivity. }
    rewrite E1. ring.
  - symmetry. transitivity (csum (zrange 0 n) (fun m => csum (zrange 0 Nsize) (fun k => Cmult (Cconj (orbital G k i)) (Cmult (A j m) (orbital G k m))))); [apply csum_ext; intros m _; rewrite <- csum_scal_r; apply csum_ext; intros; ring|].
    rewrite csum_swap. apply csum_ext. intros k Hk. apply zrange_in in Hk. rewrite csum_scal, Q1 by lia. ring.
Qed.
Lemma stationary mix G X : real_energies n O -> hermitian n G -> (forall i j, 0 <= i < n -> 0 <= j < n -> pGreen (step N H Nsize zheev mix G) i j = G i j) ->
  pairing n (makeham N H G) (fun i j => Cminus (times_ n G X i j) (times_ n X G i j)) = RtoC 0.
Proof.
  intros HR HG HF. pose proof (ham_hermitian V H HN HS HT G HR HG) as HH. set (A := makeham N H G) in *.
  assert (EC : forall i j, 0 <= i < n -> 0 <= j < n -> csum (zrange 0 n) (fun m => Cmult (A m i) (G m j)) = csum (zrange 0 n) (fun m => Cmult (G i m) (A j m))).
  { intros i j Hi Hj. pose proof (commutes mix G i j Hi Hj) as CM. cbv zeta in CM. fold A in CM. transitivity (csum (zrange 0 n) (fun m => Cmult (from_upper A m i) (pGreen (step N H Nsize zheev mix G) m j))); [|rewrite CM];
      apply csum_ext; intros m Hm; apply zrange_in in Hm; rewrite (from_upper_same n) by assumption; now rewrite HF. }
  unfold pairing, times_.
  transitivity (Cminus (csum (zrange 0 n) (fun i => csum (zrange 0 n) (fun j => csum (zrange 0 n) (fun k => Cmult (A i j) (Cmult (G i k) (X k j))))))
    (csum (zrange 0 n) (fun i => csum (zrange 0 n) (fun j => csum (zrange 0 n) (fun k => Cmult (A i j) (Cmult (X i k) (G k j))))))).
  { rewrite <- csum_sub. apply csum_ext. intros i _. rewrite <- csum_sub. apply csum_ext. intros j _. rewrite !csum_scal. ring. }
  assert (E1 : csum (zrange 0 n) (fun i => csum (zrange 0 n) (fun j => csum (zrange 0 n) (fun k => Cmult (A i j) (Cmult (G i k) (X k j))))) =
    csum (zrange 0 n) (fun k => csum (zrange 0 n) (fun j => Cmult (X k j) (csum (zrange 0 n) (fun i => Cmult (A i j) (G i k)))))).
  { transitivity (csum (zrange 0 n) (fun i => csum (zrange 0 n) (fun k => csum (zrange 0 n) (fun j => Cmult (A i j) (Cmult (G i k) (X k j)))))); [apply csum_ext; intros i _; apply csum_swap|].
    rewrite csum_swap. apply csum_ext. intros k _. rewrite csum_swap. apply csum_ext. intros j _. rewrite <- csum_scal. apply csum_ext. intros i _. ring. }
  assert (E2 : csum (zrange 0 n) (fun i => csum (zrange 0 n) (fun j => csum (zrange 0 n) (fun k => Cmult (A i j) (Cmult (X i k) (G k j))))) =
    csum (zrange 0 n) (fun i => csum (zrange 0 n) (fun k => Cmult (X i k) (csum (zrange 0 n) (fun j => Cmult (G k j) (A i j)))))).
  { apply csum_ext. intros i _. rewrite csum_swap. apply csum_ext. intros k _. rewrite <- csum_scal. apply csum_ext. intros j _. ring. }
  rewrite E1, E2.
  assert (E3 : csum (zrange 0 n) (fun k => csum (zrange 0 n) (fun j => Cmult (X k j) (csum (zrange 0 n) (fun i => Cmult (A i j) (G i k))))) =
    csum (zrange 0 n) (fun i => csum (zrange 0 n) (fun k => Cmult (X i k) (csum (zrange 0 n) (fun j => Cmult (G k j) (A i j)))))).
  { apply csum_ext. intros k Hk. apply csum_ext. intros j Hj. apply zrange_in in Hk. apply zrange_in in Hj. now rewrite EC. }
  rewrite E3. ring.
Qed.
End Loop.
