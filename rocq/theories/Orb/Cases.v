(** Concrete orbital files and amplitudes: two sites. *)
From Coq Require Import ZArith List Bool Reals Lia Lra.
From Coquelicot Require Import Complex.
From Verif Require Import Green.Spec Base.ZLoop Base.RSum Pf.Pfaffian Pf.Spec Slater.Model Slater.Spec Fsz.Spec Ham.Model Ham.Spec Uhf.Model Uhf.Spec Uhf.Cases Orb.Model Orb.Spec Orb.Wedge Orb.Params Orb.Readers Orb.Final Orb.Modes.
Import ListNotations.
Local Open Scope Z_scope.

Definition S2 : sizes := {| Nsite := 2; Ne := 1; NSPGaussLeg := 1; NMPTrans := 1; NQPOptTrans := 1; NSlater := 6 |}.
(** ** general orbitals: the bonding orbital with spin up, and one of mixed spin *)
Definition R2 : matrix := fun i n => if n =? 0 then (if i <? 2 then RtoC 1 else RtoC 0) else if n =? 1 then (if (i =? 1) || (i =? 2) then RtoC 0 else if i =? 0 then RtoC 2 else (0, 1)%R) else RtoC 0.
Definition file_general : list grow := [(0, 0, 1, 0, 0, Some 1); (0, 0, 0, 1, 1, Some 1); (0, 0, 1, 1, 2, Some (-1)); (1, 0, 0, 1, 3, Some 1); (1, 0, 1, 1, 4, Some (-1)); (0, 1, 1, 1, 5, Some 1)].
Definition F2 : matrix := pair_general 1 R2.
Lemma F2_is x y : F2 x y = Cminus (Cmult (Cconj (R2 x 0)) (Cconj (R2 y 1))) (Cmult (Cconj (R2 x 1)) (Cconj (R2 y 0))).
Proof. unfold F2, pair_general, loop. change (zrange 0 1) with [0]. cbn [fold_left]. apply Cplus_0_l. Qed.
Definition c_general (k : Z) : C := if k =? 0 then F2 0 1 else if k =? 1 then F2 0 2 else if k =? 2 then Copp (F2 0 3) else if k =? 3 then F2 1 2 else if k =? 4 then Copp (F2 1 3) else F2 2 3.
Ltac in_cases I := repeat (destruct I as [I|I]; [inversion I; subst; clear I|]); [..|now destruct I].
Lemma file_general_ok : general_file 2 6 file_general.
Proof.
  split; [reflexivity|]. split.
  - intros i si j sj k s I. unfold file_general in I. in_cases I; unfold site; lia.
  - intros x y Hx Hy. assert (x = 0 \/ x = 1 \/ x = 2) as [->|[->| ->]] by lia.
    + assert (y = 1 \/ y = 2 \/ y = 3) as [->|[->| ->]] by lia; do 2 eexists; cbn; intuition reflexivity.
    + assert (y = 2 \/ y = 3) as [->| ->] by lia; do 2 eexists; cbn; intuition reflexivity.
    + assert (y = 3) as -> by lia; do 2 eexists; cbn; intuition reflexivity.
Qed.
Lemma file_general_signs : signs_ok true (map (general_entry 2) file_general).
Proof. left. split; [reflexivity|]. intros e I. cbn in I. in_cases I; cbn; intuition reflexivity. Qed.
Lemma file_general_adapted : adapted F2 c_general (map (general_entry 2) file_general).
Proof. intros x y k s I. cbn in I. in_cases I; unfold c_general; cbn [Z.eqb Pos.eqb sign_value]; apply injective_projections; cbn; ring. Qed.
Lemma F2_values : F2 0 1 = RtoC (-2) /\ F2 0 3 = (0, -1)%R.
Proof. rewrite !F2_is. split; apply injective_projections; cbn; ring. Qed.

(** ** pairs of opposite spin and of equal spin, in separate files *)
Definition file_ap : list row := [(0, 0, 0, Some 1); (0, 1, 1, Some (-1)); (1, 0, 2, Some 1); (1, 1, 3, Some 1)].
Definition file_p : list row := [(0, 1, 0, Some (-1))].
Definition c_ap_p (k : Z) : C := if k =? 0 then F2 0 2 else if k =? 1 then Copp (F2 0 3) else if k =? 2 then F2 1 2 else if k =? 3 then F2 1 3 else if k =? 4 then Copp (F2 0 1) else Copp (F2 2 3).
Lemma file_ap_ok : ap_file 2 4 file_ap.
Proof.
  split; [reflexivity|]. split.
  - intros i j k s I. unfold file_ap in I. in_cases I; unfold site; lia.
  - unfold site. intros i j Hi Hj. assert (i = 0 \/ i = 1) as [-> | ->] by lia; assert (j = 0 \/ j = 1) as [-> | ->] by lia; do 2 eexists; cbn; intuition reflexivity.
Qed.
Lemma file_p_ok : p_file 2 1 file_p.
Proof.
  split; [reflexivity|]. split.
  - intros i j k s I. unfold file_p in I. in_cases I; lia.
  - intros i j Hi Hj. assert (i = 0) as -> by lia. assert (j = 1) as -> by lia. do 2 eexists; cbn; intuition reflexivity.
Qed.
Lemma file_ap_p_signs : signs_ok true (ap_p_entries 2 4 file_ap file_p).
Proof. left. split; [reflexivity|]. intros e I. cbn in I. in_cases I; cbn; intuition reflexivity. Qed.
Lemma file_ap_p_adapted : adapted F2 c_ap_p (ap_p_entries 2 4 file_ap file_p).
Proof. intros x y k s I. cbn in I. in_cases I; unfold c_ap_p; cbn [Z.eqb Pos.eqb sign_value]; apply injective_projections; cbn; ring. Qed.

(** ** a hopping between the two sites: the filled orbital is the even combination *)
Definition Ham_hop : matrix := fun i j => if ((i =? 0) && (j =? 1)) || ((i =? 1) && (j =? 0)) || ((i =? 2) && (j =? 3)) || ((i =? 3) && (j =? 2)) then RtoC (-1) else RtoC 0.
Lemma Ham_hop_hermitian : hermitian 4 Ham_hop.
Proof.
  intros i j Hi Hj. unfold Ham_hop.
  assert (i = 0 \/ i = 1 \/ i = 2 \/ i = 3) as [->|[->|[->| ->]]] by lia; assert (j = 0 \/ j = 1 \/ j = 2 \/ j = 3) as [->|[->|[->| ->]]] by lia; apply injective_projections; cbn; ring.
Qed.
Definition f_hop : matrix := pair_antiparallel 2 1 zheev2 Ham_hop.
Lemma orbital_hop A k i : (forall a b, 0 <= a < 2 -> 0 <= b < 2 -> A a b = if a =? b then RtoC 0 else RtoC (-1)) -> k = 0 -> 0 <= i < 2 -> snd (zheevall zheev2 2 A) k i = RtoC (- / sqrt 2).
Proof.
  intros HA -> Hi. unfold zheevall. set (a := loop 0 2 _ _).
  assert (E0 : a 0 = RtoC 0) by (unfold a, loop; change (zrange 0 2) with [0; 1]; cbn; rewrite ?HA by lia; reflexivity).
  assert (E3 : a 3 = RtoC 0) by (unfold a, loop; change (zrange 0 2) with [0; 1]; cbn; rewrite ?HA by lia; reflexivity).
  assert (E2 : a 2 = RtoC (-1)) by (unfold a, loop; change (zrange 0 2) with [0; 1]; cbn; rewrite ?HA by lia; reflexivity).
  unfold zheev2. rewrite E0, E3, E2. destruct (Ceq_dec (RtoC (-1)) (RtoC 0)) as [Q|Q]; [apply (f_equal fst) in Q; cbn in Q; lra|].
  assert (G : gap 0 0 (RtoC (-1)) = 1%R). { unfold gap. rewrite Cmod_R, Rabs_left by lra. replace (((0 - 0) / 2) ^ 2 + (- -1) ^ 2)%R with (1 * 1)%R by field. apply sqrt_square. lra. }
  assert (L : level 0 0 (RtoC (-1)) 0 = (-1)%R) by (unfold level; cbn [Z.eqb]; rewrite G; lra).
  assert (N : norm 0 0 (RtoC (-1)) 0 = sqrt 2). { unfold norm. rewrite L, Cmod_R, Rabs_left by lra. f_equal. ring. }
  assert (P : (0 < sqrt 2)%R) by (apply sqrt_lt_R0; lra).
  assert (i = 0 \/ i = 1) as [-> | ->] by lia; cbn [fst snd Z.mul Z.add]; unfold eigen2; cbn -[norm level sqrt]; rewrite N, ?L; apply injective_projections; cbn; field; lra.
Qed.
Lemma f_hop_is i j : 0 <= i < 2 -> 0 <= j < 2 -> f_hop i j = RtoC (/ 2).
Proof.
  intros Hi Hj. unfold f_hop. rewrite pair_antiparallel_is. unfold product_pair. change (zrange 0 1) with [0]. cbn [csum].
  rewrite !orbital_hop; try lia.
  - apply injective_projections; cbn; [|ring]. pose proof (sqrt_sqrt 2 ltac:(lra)) as Q. assert (P : (0 < sqrt 2)%R) by (apply sqrt_lt_R0; lra). replace (/ 2)%R with (/ (sqrt 2 * sqrt 2))%R by (now rewrite Q). field. lra.
  - intros a b Ha Hb. unfold Ham_hop. assert (a = 0 \/ a = 1) as [-> | ->] by lia; assert (b = 0 \/ b = 1) as [-> | ->] by lia; reflexivity.
  - intros a b Ha Hb. unfold Ham_hop. assert (a = 0 \/ a = 1) as [-> | ->] by lia; assert (b = 0 \/ b = 1) as [-> | ->] by lia; reflexivity.
Qed.
(** all four pairs in one class, signs not given *)
Definition file_one : list row := [(0, 0, 0, None); (0, 1, 0, None); (1, 0, 0, None); (1, 1, 0, None)].
Lemma file_one_ok : ap_file 2 1 file_one.
Proof.
  split; [reflexivity|]. split.
  - intros i j k s I. unfold file_one in I. in_cases I; unfold site; lia.
  - unfold site. intros i j Hi Hj. assert (i = 0 \/ i = 1) as [-> | ->] by lia; assert (j = 0 \/ j = 1) as [-> | ->] by lia; do 2 eexists; cbn; intuition reflexivity.
Qed.
Lemma file_one_signs flag : signs_ok flag (map (ap_entry 2) file_one).
Proof. right. intros e I. cbn in I. in_cases I; cbn; intuition reflexivity. Qed.
Lemma file_one_adapted : adapted (fun x y => f_hop x (y - 2)) (fun _ => RtoC (/ 2)) (map (ap_entry 2) file_one).
Proof. intros x y k s I. cbn in I. in_cases I; cbn [sign_value Z.sub Z.add Z.opp Z.pos_sub Pos.pred_double]; rewrite f_hop_is by lia; apply injective_projections; cbn; ring. Qed.

(** ** periodic boundaries, and a sign in the file *)
Definition file_sign : list row := [(0, 0, 0, Some 1); (0, 1, 1, Some 1); (1, 0, 2, Some 1); (1, 1, 3, Some (-1))].
Definition U_sign : tables := fold_left (fun t (r : row) => let '(i, j, k, s) := r in set_cell (i + 2 * 0) (j + 2 * 1) k (with_default 1 s) t) file_sign (uhf_fresh 2 false).
Lemma U_sign_ok : uhf_ap 2 file_sign = Some U_sign. Proof. reflexivity. Qed.
Definition lines_sign : list (option C) := [Some (RtoC (/ 2)); Some (RtoC (/ 2)); Some (RtoC (/ 2)); Some (RtoC (- / 2))].
Lemma lines_sign_ok : output_antiparallel_2 4 U_sign (fun _ => 0%R) 8 2 4 f_hop = Some lines_sign.
Proof.
  assert (E : cells_ap2 2 f_hop = [(0, 2, RtoC (/ 2)); (0, 3, RtoC (/ 2)); (1, 2, RtoC (/ 2)); (1, 3, RtoC (/ 2))]).
  { unfold cells_ap2. change (zrange 0 2) with [0; 1]. cbn [map flat_map app Z.mul Z.add Pos.add Pos.mul Pos.succ]. now rewrite !f_hop_is by lia. }
  unfold output_antiparallel_2, written. rewrite E. unfold collect. cbn [fold_left]. unfold collect_cell.
  change (Idx U_sign 0 2) with 0. change (Idx U_sign 0 3) with 1. change (Idx U_sign 1 2) with 2. change (Idx U_sign 1 3) with 3.
  change (Sgn U_sign 0 2) with 1. change (Sgn U_sign 0 3) with 1. change (Sgn U_sign 1 2) with 1. change (Sgn U_sign 1 3) with (-1).
  cbn [Z.eqb Pos.eqb Z.leb Z.ltb Z.compare Pos.compare Pos.compare_cont andb]. change (zrange 0 4) with [0; 1; 2; 3]. cbn [map]. unfold finish, upd. cbn [Z.eqb Pos.eqb Z.add Pos.add].
  unfold lines_sign. repeat (apply f_equal2 || f_equal); apply injective_projections; cbn -[powerRZ]; field.
Qed.
