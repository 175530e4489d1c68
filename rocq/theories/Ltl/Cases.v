(** Concrete cases: a triangular inversion that meets its contract for all sizes, a factorised 4x4 matrix with two interchanges, and a
    factorisation routine that serves 2x2 matrices. *)
From Coq Require Import ZArith List Bool Lia Lra Reals.
From Coquelicot Require Import Complex.
From Verif Require Import Base.ZLoop Base.Checked Base.RSum Pf.Pfaffian Pf.Spec Pf.ProofsTwo Ltl.Model Ltl.Spec Ltl.Pfa Ltl.Arr Ltl.Solve Ltl.Proofs Ltl.Frame.
Import ListNotations.
Local Open Scope Z_scope.

(** ** substitution *)
Fixpoint substituted (upper : bool) (u : Z -> Z -> C) (fuel : nat) (i j : Z) : C :=
  match fuel with O => RtoC 0 | S fuel =>
    if i =? j then RtoC 1 else if (if upper then i <? j else j <? i)
    then Copp (csum (if upper then zrange (i + 1) (j + 1) else zrange j i) (fun k => Cmult (u i k) (substituted upper u fuel k j))) else RtoC 0 end.
Definition inv_tri (upper : bool) (u : Z -> Z -> C) (i j : Z) : C := substituted upper u (S (Z.to_nat (Z.abs (j - i)))) i j.
Lemma substituted_fuel upper u : forall f g i j, (Z.to_nat (Z.abs (j - i)) < f)%nat -> (Z.to_nat (Z.abs (j - i)) < g)%nat -> substituted upper u f i j = substituted upper u g i j.
Proof.
  induction f as [|f IH]; intros g i j Hf Hg; [lia|]. destruct g as [|g]; [lia|]. cbn [substituted]. destruct (Z.eqb_spec i j); [reflexivity|].
  destruct upper; [destruct (Z.ltb_spec i j)|destruct (Z.ltb_spec j i)]; try reflexivity; f_equal; apply csum_ext; intros k Hk; apply zrange_in in Hk; f_equal; apply IH; lia.
Qed.
Lemma inv_tri_eq upper u i j : inv_tri upper u i j = if i =? j then RtoC 1 else if (if upper then i <? j else j <? i)
    then Copp (csum (if upper then zrange (i + 1) (j + 1) else zrange j i) (fun k => Cmult (u i k) (inv_tri upper u k j))) else RtoC 0.
Proof.
  unfold inv_tri at 1. cbn [substituted]. destruct (Z.eqb_spec i j); [reflexivity|].
  destruct upper; [destruct (Z.ltb_spec i j)|destruct (Z.ltb_spec j i)]; try reflexivity; f_equal; apply csum_ext; intros k Hk; apply zrange_in in Hk; f_equal; apply substituted_fuel; lia.
Qed.
Lemma right_of upper u n : equal_to n (product n (unit_tri upper u) (inv_tri upper u)) kron.
Proof.
  intros i j Hi Hj. unfold product. set (f := fun k => Cmult (unit_tri upper u i k) (inv_tri upper u k j)).
  assert (Sp : csum (zrange 0 n) f = Cplus (csum (zrange 0 i) f) (Cplus (f i) (csum (zrange (i + 1) n) f))).
  { rewrite (zrange_app 0 i n) by lia. rewrite csum_app. rewrite (zrange_cons i n) by lia. reflexivity. }
  rewrite Sp. assert (Fi : f i = inv_tri upper u i j) by (unfold f, unit_tri; rewrite Z.eqb_refl; ring). rewrite Fi. rewrite (inv_tri_eq upper u i j). unfold kron. destruct upper.
  - rewrite (csum_zero (zrange 0 i)). 2:{ intros k Hk. apply zrange_in in Hk. unfold f, unit_tri. destruct (Z.eqb_spec i k), (Z.ltb_spec i k); try lia. ring. }
    destruct (Z.eqb_spec i j) as [->|N].
    + rewrite csum_zero; [ring|]. intros k Hk. apply zrange_in in Hk. unfold f. rewrite inv_tri_eq. destruct (Z.eqb_spec k j), (Z.ltb_spec k j); try lia. ring.
    + destruct (Z.ltb_spec i j).
      * rewrite (zrange_app (i + 1) (j + 1) n) by lia. rewrite csum_app. rewrite (csum_zero (zrange (j + 1) n)). 2:{ intros k Hk. apply zrange_in in Hk. unfold f. rewrite inv_tri_eq. destruct (Z.eqb_spec k j), (Z.ltb_spec k j); try lia. ring. }
        rewrite (csum_ext (zrange (i + 1) (j + 1)) f (fun k => Cmult (u i k) (inv_tri true u k j))); [ring|]. intros k Hk. apply zrange_in in Hk. unfold f, unit_tri. destruct (Z.eqb_spec i k), (Z.ltb_spec i k); try lia. reflexivity.
      * rewrite csum_zero; [ring|]. intros k Hk. apply zrange_in in Hk. unfold f. rewrite inv_tri_eq. destruct (Z.eqb_spec k j), (Z.ltb_spec k j); try lia. ring.
  - rewrite (csum_zero (zrange (i + 1) n)). 2:{ intros k Hk. apply zrange_in in Hk. unfold f, unit_tri. destruct (Z.eqb_spec i k), (Z.ltb_spec k i); try lia. ring. }
    destruct (Z.eqb_spec i j) as [->|N].
    + rewrite csum_zero; [ring|]. intros k Hk. apply zrange_in in Hk. unfold f. rewrite inv_tri_eq. destruct (Z.eqb_spec k j), (Z.ltb_spec j k); try lia. ring.
    + destruct (Z.ltb_spec j i).
      * rewrite (zrange_app 0 j i) by lia. rewrite csum_app. rewrite (csum_zero (zrange 0 j)). 2:{ intros k Hk. apply zrange_in in Hk. unfold f. rewrite inv_tri_eq. destruct (Z.eqb_spec k j), (Z.ltb_spec j k); try lia. ring. }
        rewrite (csum_ext (zrange j i) f (fun k => Cmult (u i k) (inv_tri false u k j))); [ring|]. intros k Hk. apply zrange_in in Hk. unfold f, unit_tri. destruct (Z.eqb_spec i k), (Z.ltb_spec k i); try lia. reflexivity.
      * rewrite csum_zero; [ring|]. intros k Hk. apply zrange_in in Hk. unfold f. rewrite inv_tri_eq. destruct (Z.eqb_spec k j), (Z.ltb_spec j k); try lia. ring.
Qed.
Lemma inv_unit upper u i j : inv_tri upper u i j = unit_tri upper (inv_tri upper u) i j.
Proof. unfold unit_tri. rewrite (inv_tri_eq upper u i j). now destruct (i =? j), (if upper then i <? j else j <? i). Qed.
Lemma left_of upper u n : equal_to n (product n (inv_tri upper u) (unit_tri upper u)) kron.
Proof.
  set (V := inv_tri upper u). set (U := unit_tri upper u). set (W := inv_tri upper V).
  assert (VW : equal_to n (product n V W) kron). { intros i j Hi Hj. rewrite <- (right_of upper V n i j Hi Hj). apply product_ext. intros k Hk. split; [apply inv_unit|reflexivity]. }
  assert (UW : equal_to n U W).
  { intros i j Hi Hj. transitivity (product n U (product n V W) i j).
    - rewrite (product_ext n U _ U kron); [now rewrite product_kron_r|]. intros k Hk. split; [reflexivity|]. now apply VW.
    - rewrite <- product_assoc. rewrite (product_ext n _ W kron W); [now apply product_kron_l|]. intros k Hk. split; [|reflexivity]. now apply right_of. }
  intros i j Hi Hj. rewrite <- (VW i j Hi Hj). apply product_ext. intros k Hk. split; [reflexivity|]. now apply UW.
Qed.
(** the triangle of the result; all other cells as before *)
Definition ref_trtri (upper : bool) (n ld : Z) (B : Z -> C) (p : Z) : C :=
  let i := p mod ld in let j := p / ld in
  if (0 <=? j) && (j <? n) && (i <? n) && (if upper then i <? j else j <? i) then inv_tri upper (at_ B ld) i j else B p.
Lemma ref_inverts : inverts ref_trtri.
Proof.
  intros upper n ld B Hn Hld. cbv zeta. split.
  - assert (E : equal_to n (unit_tri upper (at_ (ref_trtri upper n ld B) ld)) (inv_tri upper (at_ B ld))).
    { intros i j Hi Hj. rewrite inv_unit. unfold unit_tri. destruct (Z.eqb_spec i j); [reflexivity|]. destruct (if upper then i <? j else j <? i) eqn:Et; [|reflexivity].
      unfold at_ at 1, ref_trtri. cbv zeta. rewrite Z.mod_add, Z.div_add, Z.mod_small, Z.div_small by lia. replace (0 + j) with j by lia. rewrite Et. destruct (Z.leb_spec 0 j), (Z.ltb_spec j n), (Z.ltb_spec i n); try lia. reflexivity. }
    intros i j Hi Hj. split.
    + rewrite <- (left_of upper (at_ B ld) n i j Hi Hj). apply product_ext. intros k Hk. split; [now apply E|reflexivity].
    + rewrite <- (right_of upper (at_ B ld) n i j Hi Hj). apply product_ext. intros k Hk. split; [reflexivity|now apply E].
  - intros p Hp. unfold ref_trtri. cbv zeta. destruct (Z.leb_spec 0 (p / ld)), (Z.ltb_spec (p / ld) n), (Z.ltb_spec (p mod ld) n); try reflexivity. cbn [andb].
    destruct (if upper then p mod ld <? p / ld else p / ld <? p mod ld) eqn:Et; [|reflexivity]. exfalso.
    assert (D := Z.div_mod p ld ltac:(lia)). assert (D2 := Z.mod_pos_bound p ld ltac:(lia)).
    apply (Hp (p mod ld) (p / ld)); [lia|lia| |lia]. destruct upper; now apply Z.ltb_lt.
Qed.

(** ** a 4x4 matrix with two interchanges, stored with leading dimension 5 *)
Fixpoint entry (l : list Z) (p : Z) : Z := match l with [] => 0 | x :: l => if p =? 0 then x else entry l (p - 1) end.
Definition of_list (l : list Z) (p : Z) : C := RtoC (IZR (entry l p)).
Definition stored4 : Z -> C := of_list [7; 7; 7; 7; 7;  2; 7; 7; 7; 7;  1; 3; 7; 7; 7;  -2; 4; 5; 7; 7].
Definition pivots4 (j : Z) : Z := entry [1; 1; 2; 4] j.
Definition matrix4 (i j : Z) : C := of_list [0; 3; -20; 20;  -3; 0; -3; 5;  20; 3; 0; -10;  -20; -5; 10; 0] (j + i * 4).
Lemma small4 (P : Z -> Prop) : P 0 -> P 1 -> P 2 -> P 3 -> forall i, 0 <= i < 4 -> P i.
Proof. intros H0 H1 H2 H3 i Hi. assert (E : i = 0 \/ i = 1 \/ i = 2 \/ i = 3) by lia. destruct E as [->|[->|[->| ->]]]; assumption. Qed.
Lemma factorised4 : factorised true 4 matrix4 stored4 5 pivots4.
Proof.
  split.
  - apply (small4 (fun j => 1 <= pivots4 j <= 4)); vm_compute; split; discriminate.
  - intros i j Hi Hj. revert i Hi. refine (small4 _ _ _ _ _); revert j Hj; refine (small4 _ _ _ _ _);
      repeat match goal with |- context [rows true 4 pivots4 ?k] => let v := eval vm_compute in (rows true 4 pivots4 k) in change (rows true 4 pivots4 k) with v end;
      unfold product, factor, unit_tri, transpose, tridiagonal, diagonal_of, matrix4, stored4, at_, of_list; change (zrange 0 4) with [0; 1; 2; 3]; cbn; apply injective_projections; cbn; lra.
Qed.
(** the same for the lower triangle *)
Definition stored4l : Z -> C := of_list [7; -2; 1; -2;  7; 7; -3; 4;  7; 7; 7; -5;  7; 7; 7; 7].
Definition pivots4l (j : Z) : Z := entry [1; 3; 3; 4] j.
Definition matrix4l (i j : Z) : C := of_list [0; 2; 2; -4;  -2; 0; -3; 23;  -2; 3; 0; 12;  4; -23; -12; 0] (j + i * 4).
Lemma factorised4l : factorised false 4 matrix4l stored4l 4 pivots4l.
Proof.
  split.
  - apply (small4 (fun j => 1 <= pivots4l j <= 4)); vm_compute; split; discriminate.
  - intros i j Hi Hj. revert i Hi. refine (small4 _ _ _ _ _); revert j Hj; refine (small4 _ _ _ _ _);
      repeat match goal with |- context [rows false 4 pivots4l ?k] => let v := eval vm_compute in (rows false 4 pivots4l k) in change (rows false 4 pivots4l k) with v end;
      unfold product, factor, unit_tri, transpose, tridiagonal, diagonal_of, matrix4l, stored4l, at_, of_list; change (zrange 0 4) with [0; 1; 2; 3]; cbn; apply injective_projections; cbn; lra.
Qed.
Lemma pf4 : pf matrix4 (zrange 0 4) = RtoC 10 /\ pf matrix4l (zrange 0 4) = RtoC (-10).
Proof.
  rewrite <- (pfaffian_is true 4 matrix4 stored4 5 pivots4) by (try exact factorised4; try lia; now exists 2). rewrite <- (pfaffian_is false 4 matrix4l stored4l 4 pivots4l) by (try exact factorised4l; try lia; now exists 2).
  split; unfold pfaffian_of, utu2pfa, ltl2pfa, at_, stored4, stored4l, of_list, pivots4, pivots4l, loop; change ((4 + 1) / 2) with 2; change (zrange 0 2) with [0; 1]; cbn; apply injective_projections; cbn; lra.
Qed.

(** ** a routine that factorises 2x2 matrices: they are tridiagonal *)
Definition sktrf2 (n : Z) (A : Z -> C) : option ((Z -> C) * (Z -> Z)) := if n =? 2 then Some (A, fun j => j + 1) else None.
Lemma sktrf2_factorises : factorises sktrf2.
Proof.
  intros n A R piv Hn Hs. unfold sktrf2. destruct (Z.eqb_spec n 2) as [->|]; [|discriminate]. intros E. injection E as <- <-. split; [lia|].
  assert (S2 : forall P : Z -> Prop, P 0 -> P 1 -> forall i, 0 <= i < 2 -> P i). { intros P H0 H1 i Hi. assert (E : i = 0 \/ i = 1) by lia. destruct E as [->| ->]; assumption. }
  assert (H00 : at_ A 2 0 0 = RtoC 0) by (apply C_self_opp; now apply Hs). assert (H11 : at_ A 2 1 1 = RtoC 0) by (apply C_self_opp; now apply Hs). assert (H10 : at_ A 2 1 0 = Copp (at_ A 2 0 1)) by now apply Hs.
  intros i j Hi Hj. revert i Hi. refine (S2 _ _ _); revert j Hj; refine (S2 _ _ _); rewrite ?H00, ?H11, ?H10; 
    repeat match goal with |- context [rows true 2 ?p ?k] => let v := eval vm_compute in (rows true 2 p k) in change (rows true 2 p k) with v end; unfold product, factor, unit_tri, transpose, tridiagonal, diagonal_of; change (zrange 0 2) with [0; 1]; cbn; ring.
Qed.
From Verif Require Import Pf.Model.
Lemma case_upper : factorised true 4 matrix4 stored4 5 pivots4 /\ utu2pfa 4 stored4 5 pivots4 = RtoC 10 /\
  (exists Y, utu2inv ref_trtri 3 4 stored4 5 pivots4 (fun _ => RtoC 9) 4 = Some Y /\ is_inverse 4 (at_ Y 5) matrix4) /\
  exists Y, utu2inv ref_trtri 64 4 stored4 5 pivots4 (fun _ => RtoC 9) 4 = Some Y /\ is_inverse 4 (at_ Y 5) matrix4.
Proof.
  assert (Ev : Z.Even 4) by now exists 2. assert (N : pf matrix4 (zrange 0 4) <> RtoC 0). { rewrite (proj1 pf4). intros E. apply RtoC_inj in E. lra. }
  split; [exact factorised4|]. split; [change (pfaffian_of true 4 stored4 5 pivots4 = RtoC 10); rewrite (pfaffian_is true 4 matrix4 stored4 5 pivots4 Ev ltac:(lia) factorised4); exact (proj1 pf4)|].
  split; [exact (inverse_when ref_trtri 3 ref_inverts true 4 matrix4 stored4 5 pivots4 (fun _ => RtoC 9) 4 Ev ltac:(lia) ltac:(lia) ltac:(lia) factorised4 N)|exact (inverse_when ref_trtri 64 ref_inverts true 4 matrix4 stored4 5 pivots4 (fun _ => RtoC 9) 4 Ev ltac:(lia) ltac:(lia) ltac:(lia) factorised4 N)].
Qed.
Lemma case_lower : factorised false 4 matrix4l stored4l 4 pivots4l /\ ltl2pfa 4 stored4l 4 pivots4l = RtoC (-10) /\
  exists Y, ltl2inv ref_trtri 3 4 stored4l 4 pivots4l (fun _ => RtoC 9) 4 = Some Y /\ is_inverse 4 (at_ Y 4) matrix4l.
Proof.
  assert (Ev : Z.Even 4) by now exists 2. assert (N : pf matrix4l (zrange 0 4) <> RtoC 0). { rewrite (proj2 pf4). intros E. apply RtoC_inj in E. lra. }
  split; [exact factorised4l|]. split; [change (pfaffian_of false 4 stored4l 4 pivots4l = RtoC (-10)); rewrite (pfaffian_is false 4 matrix4l stored4l 4 pivots4l Ev ltac:(lia) factorised4l); exact (proj2 pf4)|].
  exact (inverse_when ref_trtri 3 ref_inverts false 4 matrix4l stored4l 4 pivots4l (fun _ => RtoC 9) 4 Ev ltac:(lia) ltac:(lia) ltac:(lia) factorised4l N).
Qed.
(** one site, one electron of each spin, pair amplitude 3 *)
Definition table2 : Z -> C := of_list [0; 3; -3; 0].
Lemma case_tables : factorises sktrf2 /\ exists I P, calculate_mall_child 1 1 2 table2 (pfaffian_and_inverse ref_trtri 64 sktrf2 (fun _ => RtoC 9)) (fun _ => 0) 0 0 (fun _ => RtoC 0) (fun _ => RtoC 0) = Some (I, P) /\
  skew_table 1 table2 (0 + 0) /\ on_lattice 1 (2 * 1) (fun _ => 0).
Proof.
  split; [exact sktrf2_factorises|]. unfold calculate_mall_child. cbv zeta. set (buf := fun k => loop 0 2 _ _ (0 * 2 * 2 + k)). unfold pfaffian_and_inverse, sktrf2. cbn [Z.eqb Pos.eqb bind].
  assert (Ev : Z.Even 2) by now exists 1.
  assert (Sk : skew_array 2 buf). { intros i j Hi Hj. assert (Ei : i = 0 \/ i = 1) by lia. assert (Ej : j = 0 \/ j = 1) by lia. destruct Ei as [->| ->], Ej as [->| ->]; unfold at_, buf, loop, table2, of_list; change (zrange 0 2) with [0; 1]; cbn; apply injective_projections; cbn; lra. }
  assert (Hf : factorised true 2 (at_ buf 2) buf 2 (fun j => j + 1)) by (apply (sktrf2_factorises 2 buf); [lia|exact Sk|reflexivity]).
  assert (N : pf (at_ buf 2) (zrange 0 2) <> RtoC 0). { rewrite <- (pfaffian_is true 2 (at_ buf 2) buf 2 (fun j => j + 1) Ev ltac:(lia) Hf). unfold pfaffian_of, utu2pfa. change ((2 + 1) / 2) with 1. unfold loop at 1. change (zrange 0 1) with [0]. cbn [fold_left]. unfold at_, buf, loop, table2, of_list. change (zrange 0 2) with [0; 1]. cbn. intros E. apply (f_equal fst) in E. cbn in E. lra. }
  destruct (inverse_when ref_trtri 64 ref_inverts true 2 (at_ buf 2) buf 2 (fun j => j + 1) (fun _ => RtoC 9) 2 Ev ltac:(lia) ltac:(lia) ltac:(lia) Hf N) as (Y & EY & _). unfold inverse_of in EY. rewrite EY. cbn [bind]. do 2 eexists. split; [reflexivity|]. split.
  - intros x y Hx Hy. assert (Ei : x = 0 \/ x = 1) by lia. assert (Ej : y = 0 \/ y = 1) by lia. destruct Ei as [->| ->], Ej as [->| ->]; cbn; apply injective_projections; cbn; lra.
  - intros k Hk. lia.
Qed.
