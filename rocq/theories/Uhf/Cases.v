(** Concrete Hamiltonians, and a diagonalisation in closed form for one site. *)
From Coq Require Import ZArith List Bool Lia Reals Lra Permutation.
From Coquelicot Require Import Complex.
From Verif Require Import Base.ZLoop Base.RSum Pf.Pfaffian Pf.Spec Slater.Model Green.Spec Green.Cases Ham.Model Ham.Spec Uhf.Model Uhf.Spec Uhf.Rows Uhf.Proofs Uhf.State Uhf.Pass Uhf.Adjoint.
Import ListNotations.
Local Open Scope Z_scope.

(** ** 2 x 2 matrices *)
Section Two.
Variables (p q : R) (z : C).
Definition gap : R := sqrt (((p - q) / 2) ^ 2 + Cmod z ^ 2).
Definition level (k : Z) : R := if k =? 0 then ((p + q) / 2 - gap)%R else ((p + q) / 2 + gap)%R.
Definition norm (k : Z) : R := sqrt (Cmod z ^ 2 + (level k - p) ^ 2).
Definition eigen2 (k i : Z) : C := if i =? 0 then Cmult (RtoC (/ norm k)) z else RtoC ((level k - p) / norm k).
Lemma gap_square : (gap * gap = ((p - q) / 2) ^ 2 + Cmod z ^ 2)%R.
Proof. unfold gap. apply sqrt_sqrt. pose proof (pow2_ge_0 ((p - q) / 2)). pose proof (pow2_ge_0 (Cmod z)). lra. Qed.
Lemma gap_pos : (0 <= gap)%R. Proof. apply sqrt_pos. Qed.
Lemma level_root k : ((level k - p) * (level k - q) = Cmod z ^ 2)%R.
Proof. pose proof gap_square. unfold level. destruct (k =? 0); nra. Qed.
Lemma levels_product : ((level 0 - p) * (level 1 - p) = - Cmod z ^ 2)%R.
Proof. pose proof gap_square. unfold level. cbn. nra. Qed.
Hypothesis Hz : z <> RtoC 0.
Lemma norm_pos k : (0 < norm k)%R.
Proof. unfold norm. apply sqrt_lt_R0. pose proof (Cmod_gt_0 z) as (G & _). specialize (G Hz). pose proof (pow2_ge_0 (level k - p)). nra. Qed.
Lemma norm_square k : (norm k * norm k = Cmod z ^ 2 + (level k - p) ^ 2)%R.
Proof. unfold norm. apply sqrt_sqrt. pose proof (pow2_ge_0 (level k - p)). pose proof (pow2_ge_0 (Cmod z)). lra. Qed.
Lemma mod_square : (fst z * fst z + snd z * snd z = Cmod z ^ 2)%R.
Proof. unfold Cmod. rewrite pow2_sqrt; nra. Qed.
Lemma eigen_first k : Cplus (Cmult (RtoC p) (eigen2 k 0)) (Cmult z (eigen2 k 1)) = Cmult (RtoC (level k)) (eigen2 k 0).
Proof. pose proof (norm_pos k). unfold eigen2. cbn [Z.eqb]. apply injective_projections; cbn; field; lra. Qed.
Lemma eigen_second k : Cplus (Cmult (Cconj z) (eigen2 k 0)) (Cmult (RtoC q) (eigen2 k 1)) = Cmult (RtoC (level k)) (eigen2 k 1).
Proof.
  pose proof (norm_pos k). pose proof mod_square as M. pose proof (level_root k) as L. unfold eigen2. cbn [Z.eqb]. apply injective_projections; cbn; [|field; lra].
  apply (Rmult_eq_reg_r (norm k)); [|lra]. field_simplify; [|lra..]. nra.
Qed.
Lemma eigen_orthonormal k l : 0 <= k < 2 -> 0 <= l < 2 -> Cplus (Cmult (Cconj (eigen2 k 0)) (eigen2 l 0)) (Cmult (Cconj (eigen2 k 1)) (eigen2 l 1)) = kron k l.
Proof.
  intros Hk Hl. pose proof (norm_pos k) as N1. pose proof (norm_pos l) as N2. pose proof mod_square as M.
  assert (E : (fst z * fst z + snd z * snd z + (level k - p) * (level l - p) = if k =? l then norm k * norm l else 0)%R).
  { rewrite M. destruct (Z.eqb_spec k l) as [->|D]; [rewrite norm_square; ring|]. pose proof levels_product. assert (k = 0 /\ l = 1 \/ k = 1 /\ l = 0) as [(-> & ->)|(-> & ->)] by lia; lra. }
  assert (EC : Cplus (Cmult (Cconj (eigen2 k 0)) (eigen2 l 0)) (Cmult (Cconj (eigen2 k 1)) (eigen2 l 1)) = RtoC ((fst z * fst z + snd z * snd z + (level k - p) * (level l - p)) / (norm k * norm l))).
  { unfold eigen2. cbn [Z.eqb]. apply injective_projections; cbn; field; lra. }
  rewrite EC, E. unfold kron. destruct (k =? l); f_equal; field; lra.
Qed.
End Two.
Definition zheev2 (n : Z) (a : Z -> C) : (Z -> R) * (Z -> C) :=
  let p := fst (a 0) in let q := fst (a 3) in let z := a 2 in
  if Ceq_dec z (RtoC 0) then
    if Rle_dec p q then (fun k => if k =? 0 then p else q, fun c => if (c =? 0) || (c =? 3) then RtoC 1 else RtoC 0)
    else (fun k => if k =? 0 then q else p, fun c => if (c =? 0) || (c =? 3) then RtoC 0 else RtoC 1)
  else (level p q z, fun c => eigen2 p q z (c / 2) (c mod 2)).
Lemma zheev2_ok : diagonalises 2 zheev2.
Proof.
  intros a. cbv zeta. unfold zheev2. change (zrange 0 2) with [0; 1]. cbn [csum].
  assert (U00 : upper_part 2 a 0 0 = RtoC (fst (a 0))) by reflexivity. assert (U01 : upper_part 2 a 0 1 = a 2) by reflexivity.
  assert (U10 : upper_part 2 a 1 0 = Cconj (a 2)) by reflexivity. assert (U11 : upper_part 2 a 1 1 = RtoC (fst (a 3))) by reflexivity.
  destruct (Ceq_dec (a 2) (RtoC 0)) as [E|E]; [destruct (Rle_dec _ _) as [L|L]|]; cbn [fst snd]; (split; [|split]).
  1, 4: intros k i Hk Hi; assert (k = 0 \/ k = 1) as [-> | ->] by lia; assert (i = 0 \/ i = 1) as [-> | ->] by lia; rewrite ?U00, ?U01, ?U10, ?U11, ?E; apply injective_projections; cbn; ring.
  1, 3: intros k l Hk Hl; assert (k = 0 \/ k = 1) as [-> | ->] by lia; assert (l = 0 \/ l = 1) as [-> | ->] by lia; apply injective_projections; cbn; ring.
  1, 2: intros k l Hk Hl; assert (k = 0 \/ k = 1) as [-> | ->] by lia; assert (l = 0 \/ l = 1) as [-> | ->] by lia; cbn; try lra; lia.
  - intros k i Hk Hi. assert (EI : forall c, 0 <= c < 2 -> (k * 2 + c) / 2 = k /\ (k * 2 + c) mod 2 = c) by (intros c Hc; pose proof (Z.div_mod (k * 2 + c) 2); pose proof (Z.mod_pos_bound (k * 2 + c) 2); lia).
    destruct (EI 0) as (D0 & M0); [lia|]. destruct (EI 1) as (D1 & M1); [lia|]. destruct (EI i Hi) as (Di & Mi). rewrite D0, M0, D1, M1, Di, Mi.
    assert (i = 0 \/ i = 1) as [-> | ->] by lia; rewrite ?U00, ?U01, ?U10, ?U11.
    + rewrite <- (eigen_first _ _ _ E). ring.
    + rewrite <- (eigen_second _ _ _ E). ring.
  - intros k l Hk Hl. assert (EI : forall k c, 0 <= c < 2 -> (k * 2 + c) / 2 = k /\ (k * 2 + c) mod 2 = c) by (intros k' c Hc; pose proof (Z.div_mod (k' * 2 + c) 2); pose proof (Z.mod_pos_bound (k' * 2 + c) 2); lia).
    destruct (EI k 0) as (-> & ->); [lia|]. destruct (EI k 1) as (-> & ->); [lia|]. destruct (EI l 0) as (-> & ->); [lia|]. destruct (EI l 1) as (-> & ->); [lia|].
    rewrite <- (eigen_orthonormal (fst (a 0)) (fst (a 3)) (a 2) E k l Hk Hl). ring.
  - intros k l Hk Hl. pose proof (gap_pos (fst (a 0)) (fst (a 3)) (a 2)). assert (k = 0 \/ k = 1) as [-> | ->] by lia; assert (l = 0 \/ l = 1) as [-> | ->] by lia; unfold level; cbn [Z.eqb]; try lra; lia.
Qed.

(** ** one site with repulsion in a magnetic field, one electron *)
Definition V1 : wave := {| vS := {| Nsite := 1; Ne := 1; NSPGaussLeg := 1; NMPTrans := 1; NQPOptTrans := 1; NSlater := 1 |}; vQ := vQ V2; vstot := 0; vbeta := vbeta V2; vweight := vweight V2; vpara := vpara V2; vflag := vflag V2; vopt := vopt V2; vsl := vsl V2;
  vT := vT V2; vProj := vProj V2; vFlagRBM := vFlagRBM V2; vM := vM V2; vRBM := vRBM V2 |}.
Definition none1 (k : Z) : Z := 0.
Definition none2 (k c : Z) : Z := 0.
Definition H_field : terms := Terms 1 none1 (fun _ => 4%R) 0 none2 (fun _ => 0%R) 0 none2 (fun _ => 0%R)
  2 (fun k c => if (c =? 1) || (c =? 3) then k else 0) (fun k => RtoC (1 - 2 * IZR k)) 0 none2 (fun _ => 0%R) 0 none2 (fun _ => 0%R) 0 none2 (fun _ => RtoC 0).
Definition G_up : matrix := fun i j => if (i =? 0) && (j =? 0) then RtoC 1 else RtoC 0.
Lemma one_two k : 0 <= k < 2 -> k = 0 \/ k = 1. Proof. lia. Qed.
Lemma H_field_sites : sites_ok V1 H_field.
Proof.
  constructor; cbn [H_field NIntra Intra NInter Inter NHund Hund NTransfer Transfer NPair Pair NExchange Exchange NInterAll InterAll]; intros k Hk; unfold site, spin, none1; change (sites V1) with 1; try lia.
  destruct (one_two k Hk) as [-> | ->]; cbv; intuition discriminate.
Qed.
Lemma H_field_two : two_sites H_field. Proof. split; cbn; intros; lia. Qed.
Lemma H_field_hermitian : files_hermitian 1 H_field.
Proof.
  split; [|split; apply Permutation_refl]. unfold transfers. cbn [H_field NTransfer Transfer ParaTransfer]. change (zrange 0 2) with [0; 1]. cbn [map].
  assert (E : forall x, Cconj (RtoC x) = RtoC x) by (intros; apply Cconj_real). rewrite !E. apply Permutation_refl.
Qed.
Lemma field_ham i j : 0 <= i < 2 -> 0 <= j < 2 -> makeham 1 H_field G_up i j = if i =? j then RtoC (if i =? 0 then -1 else 5) else RtoC 0.
Proof.
  intros Hi Hj. destruct (one_two i Hi) as [-> | ->]; destruct (one_two j Hj) as [-> | ->]; unfold makeham; cbn [H_field NIntra NInter NHund NTransfer NPair NExchange NInterAll]; unfold loop; change (zrange 0 0) with (@nil Z); change (zrange 0 1) with [0]; change (zrange 0 2) with [0; 1]; apply injective_projections; cbn; lra.
Qed.
Lemma G_up_hermitian : hermitian 2 G_up.
Proof. intros i j _ _. unfold G_up. rewrite andb_comm. destruct (_ && _); rewrite Cconj_real; reflexivity. Qed.
Lemma G_up_real i : snd (G_up i i) = 0%R. Proof. unfold G_up. destruct (_ && _); reflexivity. Qed.
Lemma field_diag : exists a, a 0 = RtoC (-1) /\ a 3 = RtoC 5 /\ a 2 = RtoC 0 /\
  forall mix, step 1 H_field 1 zheev2 mix G_up = let '(r, vec) := (fst (zheev2 2 a), fun i j => snd (zheev2 2 a) (i * 2 + j)) in
    let Gn := green 1 (fun l k => Cconj (vec k l)) vec in Pass r (fun l k => Cconj (vec k l)) Gn (cal_energy 1 H_field 1 r Gn) (cal_num 1 Gn) (cal_rest 1 Gn G_up) (mixed Gn mix G_up).
Proof.
  exists (loop 0 2 (fun j a => loop 0 2 (fun i a => upd a (j * 2 + i) (makeham 1 H_field G_up i j)) a) (fun _ => RtoC 0)).
  split; [|split; [|split]].
  - exact (eq_trans (copied 2 (makeham 1 H_field G_up) (fun _ => RtoC 0) 0 0 ltac:(lia) ltac:(lia)) (field_ham 0 0 ltac:(lia) ltac:(lia))).
  - exact (eq_trans (copied 2 (makeham 1 H_field G_up) (fun _ => RtoC 0) 1 1 ltac:(lia) ltac:(lia)) (field_ham 1 1 ltac:(lia) ltac:(lia))).
  - exact (eq_trans (copied 2 (makeham 1 H_field G_up) (fun _ => RtoC 0) 0 1 ltac:(lia) ltac:(lia)) (field_ham 0 1 ltac:(lia) ltac:(lia))).
  - intros mix. unfold step, diag, zheevall. change (2 * 1) with 2. destruct (zheev2 2 _) as (w, v). reflexivity.
Qed.
Lemma field_fixed mix i j : pGreen (step 1 H_field 1 zheev2 mix G_up) i j = G_up i j \/ ~ (0 <= i < 2 /\ 0 <= j < 2).
Proof.
  destruct (Z_lt_ge_dec i 0); [right; lia|]. destruct (Z_lt_ge_dec i 2); [|right; lia]. destruct (Z_lt_ge_dec j 0); [right; lia|]. destruct (Z_lt_ge_dec j 2); [|right; lia]. left.
  destruct field_diag as (a & A0 & A3 & A2 & E). rewrite E. unfold zheev2. rewrite A0, A2, A3. destruct (Ceq_dec (RtoC 0) (RtoC 0)) as [_|D]; [|now destruct D]. cbn [fst RtoC]. destruct (Rle_dec (-1) 5) as [_|D]; [|lra].
  cbn [fst snd pGreen]. unfold green. change (zrange 0 1) with [0]. cbn [csum]. destruct (one_two i ltac:(lia)) as [-> | ->]; destruct (one_two j ltac:(lia)) as [-> | ->]; apply injective_projections; cbn; ring.
Qed.
Lemma field_rest mix : pRest (step 1 H_field 1 zheev2 mix G_up) = 0%R.
Proof.
  pose proof (rest_is V1 H_field 1 zheev2 ltac:(reflexivity) mix G_up) as E. cbv zeta in E. change (sites V1) with 1 in E. rewrite E.
  assert (D : distance2 (2 * 1) G_up (pGreen (step 1 H_field 1 zheev2 mix G_up)) = 0%R).
  { apply rsum_zero. intros i Hi. apply rsum_zero. intros j Hj. apply zrange_in in Hi. apply zrange_in in Hj. destruct (field_fixed mix i j) as [->|N]; [|lia]. replace (Cminus (G_up i j) (G_up i j)) with (RtoC 0) by ring. rewrite Cmod_0. ring. }
  rewrite D, sqrt_0. unfold Rdiv. ring.
Qed.
Lemma field_energy mix : pEnergy (step 1 H_field 1 zheev2 mix G_up) = (-1)%R.
Proof.
  destruct field_diag as (a & A0 & A3 & A2 & E). rewrite E. unfold zheev2. rewrite A0, A2, A3. destruct (Ceq_dec (RtoC 0) (RtoC 0)) as [_|D]; [|now destruct D]. cbn [fst RtoC]. destruct (Rle_dec (-1) 5) as [_|D]; [|lra].
  cbn [fst snd pEnergy]. unfold cal_energy, green. cbn [H_field NIntra NInter NHund NTransfer NPair NExchange NInterAll]. unfold loop; change (zrange 0 0) with (@nil Z); change (zrange 0 1) with [0]; change (zrange 0 2) with [0; 1]. cbn. lra.
Qed.
Lemma field_loop : exists p, iterate 1 H_field 1 zheev2 (/ 1000) (7 / 10) 100 G_up = Some (p, true).
Proof. eexists. cbn [iterate]. cbv zeta. rewrite field_rest. destruct (Rlt_dec 0 (/ 1000)) as [L|L]; [reflexivity|lra]. Qed.

(** ** two sites with all kinds of terms *)
Definition H_full : terms := Terms 2 (fun k => k) (fun k => IZR (4 + k)) 1 (fun _ c => c) (fun _ => 1%R) 1 (fun _ c => c) (fun _ => 2%R)
  2 (fun k c => if c =? 0 then k else if c =? 2 then 1 - k else if c =? 1 then k else 1 - k) (fun k => (1, 1 - 2 * IZR k)%R) 2 (fun k c => (k + c) mod 2) (fun _ => 3%R) 1 (fun _ c => c) (fun _ => 5%R)
  2 (fun k c => if k =? 0 then (if (c =? 2) || (c =? 5) || (c =? 6) || (c =? 7) then 1 else 0) else (if (c =? 0) || (c =? 1) || (c =? 3) || (c =? 4) then 1 else 0)) (fun k => (1, 1 - 2 * IZR k)%R).
Lemma H_full_sites : sites_ok V2 H_full.
Proof.
  constructor; cbn [H_full NIntra Intra NInter Inter NHund Hund NTransfer Transfer NPair Pair NExchange Exchange NInterAll InterAll]; intros k Hk; unfold site, spin; change (sites V2) with 2; try lia.
  all: destruct (one_two k Hk) as [-> | ->]; cbv; intuition discriminate.
Qed.
Lemma H_full_two : two_sites H_full. Proof. split; cbn; intros; lia. Qed.
Lemma H_full_hermitian : files_hermitian 2 H_full.
Proof.
  assert (E0 : Cconj (1, 1 - 2 * IZR 0)%R = (1, 1 - 2 * IZR 1)%R) by (unfold Cconj; cbn; f_equal; lra). assert (E1 : Cconj (1, 1 - 2 * IZR 1)%R = (1, 1 - 2 * IZR 0)%R) by (unfold Cconj; cbn; f_equal; lra).
  split; [|split]; unfold transfers, four_terms, pair_terms; cbn [H_full NTransfer Transfer ParaTransfer NInterAll InterAll ParaInterAll NPair Pair ParaPair]; change (zrange 0 2) with [0; 1]; cbn [map]; rewrite ?E0, ?E1; apply perm_swap.
Qed.
Definition G_half : matrix := fun i j => if i =? j then RtoC (/ 2) else (/ 4, IZR (i - j) / 4)%R.
Lemma G_half_hermitian : hermitian 4 G_half.
Proof. intros i j _ _. unfold G_half. rewrite (Z.eqb_sym j i). destruct (i =? j); [now rewrite Cconj_real|]. unfold Cconj. cbn [fst snd]. f_equal. rewrite !minus_IZR. lra. Qed.
Lemma full_ham : makeham 2 H_full G_half 0 1 = (11 / 4, 3 / 4)%R.
Proof.
  unfold makeham. cbn [H_full NIntra NInter NHund NTransfer NPair NExchange NInterAll]. unfold loop. change (zrange 0 1) with [0]. change (zrange 0 2) with [0; 1]. cbn [fold_left].
  unfold add_transfer, add_intra, add_inter, add_hund, add_exchange, add_pair, add_interall, charge, G_half. cbn [H_full Intra ParaIntra Inter ParaInter Hund ParaHund Transfer ParaTransfer Pair ParaPair Exchange ParaExchange InterAll ParaInterAll].
  apply injective_projections; cbn; lra.
Qed.
