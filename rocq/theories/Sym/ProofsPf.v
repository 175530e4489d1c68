(** The pair part. *)
From Coq Require Import ZArith List Bool Lia Reals Lra Permutation.
From Coquelicot Require Import Complex.
From Verif Require Import Base.ZLoop Base.RSum Pf.Pfaffian Pf.Spec Proj.Model Proj.Spec Slater.Model Slater.Spec Rbm.Model Rbm.Spec Rbm.ProofsRatio Green.Spec Grd.Spec Sym.Spec.
Import ListNotations.
Local Open Scope Z_scope.

(** ** permutations of ranges *)
Lemma in_zrange n k : In k (zrange 0 n) <-> site n k.
Proof. unfold site. rewrite zrange_in. reflexivity. Qed.
Lemma permutes_perm n p : permutes n p -> Permutation (zrange 0 n) (map p (zrange 0 n)).
Proof.
  intros [H1 H2]. symmetry. apply NoDup_Permutation_bis.
  - assert (N := zrange_NoDup 0 n). assert (A : forall k, In k (zrange 0 n) -> site n k) by (intros k; apply in_zrange).
    induction (zrange 0 n) as [|a l IH]; cbn [map]; [constructor|]. inversion N as [|? ? Na Nl]; subst. constructor.
    + intros I. apply in_map_iff in I. destruct I as (b & E & Ib). apply H2 in E; [subst; contradiction|apply A; now right|apply A; now left].
    + apply IH; [exact Nl|]. intros k Hk. apply A. now right.
  - now rewrite map_length.
  - intros k I. apply in_map_iff in I. destruct I as (b & <- & Ib). apply in_zrange. apply H1. now apply in_zrange.
Qed.
Lemma permutes_inv n p k : permutes n p -> site n k -> exists l, site n l /\ p l = k.
Proof.
  intros Hp Hk. pose proof (Permutation_in _ (permutes_perm n p Hp) (proj2 (in_zrange n k) Hk)) as I. apply in_map_iff in I. destruct I as (l & E & Il).
  exists l. split; [now apply in_zrange|exact E].
Qed.
Lemma csum_map {A B} (g : A -> B) (l : list A) f : csum (map g l) f = csum l (fun x => f (g x)).
Proof. induction l as [|a l IH]; cbn [map csum]; [reflexivity|now rewrite IH]. Qed.
Lemma zsum_map' {A B} (g : A -> B) (l : list A) f : zsum (map g l) f = zsum l (fun x => f (g x)).
Proof. induction l as [|a l IH]; cbn [map zsum]; [reflexivity|now rewrite IH]. Qed.
Lemma cprod_map {A B} (g : A -> B) (l : list A) f : cprod (map g l) f = cprod l (fun x => f (g x)).
Proof. induction l as [|a l IH]; cbn [map cprod]; [reflexivity|now rewrite IH]. Qed.
Lemma cprod_perm {A} (l m : list A) f : Permutation l m -> cprod l f = cprod m f.
Proof. induction 1; cbn [cprod]; [reflexivity|now rewrite IHPermutation|ring|now rewrite IHPermutation1]. Qed.
Lemma csum_permutes n p f : permutes n p -> csum (zrange 0 n) (fun k => f (p k)) = csum (zrange 0 n) f.
Proof. intros H. rewrite <- csum_map. apply csum_perm. symmetry. now apply permutes_perm. Qed.
Lemma zsum_permutes n p f : permutes n p -> zsum (zrange 0 n) (fun k => f (p k)) = zsum (zrange 0 n) f.
Proof. intros H. rewrite <- zsum_map'. apply zsum_perm. symmetry. now apply permutes_perm. Qed.
Lemma cprod_permutes n p f : permutes n p -> cprod (zrange 0 n) (fun k => f (p k)) = cprod (zrange 0 n) f.
Proof. intros H. rewrite <- cprod_map. apply cprod_perm. symmetry. now apply permutes_perm. Qed.

(** ** Pfaffian of rows and columns multiplied by numbers *)
Lemma psum_ext_perm l : forall f g, (forall z r, Permutation l (z :: r) -> f z r = g z r) -> psum l f = psum l g.
Proof.
  induction l as [|y l IH]; intros f g H; cbn [psum]; [reflexivity|]. rewrite (H y l) by reflexivity. rewrite (IH _ (fun z r => g z (y :: r))); [reflexivity|].
  intros z r P. apply H. rewrite P. apply perm_swap.
Qed.
Lemma pf_rows (c : Z -> C) A : forall n l, (length l <= n)%nat -> pf (fun i j => Cmult (Cmult (c i) (c j)) (A i j)) l = Cmult (cprod l c) (pf A l).
Proof.
  induction n as [|n IH]; intros [|x l] Hn; cbn [length] in Hn; try lia; try (rewrite !pf_nil; cbn [cprod]; ring).
  rewrite !pf_cons, <- psum_scal. apply psum_ext_perm. intros z r P. pose proof (Permutation_length P) as L. cbn [length] in L.
  rewrite (IH r ltac:(lia)). cbn [cprod]. rewrite (cprod_perm l (z :: r) c P). cbn [cprod]. ring.
Qed.

(** ** the amplitude of the moved configuration *)
Section Pairs.
Variables (V : wave) (g : Z) (after : Z -> Z).
Hypothesis (HV : valid (vS V) (vQ V) (vflag V)) (HG : group_element V g after).
Let N := sites V. Let S0 := vS V. Let Q := vQ V.
Lemma ge_site r : site N r -> site N (QPTrans Q g r). Proof. intros H. exact (proj1 (ge_perm _ _ _ HG) r H). Qed.
Lemma opt_site o r : site (NQPOptTrans S0) o -> site N r -> site N (QPOptTrans Q o r).
Proof. intros Ho Hr. destruct HV as (_ & _ & _ & _ & _ & _ & _ & H & _). now apply H. Qed.
Lemma image_moved o m r : site (NQPOptTrans S0) o -> site (NMPTrans S0) m -> site N r -> image Q o m (QPTrans Q g r) = image Q o (after m) r.
Proof.
  intros Ho Hm Hr. unfold image. unfold Q. rewrite (ge_opt _ _ _ HG o r Ho Hr). rewrite (ge_map _ _ _ HG m (QPOptTrans (vQ V) o r) Hm (opt_site o r Ho Hr)). reflexivity.
Qed.
Lemma sign_moved o m : site (NQPOptTrans S0) o -> site (NMPTrans S0) m -> exists s, (s = 1 \/ s = -1) /\ forall r, site N r -> sign Q o m (QPTrans Q g r) = s * (QPTransSgn Q g r * sign Q o (after m) r).
Proof.
  intros Ho Hm. destruct (ge_sgn _ _ _ HG m Hm) as (s & Hs & E). exists s. split; [exact Hs|]. intros r Hr. unfold sign, Q. rewrite (ge_opt _ _ _ HG o r Ho Hr). rewrite (E (QPOptTrans (vQ V) o r) (opt_site o r Ho Hr)).
  pose proof (ge_optsgn _ _ _ HG o r Ho Hr) as E2. pose proof (ge_unit _ _ _ HG r Hr) as U.
  assert (U2 : QPTransSgn (vQ V) g r * QPTransSgn (vQ V) g r = 1) by (destruct U as [-> | ->]; reflexivity). assert (U3 : s * s = 1) by (destruct Hs as [-> | ->]; reflexivity).
  unfold Q. set (a := QPTransSgn (vQ V) g r) in *. set (b := QPOptTransSgn (vQ V) o (QPTrans (vQ V) g r)) in *. set (d := QPOptTransSgn (vQ V) o r) in *.
  set (e := QPTransSgn (vQ V) g (QPOptTrans (vQ V) o r)) in *. set (k := QPTransSgn (vQ V) m _).
  replace (s * (a * (d * (s * (e * k))))) with ((s * s) * (a * (d * e) * k)) by ring. rewrite <- E2, U3. replace (1 * (a * (b * a) * k)) with ((a * a) * (b * k)) by ring. rewrite U2. ring.
Qed.
Lemma pair_moved o m r r' : site (NQPOptTrans S0) o -> site (NMPTrans S0) m -> site N r -> site N r' ->
  Slater.Spec.pair Q (vsl V) o m (QPTrans Q g r) (QPTrans Q g r') = Cmult (Cmult (RtoC (IZR (QPTransSgn Q g r))) (RtoC (IZR (QPTransSgn Q g r')))) (Slater.Spec.pair Q (vsl V) o (after m) r r').
Proof.
  intros Ho Hm Hr Hr'. unfold Slater.Spec.pair. destruct (sign_moved o m Ho Hm) as (s & Hs & E). rewrite !image_moved, !E by assumption. assert (U : s * s = 1) by (destruct Hs as [-> | ->]; reflexivity).
  rewrite !Cmult_assoc, <- !RtoC_mult, <- !mult_IZR. do 3 f_equal.
  match goal with |- s * (?a * ?x) * (s * (?b * ?y)) * ?z = _ => replace (s * (a * x) * (s * (b * y)) * z) with ((s * s) * (a * b * (x * y * z))) by ring end. rewrite U. ring.
Qed.
Lemma spin_orbital i x : In i (labels V) -> site N (x i) -> orb V x i mod N = x i /\ orb V x i / N = i / Slater.Model.Ne S0.
Proof.
  intros _ H. unfold orb, orbital. fold N. fold S0. unfold site in H. split; [rewrite Z.mod_add by lia; now apply Z.mod_small|rewrite Z.div_add by lia; rewrite (Z.div_small (x i)) by lia; reflexivity].
Qed.
Lemma element_moved o m h x i j : site (NQPOptTrans S0) o -> site (NMPTrans S0) m -> on_lattice V x -> In i (labels V) -> In j (labels V) ->
  Slater.Spec.element N Q (vsl V) o m h (orb V (moved V g x) i) (orb V (moved V g x) j) =
  Cmult (Cmult (RtoC (IZR (QPTransSgn Q g (x i)))) (RtoC (IZR (QPTransSgn Q g (x j))))) (Slater.Spec.element N Q (vsl V) o (after m) h (orb V x i) (orb V x j)).
Proof.
  intros Ho Hm Hx Hi Hj. pose proof (Hx i Hi) as Xi. pose proof (Hx j Hj) as Xj.
  destruct (spin_orbital i x Hi Xi) as [A1 A2]. destruct (spin_orbital j x Hj Xj) as [B1 B2].
  destruct (spin_orbital i (moved V g x) Hi (ge_site _ Xi)) as [C1 C2]. destruct (spin_orbital j (moved V g x) Hj (ge_site _ Xj)) as [D1 D2].
  unfold Slater.Spec.element. rewrite A1, A2, B1, B2, C1, C2, D1, D2. unfold moved. fold Q. rewrite !pair_moved by assumption. ring.
Qed.
Lemma pfaffian_moved o m s x : site (NQPOptTrans S0) o -> site (NMPTrans S0) m -> on_lattice V x ->
  pfaffian S0 Q (vbeta V) (vsl V) (moved V g x) o m s = Cmult (collected V g x) (pfaffian S0 Q (vbeta V) (vsl V) x o (after m) s).
Proof.
  intros Ho Hm Hx. unfold pfaffian, collected, labels. fold S0. rewrite <- (pf_rows _ _ _ _ (Nat.le_refl _)). apply (pf_ext _ _ _ _ (Nat.le_refl _)).
  intros i j Hi Hj. apply element_moved; assumption.
Qed.
Lemma pairs_moved x : on_lattice V x -> Cmult (vpara V g) (pairs V (moved V g x)) = Cmult (collected V g x) (pairs V x).
Proof.
  intros Hx. unfold pairs, amplitude. fold S0. fold Q. rewrite <- (csum_scal _ (vpara V g)), <- (csum_scal _ (collected V g x)). apply csum_ext. intros o Ho. apply in_zrange in Ho.
  match goal with |- _ = Cmult _ (csum _ ?f) => rewrite <- (csum_permutes (NMPTrans S0) _ f (ge_after _ _ _ HG)) end. rewrite <- !csum_scal. apply csum_ext. intros m Hm. apply in_zrange in Hm. rewrite <- !csum_scal. apply csum_ext. intros s Hs.
  rewrite (pfaffian_moved o m s x Ho Hm Hx). rewrite (ge_weight _ _ _ HG m Hm). ring.
Qed.
End Pairs.
