(** Strings of operators on the moved configuration. *)
From Coq Require Import ZArith List Bool Lia Reals Lra Permutation FunctionalExtensionality.
From Coquelicot Require Import Complex.
From Verif Require Import Base.ZLoop Base.RSum Pf.Spec Proj.Model Proj.Spec Slater.Model Slater.Spec Rbm.Model Rbm.Spec Samp.Model Samp.Spec Green.Model Green.Spec Green.Anti Ham.Model Ham.Spec Ham.ProofsExt Ham.ProofsLs Grd.Spec Grd.ProofsSum
  Sym.Spec Sym.ProofsPf Sym.ProofsOcc Sym.ProofsMean Inv.Spec.
Import ListNotations.
Local Open Scope Z_scope.

Lemma conj_inv z : Cconj (Cinv z) = Cinv (Cconj z).
Proof. unfold Cinv, Cconj. cbn [fst snd]. replace ((- snd z) ^ 2)%R with (snd z ^ 2)%R by ring. f_equal. unfold Rdiv. ring. Qed.
Lemma nth_labels n m : 0 <= m < n -> nth (Z.to_nat m) (zrange 0 n) 0 = m.
Proof.
  intros H. unfold zrange. rewrite (nth_indep _ 0 (0 + Z.of_nat 0)) by (rewrite map_length, seq_length; lia). rewrite (map_nth (fun i => 0 + Z.of_nat i)). rewrite seq_nth by lia. lia.
Qed.
Section Strings.
Variables (V : wave) (g : Z).
Hypothesis HV : wf_wave V.
Hypothesis HS : symmetry V g.
Notation N := (sites V).
Notation p := (QPTrans (vQ V) g).
Let HN : 0 < N. Proof. exact (proj1 (wv_valid _ HV)). Qed.
Lemma p_perm : permutes N p. Proof. destruct HS as ((after & HG) & _). exact (ge_perm _ _ _ HG). Qed.
Lemma sgn_unit r : site N r -> QPTransSgn (vQ V) g r = 1 \/ QPTransSgn (vQ V) g r = -1. Proof. destruct HS as ((after & HG) & _). exact (ge_unit _ _ _ HG r). Qed.
Lemma orb_moved x m : site N (x m) -> orb V (moved V g x) m = carried V g (orb V x m).
Proof. intros S. unfold carried, orb, orbital, moved. now rewrite lifted_orb. Qed.
Lemma orb_mod x m : site N (x m) -> orb V x m mod N = x m.
Proof. intros S. unfold site in S. unfold orb, orbital. rewrite Z.mod_add by lia. now apply Z.mod_small. Qed.
Lemma carried_mod rs : carried V g rs mod N = p (rs mod N).
Proof. unfold carried, lifted. rewrite Z.mod_add by lia. apply Z.mod_small. apply (proj1 p_perm). now apply Z.mod_pos_bound. Qed.
Lemma upd_lattice x m r : on_lattice V x -> site N r -> on_lattice V (upd x m r).
Proof. intros Hx Hr i Hi. unfold upd. destruct (i =? m); auto. Qed.
Lemma moved_upd x m r : moved V g (upd x m r) = upd (moved V g x) m (p r).
Proof. apply functional_extensionality. intros i. unfold moved, upd. now destruct (i =? m). Qed.
Lemma cprod_upd l (c : Z -> C) x m r : NoDup l -> In m l -> Cmult (c (x m)) (cprod l (fun i => c (upd x m r i))) = Cmult (c r) (cprod l (fun i => c (x i))).
Proof.
  induction l as [|a l IH]; intros ND I; [contradiction|]. apply NoDup_cons_iff in ND. destruct ND as (NI & ND). cbn [cprod]. destruct I as [->|I].
  - rewrite upd_same. assert (E : cprod l (fun i => c (upd x m r i)) = cprod l (fun i => c (x i))).
    { clear -NI. induction l as [|b l IH]; [reflexivity|]. cbn [cprod]. rewrite IH by (intros H; apply NI; now right). rewrite upd_other by (intros E; apply NI; left; congruence). reflexivity. }
    rewrite E. ring.
  - specialize (IH ND I). rewrite upd_other by (intros E; apply NI; congruence). replace (Cmult (c (x m)) (Cmult (c (x a)) (cprod l (fun i => c (upd x m r i))))) with (Cmult (c (x a)) (Cmult (c (x m)) (cprod l (fun i => c (upd x m r i))))) by ring. rewrite IH. ring.
Qed.
Lemma collected_upd x m r : on_lattice V x -> site N r -> In m (labels V) ->
  collected V g (upd x m r) = Cmult (RtoC (IZR (QPTransSgn (vQ V) g r) * IZR (QPTransSgn (vQ V) g (x m)))) (collected V g x).
Proof.
  intros Hx Hr Hm. unfold collected. pose proof (cprod_upd (labels V) (fun r => RtoC (IZR (QPTransSgn (vQ V) g r))) x m r (zrange_NoDup _ _) Hm) as E. cbv beta in E.
  set (c' := cprod _ (fun i => RtoC (IZR (QPTransSgn (vQ V) g (upd x m r i))))) in *. rewrite RtoC_mult. rewrite <- Cmult_assoc, (Cmult_comm (RtoC (IZR (QPTransSgn (vQ V) g (x m))))), Cmult_assoc, <- E.
  destruct (sgn_unit (x m) (Hx m Hm)) as [-> | ->]; apply SR.Proofs.Ceq; cbn; ring.
Qed.
(** f on moved configurations differs by a constant k and the collected signs *)
Definition covariant (k : R) (f f' : (Z -> Z) -> C) : Prop := forall x, on_lattice V x -> Cmult (vpara V g) (f' (moved V g x)) = Cmult (RtoC k) (Cmult (collected V g x) (f x)).
Lemma act_covariant k f f' ab : covariant k f f' -> covariant (carried_sign V g (fst ab) * carried_sign V g (snd ab) * k) (act V ab f) (act V (carried V g (fst ab), carried V g (snd ab)) f').
Proof.
  intros Hf x Hx. unfold act. cbn [fst snd]. rewrite <- !csum_scal. apply csum_ext. intros m Hm. pose proof (Hx m Hm) as Sm. rewrite (orb_moved x m Sm).
  destruct (Z.eqb_spec (orb V x m) (snd ab)) as [E|D].
  - rewrite E, Z.eqb_refl. rewrite carried_mod, <- moved_upd. assert (Sa : site N (fst ab mod N)) by now apply Z.mod_pos_bound. rewrite (Hf _ (upd_lattice x m _ Hx Sa)). rewrite (collected_upd x m _ Hx Sa Hm).
    unfold carried_sign. rewrite <- E, (orb_mod x m Sm). rewrite !RtoC_mult. ring.
  - destruct (Z.eqb_spec (carried V g (orb V x m)) (carried V g (snd ab))) as [E|_]; [|ring]. elim D. exact (lifted_inj _ _ HN p_perm _ _ E).
Qed.
Lemma string_covariant ops : forall k f f', covariant k f f' -> covariant (string_sign V g ops * k) (string V ops f) (string V (carried_string V g ops) f').
Proof.
  induction ops as [|ab ops IH]; intros k f f' Hf.
  - cbn. intros x Hx. rewrite (Hf x Hx). now rewrite Rmult_1_l.
  - cbn [string carried_string map string_sign fold_right]. fold (string_sign V g ops). pose proof (IH _ _ _ (act_covariant k f f' ab Hf)) as G. intros x Hx. refine (eq_trans (G x Hx) _). f_equal. f_equal. ring.
Qed.
Lemma psi_covariant : covariant 1 (psi V) (psi V).
Proof. intros x Hx. rewrite (psi_moved V g x HV HS Hx). ring. Qed.
Lemma string_moved ops x : on_lattice V x -> Cmult (vpara V g) (string V (carried_string V g ops) (psi V) (moved V g x)) = Cmult (RtoC (string_sign V g ops)) (Cmult (collected V g x) (string V ops (psi V) x)).
Proof. intros Hx. pose proof (string_covariant ops 1 _ _ psi_covariant x Hx) as E. now rewrite Rmult_1_r in E. Qed.

Hypothesis Hu : Cmod (vpara V g) = 1%R.
Lemma para_ne : vpara V g <> RtoC 0. Proof. intros E. rewrite E, Cmod_0 in Hu. lra. Qed.
Lemma collected_ne x : on_lattice V x -> collected V g x <> RtoC 0.
Proof. intros Hx E. pose proof (collected_mod V g x HS Hx) as M. rewrite E, Cmod_0 in M. lra. Qed.
Lemma conj_real r : Cconj (RtoC r) = RtoC r. Proof. apply SR.Proofs.Ceq; cbn; lra. Qed.
(** local values *)
Lemma local_moved ops x : on_lattice V x -> psi V x <> RtoC 0 -> local V (carried_string V g ops) (moved V g x) = Cmult (RtoC (string_sign V g ops)) (local V ops x).
Proof.
  intros Hx Hn. unfold local. rewrite <- (conj_real (string_sign V g ops)) at 1. rewrite <- Cmult_conj. f_equal. pose proof para_ne as P. pose proof (collected_ne x Hx) as Q.
  pose proof (string_moved ops x Hx) as E1. pose proof (psi_moved V g x HV HS Hx) as E2. assert (Hn' : psi V (moved V g x) <> RtoC 0).
  { intros Z0. rewrite Z0 in E2. apply (Cmult_neq_0 _ _ Q Hn). rewrite <- E2. ring. }
  replace (Cdiv (string V (carried_string V g ops) (psi V) (moved V g x)) (psi V (moved V g x))) with (Cdiv (Cmult (vpara V g) (string V (carried_string V g ops) (psi V) (moved V g x))) (Cmult (vpara V g) (psi V (moved V g x)))) by (field; split; assumption).
  rewrite E1, E2. field. split; assumption.
Qed.
Lemma sign_square rs : (carried_sign V g rs * carried_sign V g rs = 1)%R.
Proof. unfold carried_sign. destruct (sgn_unit (rs mod N)) as [-> | ->]; [now apply Z.mod_pos_bound|lra|lra]. Qed.
Lemma string_sign_square ops : (string_sign V g ops * string_sign V g ops = 1)%R.
Proof.
  induction ops as [|ab ops IH]; cbn [string_sign fold_right]; [lra|]. fold (string_sign V g ops).
  replace (carried_sign V g (fst ab) * carried_sign V g (snd ab) * string_sign V g ops * (carried_sign V g (fst ab) * carried_sign V g (snd ab) * string_sign V g ops))%R
    with ((carried_sign V g (fst ab) * carried_sign V g (fst ab)) * (carried_sign V g (snd ab) * carried_sign V g (snd ab)) * (string_sign V g ops * string_sign V g ops))%R by ring.
  rewrite !sign_square, IH. ring.
Qed.
Lemma local_value_carried O x : on_lattice V x -> psi V x <> RtoC 0 -> local_value V (carried_observable V g O) (moved V g x) = local_value V O x.
Proof.
  intros Hx Hn. unfold local_value, carried_observable. rewrite csum_map. apply csum_ext. intros t _. cbn [fst snd]. rewrite (local_moved (snd t) x Hx Hn).
  replace (Cmult (Cmult (fst t) (RtoC (string_sign V g (snd t)))) (Cmult (RtoC (string_sign V g (snd t))) (local V (snd t) x))) with (Cmult (fst t) (Cmult (RtoC (string_sign V g (snd t) * string_sign V g (snd t))) (local V (snd t) x))) by (rewrite RtoC_mult; ring).
  rewrite string_sign_square. ring.
Qed.
Lemma moved_lattice x : on_lattice V x -> on_lattice V (moved V g x).
Proof. intros Hx i Hi. apply (proj1 p_perm). now apply Hx. Qed.
(** every configuration is enumerated *)
Lemma enumerated x : on_lattice V x -> exists u, In u (configurations V) /\ same V x (conf u).
Proof.
  intros Hx. exists (map x (labels V)). split.
  - apply X_in. split; [rewrite map_length; unfold labels; rewrite zrange_length; f_equal; lia|]. intros r Hr. apply in_map_iff in Hr. destruct Hr as (m & <- & Hm). exact (Hx m Hm).
  - intros m Hm. unfold conf. pose proof Hm as Hm'. apply zrange_in in Hm'. destruct (Z.leb_spec 0 m); [|lia]. symmetry. rewrite (nth_indep _ 0 (x 0)) by (rewrite map_length; unfold labels; rewrite zrange_length; lia). rewrite map_nth. f_equal. unfold labels. apply nth_labels. lia.
Qed.
Lemma local_applied O x : local_value V O x = Cdiv (applied V O (psi V) x) (Cconj (psi V x)).
Proof.
  unfold local_value, applied, local, Cdiv. rewrite <- csum_scal_r. apply csum_ext. intros t _. rewrite Cmult_conj, conj_inv. ring.
Qed.
Lemma energy_moved O x : invariant V g O -> on_lattice V x -> psi V x <> RtoC 0 -> local_value V O (moved V g x) = local_value V O x.
Proof.
  intros HI Hx Hn. rewrite <- (local_value_carried O x Hx Hn). destruct (enumerated _ (moved_lattice x Hx)) as (u & Hu' & Es).
  assert (A : forall O, local_value V O (moved V g x) = local_value V O (conf u)) by (intros O'; unfold local_value; apply csum_ext; intros t _; now rewrite (local_same V (snd t) _ _ Es)).
  rewrite !A, !local_applied. now rewrite (HI (psi V) u Hu').
Qed.

(** ** expectation values *)
Lemma csum_words {A} (l : list A) (q : A -> A) : Permutation l (map q l) -> forall n F, csum (words l n) (fun u => F (map q u)) = csum (words l n) F.
Proof. intros P n F. apply SR.Proofs.Ceq; rewrite ?csum_re, ?csum_im; [exact (rsum_words l q P n (fun u => fst (F u)))|exact (rsum_words l q P n (fun u => snd (F u)))]. Qed.
Lemma conj_unit a : Cmod a = 1%R -> Cmult (Cconj a) a = RtoC 1.
Proof. intros H. apply SR.Proofs.Ceq; cbn; [|ring]. assert (E : (fst a * fst a + snd a * snd a = 1)%R). { unfold Cmod in H. apply (f_equal (fun t => t * t)%R) in H. rewrite sqrt_sqrt in H by (apply Rplus_le_le_0_compat; apply pow2_ge_0). cbn in H. lra. } lra. Qed.
Lemma pair_moved ops x : on_lattice V x -> Cmult (Cconj (string V (carried_string V g ops) (psi V) (moved V g x))) (psi V (moved V g x)) = Cmult (RtoC (string_sign V g ops)) (Cmult (Cconj (string V ops (psi V) x)) (psi V x)).
Proof.
  intros Hx. pose proof (string_moved ops x Hx) as E1. pose proof (psi_moved V g x HV HS Hx) as E2. apply (f_equal Cconj) in E1. rewrite !Cmult_conj, conj_real in E1.
  pose proof (conj_unit _ Hu) as U. pose proof (conj_unit _ (collected_mod V g x HS Hx)) as U'.
  set (a := Cconj (string V (carried_string V g ops) (psi V) (moved V g x))) in *. set (b := psi V (moved V g x)) in *.
  transitivity (Cmult (Cmult (Cconj (vpara V g)) a) (Cmult (vpara V g) b)).
  - replace (Cmult (Cmult (Cconj (vpara V g)) a) (Cmult (vpara V g) b)) with (Cmult (Cmult (Cconj (vpara V g)) (vpara V g)) (Cmult a b)) by ring. rewrite U. ring.
  - rewrite E1, E2. replace (Cmult (Cmult (RtoC (string_sign V g ops)) (Cmult (Cconj (collected V g x)) (Cconj (string V ops (psi V) x)))) (Cmult (collected V g x) (psi V x)))
      with (Cmult (Cmult (Cconj (collected V g x)) (collected V g x)) (Cmult (RtoC (string_sign V g ops)) (Cmult (Cconj (string V ops (psi V) x)) (psi V x)))) by ring. rewrite U'. ring.
Qed.
Lemma element_moved ops c : Grd.Spec.element V [(c, carried_string V g ops)] (psi V) (psi V) = Cmult (RtoC (string_sign V g ops)) (Grd.Spec.element V [(c, ops)] (psi V) (psi V)).
Proof.
  unfold Grd.Spec.element. rewrite <- csum_scal. pose proof (wv_valid _ HV) as (_ & HNe & _).
  assert (P : Permutation (zrange 0 N) (map p (zrange 0 N))) by (apply permutes_perm; exact p_perm).
  unfold configurations at 1. rewrite <- (csum_words _ _ P). apply csum_ext. intros u Hu'. cbn [csum fst snd].
  pose proof (conf_moved V g u HNe Hu') as Es. rewrite (string_ext V _ _ (psi_ext V) _ _ Es), (psi_ext V _ _ Es).
  pose proof (pair_moved ops (conf u) (conf_lattice V u HN HNe Hu')) as E.
  set (a := Cconj (string V (carried_string V g ops) (psi V) (moved V g (conf u)))) in *. set (b := psi V (moved V g (conf u))) in *. set (a' := Cconj (string V ops (psi V) (conf u))) in *.
  transitivity (Cmult c (Cmult a b)); [ring|]. rewrite E. ring.
Qed.
Theorem expectation_moved ops : expectation V [(RtoC 1, carried_string V g ops)] = Cmult (RtoC (string_sign V g ops)) (expectation V [(RtoC 1, ops)]).
Proof. unfold expectation. rewrite element_moved. unfold Cdiv. ring. Qed.
End Strings.
