(** Overlaps computed by the program and expectation values. *)
From Coq Require Import ZArith List Bool Lia Reals Lra Permutation FunctionalExtensionality.
From Coquelicot Require Import Complex.
From Verif Require Import Base.ZLoop Base.RSum Pf.Spec Proj.Model Proj.Spec Slater.Model Slater.Spec Rbm.Model Rbm.Spec Rbm.ProofsRatio Samp.Model Samp.Spec Green.Spec Green.Core Ham.ProofsExt Grd.Spec Grd.ProofsSum Sym.Spec Sym.ProofsPf Sym.ProofsOcc.
Import ListNotations.
Local Open Scope Z_scope.

Lemma consistent_on_lattice V w : wf_wave V -> consistent (sites V) (Slater.Model.Ne (vS V)) w -> on_lattice V (Samp.Model.eleIdx w).
Proof.
  intros HV Hc i Hi. unfold labels in Hi. apply zrange_in in Hi. unfold site. assert (Ne0 : 0 < Slater.Model.Ne (vS V)) by lia. set (ne := Slater.Model.Ne (vS V)) in *.
  destruct (c_elec _ _ _ Hc (i mod ne) (i / ne)) as (r & E & R & _).
  - now apply Z.mod_pos_bound.
  - split; [apply Z.div_pos; lia|]. assert (i / ne < 2) by (apply Z.div_lt_upper_bound; lia). lia.
  - assert (D : i mod ne + i / ne * ne = i) by (pose proof (Z.div_mod i ne); lia). rewrite D in E. now rewrite E.
Qed.
(** the overlaps the program computes in a configuration and in the moved one *)
Lemma overlap_moved V g K w rcnt ip K' w' rcnt' ip' : wf_wave V -> symmetry V g -> sampled V K w rcnt ip -> sampled V K' w' rcnt' ip' ->
  (forall i, In i (labels V) -> Samp.Model.eleIdx w' i = QPTrans (vQ V) g (Samp.Model.eleIdx w i)) -> Cmult (vpara V g) ip' = Cmult (collected V g (Samp.Model.eleIdx w)) ip.
Proof.
  intros HV ((after & HG) & _) S1 S2 Hm. rewrite (ip_pairs V HV w (sa_tables _ _ _ _ _ S1) K rcnt ip S1), (ip_pairs V HV w' (sa_tables _ _ _ _ _ S2) K' rcnt' ip' S2).
  rewrite (pairs_ext V (Samp.Model.eleIdx w') (moved V g (Samp.Model.eleIdx w)) Hm). apply (pairs_moved V g after (wv_valid _ HV) HG). exact (consistent_on_lattice V w HV (sa_tables _ _ _ _ _ S1)).
Qed.
(** ** probabilities *)
Lemma sign_mod s : s = 1 \/ s = -1 -> Cmod (RtoC (IZR s)) = 1%R.
Proof. intros [-> | ->]; rewrite Cmod_R; [rewrite Rabs_R1; reflexivity|]. rewrite Rabs_left by lra. lra. Qed.
Lemma cprod_mod {A} (l : list A) f : (forall a, In a l -> Cmod (f a) = 1%R) -> Cmod (cprod l f) = 1%R.
Proof. induction l as [|a l IH]; intros H; cbn [cprod]; [apply Cmod_1|]. rewrite Cmod_mult, H by now left. rewrite IH by (intros; apply H; now right). lra. Qed.
Lemma collected_mod V g x : symmetry V g -> on_lattice V x -> Cmod (collected V g x) = 1%R.
Proof. intros ((after & HG) & _) Hx. apply cprod_mod. intros i Hi. apply sign_mod. apply (ge_unit _ _ _ HG). now apply Hx. Qed.
Lemma modulus_moved V g x : wf_wave V -> symmetry V g -> Cmod (vpara V g) = 1%R -> on_lattice V x -> Cmod (psi V (moved V g x)) = Cmod (psi V x).
Proof.
  intros HV Hs H1 Hx. pose proof (f_equal Cmod (psi_moved V g x HV Hs Hx)) as E. rewrite !Cmod_mult, H1, (collected_mod V g x Hs Hx) in E. lra.
Qed.
Lemma rsum_words {A} (l : list A) (p : A -> A) : Permutation l (map p l) -> forall n F, rsum (words l n) (fun u => F (map p u)) = rsum (words l n) F.
Proof.
  intros P. induction n as [|n IH]; intros F; cbn [words]; [reflexivity|]. rewrite !rsum_flat_map.
  rewrite (rsum_ext l (fun x => rsum (map (cons x) (words l n)) (fun u => F (map p u))) (fun x => rsum (words l n) (fun u => F (p x :: u)))).
  2:{ intros a _. rewrite rsum_map. exact (IH (fun u => F (p a :: u))). }
  rewrite <- (rsum_map p l (fun b => rsum (words l n) (fun u => F (b :: u)))). rewrite <- (rsum_perm _ _ _ P). apply rsum_ext. intros a _. now rewrite rsum_map.
Qed.
Lemma conf_map p u m : 0 <= m < Z.of_nat (length u) -> conf (map p u) m = p (conf u m).
Proof.
  intros H. unfold conf. destruct (Z.leb_spec 0 m); [|lia]. rewrite (nth_indep (map p u) 0 (p 0)) by (rewrite map_length; lia). apply map_nth.
Qed.
Lemma conf_lattice V u : 0 < sites V -> 0 < Slater.Model.Ne (vS V) -> In u (configurations V) -> on_lattice V (conf u).
Proof. intros HN HNe Hu i Hi. exact (X_lat V HN HNe u Hu i Hi). Qed.
Lemma conf_moved V g u : 0 < Slater.Model.Ne (vS V) -> In u (configurations V) -> forall m, In m (labels V) -> conf (map (QPTrans (vQ V) g) u) m = moved V g (conf u) m.
Proof.
  intros HNe Hu m Hm. apply conf_map. apply X_in in Hu. destruct Hu as (L & _). unfold labels in Hm. apply zrange_in in Hm. rewrite L. lia.
Qed.
(** expectation values of a function of the configuration and of the same function of the moved configuration *)
Lemma mean_moved V g F : wf_wave V -> symmetry V g -> Cmod (vpara V g) = 1%R -> mean V (psi V) (fun u => F (map (QPTrans (vQ V) g) u)) = mean V (psi V) F.
Proof.
  intros HV Hs H1. pose proof (wv_valid _ HV) as (HN & HNe & _). unfold mean. f_equal. unfold configurations.
  assert (P : Permutation (zrange 0 (sites V)) (map (QPTrans (vQ V) g) (zrange 0 (sites V)))). { destruct Hs as ((after & HG) & _). apply permutes_perm. exact (ge_perm _ _ _ HG). }
  rewrite <- (rsum_words _ _ P _ (fun u => Rsqr (Cmod (psi V (conf u))) * F u)%R). apply rsum_ext. intros u Hu. f_equal. f_equal.
  rewrite (psi_ext V (conf (map (QPTrans (vQ V) g) u)) (moved V g (conf u)) (conf_moved V g u HNe Hu)). symmetry. apply modulus_moved; try assumption. now apply conf_lattice.
Qed.
Lemma mean_ext V f F G : (forall u, In u (configurations V) -> F u = G u) -> mean V f F = mean V f G.
Proof. intros H. unfold mean. f_equal. apply rsum_ext. intros u Hu. now rewrite H. Qed.
Lemma occupation_conf V g after u a : 0 < sites V -> 0 < Slater.Model.Ne (vS V) -> group_element V g after -> In u (configurations V) ->
  occupation V (conf (map (QPTrans (vQ V) g) u)) (lifted (sites V) (QPTrans (vQ V) g) a) = occupation V (conf u) a.
Proof.
  intros HN HNe HG Hu. rewrite (occupation_same V _ (moved V g (conf u)) (conf_moved V g u HNe Hu)). apply (occupation_moved V g after (conf u) HN HG). now apply conf_lattice.
Qed.
Lemma density_moved V g a : wf_wave V -> symmetry V g -> Cmod (vpara V g) = 1%R -> density V (lifted (sites V) (QPTrans (vQ V) g) a) = density V a.
Proof.
  intros HV Hs H1. pose proof (wv_valid _ HV) as (HN & HNe & _). unfold density. rewrite <- (mean_moved V g _ HV Hs H1). destruct Hs as ((after & HG) & _). apply mean_ext. intros u Hu.
  now rewrite (occupation_conf V g after u a HN HNe HG Hu).
Qed.
Lemma joint_moved V g a b : wf_wave V -> symmetry V g -> Cmod (vpara V g) = 1%R -> joint V (lifted (sites V) (QPTrans (vQ V) g) a) (lifted (sites V) (QPTrans (vQ V) g) b) = joint V a b.
Proof.
  intros HV Hs H1. pose proof (wv_valid _ HV) as (HN & HNe & _). unfold joint. rewrite <- (mean_moved V g _ HV Hs H1). destruct Hs as ((after & HG) & _). apply mean_ext. intros u Hu.
  now rewrite !(occupation_conf V g after u _ HN HNe HG Hu).
Qed.
