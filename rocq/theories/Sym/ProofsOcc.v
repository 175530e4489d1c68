(** Correlation factors and machine of the moved configuration. *)
From Coq Require Import ZArith List Bool Lia Reals Lra Permutation.
From Coquelicot Require Import Complex.
From Verif Require Import Base.ZLoop Base.RSum Pf.Spec Proj.Model Proj.Spec Slater.Model Slater.Spec Rbm.Model Rbm.Spec Rbm.ProofsRatio Green.Spec Grd.Spec Sym.Spec Sym.ProofsPf.
Import ListNotations.
Local Open Scope Z_scope.

(** ** spin-orbitals *)
Section Lifted.
Variables (N : Z) (p : Z -> Z).
Hypothesis (HN : 0 < N) (Hp : permutes N p).
Lemma lifted_orb r s : site N r -> lifted N p (r + s * N) = p r + s * N.
Proof. intros H. unfold lifted. unfold site in H. rewrite Z.mod_add by lia. rewrite Z.div_add by lia. rewrite Z.mod_small by lia. rewrite (Z.div_small r) by lia. reflexivity. Qed.
Lemma split_orb rs : rs = rs mod N + rs / N * N. Proof. pose proof (Z.div_mod rs N). lia. Qed.
Lemma mod_site rs : site N (rs mod N). Proof. now apply Z.mod_pos_bound. Qed.
Lemma lifted_inj a b : lifted N p a = lifted N p b -> a = b.
Proof.
  intros E. rewrite (split_orb a), (split_orb b) in *. pose proof (proj1 Hp _ (mod_site a)) as Sa. pose proof (proj1 Hp _ (mod_site b)) as Sb. rewrite !lifted_orb in E by apply mod_site.
  unfold site in *. assert (F : forall q d, 0 <= q < N -> (q + d * N) / N = d) by (intros; rewrite Z.div_add by lia; rewrite Z.div_small by lia; lia).
  assert (Ed : a / N = b / N). { rewrite <- (F _ (a / N) Sa), E. now apply F. } rewrite Ed in *. f_equal. apply (proj2 Hp); try apply mod_site. lia.
Qed.
Lemma lifted_permutes : permutes (2 * N) (lifted N p).
Proof.
  split; [|intros; now apply lifted_inj]. intros k Hk. unfold site in *. unfold lifted. pose proof (proj1 Hp _ (mod_site k)) as Sk. unfold site in Sk.
  assert (0 <= k / N < 2) by (split; [apply Z.div_pos; lia|apply Z.div_lt_upper_bound; lia]). nia.
Qed.
End Lifted.

Lemma occupation_moved V g after x : 0 < sites V -> group_element V g after -> on_lattice V x -> forall rs, occupation V (moved V g x) (lifted (sites V) (QPTrans (vQ V) g) rs) = occupation V x rs.
Proof.
  intros HN HG Hx rs. unfold occupation. assert (E : existsb (fun m => orb V (moved V g x) m =? lifted (sites V) (QPTrans (vQ V) g) rs) (labels V) = existsb (fun m => orb V x m =? rs) (labels V)); [|now rewrite E].
  assert (A : forall l, (forall m, In m l -> In m (labels V)) -> existsb (fun m => orb V (moved V g x) m =? lifted (sites V) (QPTrans (vQ V) g) rs) l = existsb (fun m => orb V x m =? rs) l); [|now apply A].
  induction l as [|m l IH]; intros Hl; [reflexivity|]. cbn [existsb]. rewrite IH by (intros; apply Hl; now right). f_equal.
  pose proof (Hx m (Hl m (or_introl eq_refl))) as S. assert (O : orb V (moved V g x) m = lifted (sites V) (QPTrans (vQ V) g) (orb V x m)).
  { unfold orb, orbital, moved. fold (sites V). now rewrite lifted_orb. }
  rewrite O. destruct (Z.eqb_spec (orb V x m) rs) as [->|Ne]; [apply Z.eqb_refl|]. apply Z.eqb_neq. intros E. apply Ne. exact (lifted_inj _ _ HN (ge_perm _ _ _ HG) _ _ E).
Qed.

(** ** sums over pairs *)
Lemma zsum_after n i f : 0 <= i < n -> zsum (zrange (i + 1) n) f = zsum (zrange 0 n) (fun j => if i <? j then f j else 0).
Proof.
  intros H. rewrite (zrange_app 0 (i + 1) n) by lia. rewrite zsum_app. rewrite (zsum_zero (zrange 0 (i + 1))).
  - rewrite Z.add_0_l. apply zsum_ext. intros j Hj. apply zrange_in in Hj. destruct (Z.ltb_spec i j); [reflexivity|lia].
  - intros j Hj. apply zrange_in in Hj. destruct (Z.ltb_spec i j); [lia|reflexivity].
Qed.
Lemma zsum_pairs n G : (forall i j, 0 <= i < n -> 0 <= j < n -> i <> j -> G i j = G j i) ->
  2 * zsum (zrange 0 n) (fun i => zsum (zrange (i + 1) n) (G i)) = zsum (zrange 0 n) (fun i => zsum (zrange 0 n) (fun j => if i =? j then 0 else G i j)).
Proof.
  intros Hs. rewrite (zsum_ext (zrange 0 n) (fun i => zsum (zrange (i + 1) n) (G i)) (fun i => zsum (zrange 0 n) (fun j => if i <? j then G i j else 0))) by (intros i Hi; apply zrange_in in Hi; now apply zsum_after).
  set (a := zsum _ _). assert (E : a = zsum (zrange 0 n) (fun i => zsum (zrange 0 n) (fun j => if j <? i then G j i else 0))) by (unfold a; now rewrite zsum_swap).
  replace (2 * a) with (a + a) by lia. rewrite E at 2. unfold a. rewrite <- zsum_add. apply zsum_ext. intros i Hi. rewrite <- zsum_add. apply zsum_ext. intros j Hj. apply zrange_in in Hi, Hj.
  destruct (Z.ltb_spec i j), (Z.ltb_spec j i), (Z.eqb_spec i j); try lia; rewrite (Hs j i) by lia; lia.
Qed.

(** ** counters *)
Section Counters.
Variables (T : tables) (p : Z -> Z) (e e' : Z -> Z).
Let N := Proj.Model.Nsite T.
Hypothesis (HN : 0 < N) (HT : wf_tables T) (Hp : permutes N p) (HI : invariant_factors T p) (He : forall rs, e' (lifted N p rs) = e rs).
Lemma occ_moved r : site N r -> occ T e' (p r) = occ T e r.
Proof.
  intros H. unfold occ. fold N. pose proof (He (r + 0 * N)) as E0. pose proof (He (r + 1 * N)) as E1. rewrite lifted_orb in E0, E1 by assumption.
  rewrite Z.mul_0_l, !Z.add_0_r in E0. rewrite Z.mul_1_l in E1. now rewrite E0, E1.
Qed.
Lemma doublon_moved r : site N r -> doublon T e' (p r) = doublon T e r. Proof. intros H. unfold doublon. now rewrite occ_moved. Qed.
Lemma holon_moved r : site N r -> holon T e' (p r) = holon T e r. Proof. intros H. unfold holon. now rewrite occ_moved. Qed.
Lemma gutz_moved k : 0 < NGutzwillerIdx T -> spec_gutz T e' k = spec_gutz T e k.
Proof.
  intros Hg. unfold spec_gutz, count. fold N. rewrite <- (zsum_permutes N p _ Hp). apply zsum_ext. intros r Hr. apply in_zrange in Hr. rewrite doublon_moved by exact Hr. now rewrite (if_gutz _ _ HI Hg r Hr).
Qed.
Lemma jast_moved k : 0 < NJastrowIdx T -> spec_jast T e' k = spec_jast T e k.
Proof.
  intros Hj. assert (A : forall f, 2 * spec_jast T f k = zsum (zrange 0 N) (fun i => zsum (zrange 0 N) (fun j => if i =? j then 0 else if JastrowIdx T i j =? k then (occ T f i - 1) * (occ T f j - 1) else 0))).
  { intros f. unfold spec_jast. fold N. apply (zsum_pairs N (fun i j => if JastrowIdx T i j =? k then (occ T f i - 1) * (occ T f j - 1) else 0)). intros i j Hi Hj' D. rewrite (proj1 (if_jast _ _ HI Hj i j Hi Hj' D)).
    destruct (_ =? k); [ring|reflexivity]. }
  assert (E : 2 * spec_jast T e' k = 2 * spec_jast T e k); [|lia]. rewrite !A. rewrite <- (zsum_permutes N p _ Hp). apply zsum_ext. intros i Hi. rewrite <- (zsum_permutes N p _ Hp). apply zsum_ext. intros j Hj'.
  apply in_zrange in Hi, Hj'. rewrite !occ_moved by assumption. destruct (Z.eqb_spec i j) as [->|D]; [now rewrite Z.eqb_refl|].
  destruct (Z.eqb_spec (p i) (p j)) as [E|_]; [elim D; now apply (proj2 Hp)|]. now rewrite (proj2 (if_jast _ _ HI Hj i j Hi Hj' D)).
Qed.
Lemma count_perm l (a b : Z -> Z) (q q' : Z -> bool) : Permutation (map a l) (map b l) -> (forall j, In j l -> q' (b j) = q j) -> count l (fun j => q' (a j)) = count l q.
Proof.
  intros P H. unfold count. rewrite <- (zsum_map' a l (fun y => if q' y then 1 else 0)). rewrite (zsum_perm _ _ _ P), zsum_map'. apply zsum_ext. intros j Hj. now rewrite H.
Qed.
Lemma dh2_moved xn xi xm : site (NDoublonHolon2siteIdx T) xn -> spec_dh2 T e' xn xi xm = spec_dh2 T e xn xi xm.
Proof.
  intros Hn. unfold spec_dh2. unfold count at 1 2. fold N. rewrite <- (zsum_permutes N p _ Hp). apply zsum_ext. intros r Hr. apply in_zrange in Hr.
  assert (Q : partners2 T e' xn xi (p r) = partners2 T e xn xi r).
  { unfold partners2. apply (count_perm [0; 1] _ (fun j => p (DoublonHolon2siteIdx T xn (2 * r + j))) _ (if xi =? 0 then doublon T e' else holon T e') (if_dh2 _ _ HI xn r Hn Hr)).
    intros j Hj. assert (site N (DoublonHolon2siteIdx T xn (2 * r + j))). { apply (wf_2 _ HT); [exact Hn|]. unfold site in Hr. fold N. cbn in Hj. lia. }
    destruct (xi =? 0); [now rewrite doublon_moved|now rewrite holon_moved]. }
  rewrite Q. destruct (xi =? 0); [now rewrite holon_moved|now rewrite doublon_moved].
Qed.
Lemma dh4_moved xn xi xm : site (NDoublonHolon4siteIdx T) xn -> spec_dh4 T e' xn xi xm = spec_dh4 T e xn xi xm.
Proof.
  intros Hn. unfold spec_dh4. unfold count at 1 2. fold N. rewrite <- (zsum_permutes N p _ Hp). apply zsum_ext. intros r Hr. apply in_zrange in Hr.
  assert (Q : partners4 T e' xn xi (p r) = partners4 T e xn xi r).
  { unfold partners4. apply (count_perm [0; 1; 2; 3] _ (fun j => p (DoublonHolon4siteIdx T xn (4 * r + j))) _ (if xi =? 0 then doublon T e' else holon T e') (if_dh4 _ _ HI xn r Hn Hr)).
    intros j Hj. assert (site N (DoublonHolon4siteIdx T xn (4 * r + j))). { apply (wf_4 _ HT); [exact Hn|]. unfold site in Hr. fold N. cbn in Hj. lia. }
    destruct (xi =? 0); [now rewrite doublon_moved|now rewrite holon_moved]. }
  rewrite Q. destruct (xi =? 0); [now rewrite holon_moved|now rewrite doublon_moved].
Qed.
Lemma counter_moved k : 0 <= k < NProj T -> counter T e' k = counter T e k.
Proof.
  intros Hk. pose proof (wf_ng _ HT). pose proof (wf_nj _ HT). pose proof (wf_n2 _ HT). pose proof (wf_n4 _ HT). unfold NProj in Hk. unfold counter. cbv zeta.
  destruct (Z.ltb_spec k (NGutzwillerIdx T)); [apply gutz_moved; lia|]. destruct (Z.ltb_spec k (NGutzwillerIdx T + NJastrowIdx T)); [apply jast_moved; lia|].
  destruct (Z.ltb_spec k (NGutzwillerIdx T + NJastrowIdx T + 6 * NDoublonHolon2siteIdx T)); [apply dh2_moved|apply dh4_moved]; apply Z.mod_pos_bound; lia.
Qed.
End Counters.

(** ** the machine *)
Section Machine.
Variables (M : machine) (W : Z -> C) (p qC qS qG : Z -> Z) (e e' : Z -> Z).
Let N := Rbm.Model.Nsite M.
Hypothesis (HN : 0 < N) (Hp : permutes N p) (HI : invariant_machine M p qC qS qG) (He : forall rs, e' (lifted N p rs) = e rs).
Lemma charge_moved r : site N r -> charge M e' (p r) = charge M e r.
Proof.
  intros H. unfold charge. fold N. pose proof (He (r + 0 * N)) as E0. pose proof (He (r + 1 * N)) as E1. rewrite lifted_orb in E0, E1 by assumption.
  rewrite Z.mul_0_l, !Z.add_0_r in E0. rewrite Z.mul_1_l in E1. now rewrite E0, E1.
Qed.
Lemma spin_moved r : site N r -> spin M e' (p r) = spin M e r.
Proof.
  intros H. unfold spin. fold N. pose proof (He (r + 0 * N)) as E0. pose proof (He (r + 1 * N)) as E1. rewrite lifted_orb in E0, E1 by assumption.
  rewrite Z.mul_0_l, !Z.add_0_r in E0. rewrite Z.mul_1_l in E1. now rewrite E0, E1.
Qed.
Lemma general_moved rs : general e' (lifted N p rs) = general e rs.
Proof. unfold general. now rewrite He. Qed.
Lemma visible_moved : visible M W e' = visible M W e.
Proof.
  unfold visible. fold N. f_equal; [f_equal|].
  - destruct (Z.ltb_spec 0 (NPhysC M)); [|reflexivity]. rewrite <- (csum_permutes N p _ Hp). apply csum_ext. intros r Hr. apply in_zrange in Hr. rewrite charge_moved by exact Hr. now rewrite (im_physC _ _ _ _ _ HI).
  - destruct (Z.ltb_spec 0 (NPhysS M)); [|reflexivity]. rewrite <- (csum_permutes N p _ Hp). apply csum_ext. intros r Hr. apply in_zrange in Hr. rewrite spin_moved by exact Hr. now rewrite (im_physS _ _ _ _ _ HI).
  - destruct (Z.ltb_spec 0 (NPhysG M)); [|reflexivity]. rewrite <- (csum_permutes (2 * N) _ _ (lifted_permutes N p HN Hp)). apply csum_ext. intros r Hr. apply in_zrange in Hr. rewrite general_moved. unfold N. now rewrite (im_physG _ _ _ _ _ HI).
Qed.
Lemma thetaC_moved h : site (NneuronC M) h -> thetaC M W e' (qC h) = thetaC M W e h.
Proof.
  intros Hh. unfold thetaC. fold N. f_equal.
  - destruct (Z.ltb_spec 0 (NHidC M)); [|reflexivity]. now rewrite (im_hidC _ _ _ _ _ HI).
  - destruct (Z.ltb_spec 0 (NPhC M)); [|reflexivity]. rewrite <- (csum_permutes N p _ Hp). apply csum_ext. intros r Hr. apply in_zrange in Hr. rewrite charge_moved by exact Hr. now rewrite (im_phC _ _ _ _ _ HI).
Qed.
Lemma thetaS_moved h : site (NneuronS M) h -> thetaS M W e' (qS h) = thetaS M W e h.
Proof.
  intros Hh. unfold thetaS. fold N. f_equal.
  - destruct (Z.ltb_spec 0 (NHidS M)); [|reflexivity]. now rewrite (im_hidS _ _ _ _ _ HI).
  - destruct (Z.ltb_spec 0 (NPhS M)); [|reflexivity]. rewrite <- (csum_permutes N p _ Hp). apply csum_ext. intros r Hr. apply in_zrange in Hr. rewrite spin_moved by exact Hr. now rewrite (im_phS _ _ _ _ _ HI).
Qed.
Lemma thetaG_moved h : site (NneuronG M) h -> thetaG M W e' (qG h) = thetaG M W e h.
Proof.
  intros Hh. unfold thetaG. fold N. f_equal.
  - destruct (Z.ltb_spec 0 (NHidG M)); [|reflexivity]. now rewrite (im_hidG _ _ _ _ _ HI).
  - destruct (Z.ltb_spec 0 (NPhG M)); [|reflexivity]. rewrite <- (csum_permutes (2 * N) _ _ (lifted_permutes N p HN Hp)). apply csum_ext. intros r Hr. apply in_zrange in Hr. rewrite general_moved. unfold N. now rewrite (im_phG _ _ _ _ _ HI).
Qed.
Lemma machine_moved : machine_weight M W e' = machine_weight M W e.
Proof.
  unfold machine_weight. rewrite visible_moved. f_equal. unfold hidden. f_equal; [f_equal|].
  - rewrite <- (cprod_permutes _ _ _ (im_qC _ _ _ _ _ HI)). apply cprod_ext. intros h Hh. apply in_zrange in Hh. now rewrite thetaC_moved.
  - rewrite <- (cprod_permutes _ _ _ (im_qS _ _ _ _ _ HI)). apply cprod_ext. intros h Hh. apply in_zrange in Hh. now rewrite thetaS_moved.
  - rewrite <- (cprod_permutes _ _ _ (im_qG _ _ _ _ _ HI)). apply cprod_ext. intros h Hh. apply in_zrange in Hh. now rewrite thetaG_moved.
Qed.
End Machine.

(** ** the wave function *)
Lemma psi_moved_core V g x : valid (vS V) (vQ V) (vflag V) -> wf_tables (vT V) -> Proj.Model.Nsite (vT V) = sites V /\ Rbm.Model.Nsite (vM V) = sites V -> symmetry V g -> on_lattice V x -> Cmult (vpara V g) (psi V (moved V g x)) = Cmult (collected V g x) (psi V x).
Proof.
  intros Hv HT Hsi ((after & HG) & HF & HM) Hx. assert (HN : 0 < sites V) by (destruct Hv as (H & _); exact H). destruct Hsi as (N1 & N2).
  pose proof (occupation_moved V g after x HN HG Hx) as He.
  assert (E1 : correlation V (occupation V (moved V g x)) = correlation V (occupation V x)).
  { unfold correlation. f_equal. apply rsum_ext. intros k Hk. apply zrange_in in Hk. do 2 f_equal. rewrite <- N1 in He, HN. pose proof (ge_perm _ _ _ HG) as P. rewrite <- N1 in P.
    exact (counter_moved (vT V) (QPTrans (vQ V) g) _ _ HN HT P HF He k Hk). }
  assert (E2 : boltzmann V (occupation V (moved V g x)) = boltzmann V (occupation V x)).
  { unfold boltzmann. destruct (vFlagRBM V); [|reflexivity]. destruct (HM eq_refl) as (qC & qS & qG & HI). rewrite <- N2 in He, HN. pose proof (ge_perm _ _ _ HG) as P. rewrite <- N2 in P.
    exact (machine_moved (vM V) (vRBM V) (QPTrans (vQ V) g) qC qS qG _ _ HN P HI He). }
  unfold psi. rewrite E1, E2. pose proof (pairs_moved V g after Hv HG x Hx) as E3.
  transitivity (Cmult (Cmult (RtoC (correlation V (occupation V x))) (boltzmann V (occupation V x))) (Cmult (vpara V g) (pairs V (moved V g x)))); [ring|]. rewrite E3. ring.
Qed.
Theorem psi_moved V g x : wf_wave V -> symmetry V g -> on_lattice V x -> Cmult (vpara V g) (psi V (moved V g x)) = Cmult (collected V g x) (psi V x).
Proof. intros HV. exact (psi_moved_core V g x (wv_valid _ HV) (wv_T _ HV) (wv_sites _ HV)). Qed.
