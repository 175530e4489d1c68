(** The derivative of the energy is twice the force of exact averages. *)
From Coq Require Import ZArith List Bool Lia Reals Lra FunctionalExtensionality Classical_Prop.
From Coquelicot Require Import Coquelicot.
From Verif Require Import Base.ZLoop Base.RSum Proj.Model Slater.Model Slater.Spec Slater.Derive Slater.ProofsProp Rbm.Model Rbm.Spec Rbm.ProofsDiff Samp.Model Samp.Spec
  Green.Model Green.Spec Green.Anti Green.Core Ham.Model Ham.Spec Ham.Properties SR.Model SR.Spec SR.ProofsEnd Grd.Model Grd.Spec Grd.ProofsDer Grd.ProofsSum Grd.ProofsHerm.
From Verif Require Uhf.Spec.
Import ListNotations.
Local Open Scope Z_scope.

Lemma mod2 z : Rsqr (Cmod z) = (fst z * fst z + snd z * snd z)%R.
Proof. unfold Cmod. rewrite Rsqr_sqrt; [ring|]. pose proof (Rle_0_sqr (fst z)). pose proof (Rle_0_sqr (snd z)). unfold Rsqr in *. cbn [pow]. lra. Qed.
Lemma mod2_pos z : z <> RtoC 0 -> (0 < Rsqr (Cmod z))%R.
Proof. intros H. apply Rlt_0_sqr. intros E. apply H. now apply Cmod_eq_0. Qed.
Lemma mod2_0 : Rsqr (Cmod (RtoC 0)) = 0%R.
Proof. rewrite mod2. cbn. ring. Qed.
Lemma cderive_conj F d : cderive F d -> cderive (fun t => Cconj (F t)) (Cconj d).
Proof. intros [A B]. split; cbn [fst snd Cconj]; [exact A|]. apply (is_derive_opp (fun t => snd (F t))). exact B. Qed.

Section Grad.
Variable V : wave.
Notation X := (configurations V).
Hypothesis HN : 0 < sites V.
Hypothesis HNe : 0 < Slater.Model.Ne (vS V).
Variable O : observable.
Hypothesis Hsa : self_adjoint V O.
Variables (F : R -> (Z -> Z) -> C) (D : (Z -> Z) -> C).
Hypothesis HD : forall u, In u X -> cderive (fun t => F t (conf u)) (D (conf u)).
Notation f := (F R0).
Lemma element_derive : cderive (fun t => element V O (F t) (F t)) (Cplus (element V O D f) (element V O f D)).
Proof.
  unfold element. rewrite <- csum_add.
  apply (cderive_csum X (fun t u => Cmult (csum O (fun s => Cmult (fst s) (Cconj (string V (snd s) (F t) (conf u))))) (F t (conf u)))).
  intros u Hu. apply (cderive_mult (fun t => csum O (fun s => Cmult (fst s) (Cconj (string V (snd s) (F t) (conf u))))) (fun t => F t (conf u))); [|now apply HD].
  apply (cderive_csum O (fun t s => Cmult (fst s) (Cconj (string V (snd s) (F t) (conf u))))). intros s _.
  pose proof (cderive_conj _ _ (string_derive V HN HNe (snd s) F D HD u Hu)) as E.
  pose proof (cderive_mult (fun _ => fst s) _ _ _ (cderive_const (fst s)) E) as M. cbv beta in M.
  match type of M with cderive _ ?v => match goal with |- cderive _ ?w => replace w with v by ring end end. exact M.
Qed.
Lemma norm_derive : is_derive (fun t => norm V (F t)) R0 (2 * fst (bracket V f D))%R.
Proof.
  unfold norm, bracket. rewrite csum_re, <- rsum_scal.
  apply (rsum_derive X (fun t u => Rsqr (Cmod (F t (conf u))))). intros u Hu. destruct (HD u Hu) as [A B].
  apply (is_derive_ext (fun t => (fst (F t (conf u)) * fst (F t (conf u)) + snd (F t (conf u)) * snd (F t (conf u)))%R)); [intros t; now rewrite mod2|].
  assert (sq : forall g d, is_derive g R0 d -> is_derive (fun t => g t * g t)%R R0 (2 * (g R0 * d))%R).
  { intros g d Hg. evar_last; [apply is_derive_Reals; apply (derivable_pt_lim_mult g g); apply is_derive_Reals; exact Hg|].
    match goal with |- @eq _ ?a ?b => change (@eq R a b) end. ring. }
  evar_last; [apply (is_derive_plus (fun t => fst (F t (conf u)) * fst (F t (conf u)))%R (fun t => snd (F t (conf u)) * snd (F t (conf u)))%R); apply sq; eassumption|].
  unfold plus; cbn. ring.
Qed.
Lemma energy_derive : norm V f <> 0%R -> is_derive (fun t => energy V O (F t)) R0 (2 * (fst (element V O f D) / norm V f - energy V O f * (fst (bracket V f D) / norm V f)))%R.
Proof.
  intros Hn. destruct element_derive as [A _].
  evar_last; [apply (is_derive_div (fun t => fst (element V O (F t) (F t))) (fun t => norm V (F t))); [exact A|apply norm_derive|exact Hn]|].
  match goal with |- @eq _ ?a ?b => change (@eq R a b) end.
  rewrite (Hsa D f). unfold energy. cbn [fst Cplus Cconj]. unfold minus, opp, plus, mult, scal; cbn. field. exact Hn.
Qed.
End Grad.

(** ** means *)
Lemma rsum_combine {A B} (l : list A) (m : list B) (g : A -> R) (G : B -> R) (w : A -> R) : length m = length l ->
  (forall a b, In (a, b) (combine l m) -> g a = G b) -> rsum l (fun a => w a * g a)%R = rsum (combine l m) (fun ab => w (fst ab) * G (snd ab))%R.
Proof.
  revert m. induction l as [|a l IH]; intros [|b m] L E; try discriminate; [reflexivity|]. cbn [combine rsum fst snd]. rewrite (E a b) by now left. f_equal. apply IH; [now injection L|]. intros; apply E; now right.
Qed.
Lemma rmean_exact V l xs g G : unbiased V l xs -> (forall s x, In (s, x) (combine (counted l) xs) -> g s = G x) -> rmean l g = mean V (psi V) G.
Proof. intros (L & _ & U) E. unfold rmean. rewrite <- U. f_equal. apply rsum_combine; assumption. Qed.
(** every configuration of non-zero amplitude is sampled *)
Lemma rsum_pos {A} (l : list A) (g : A -> R) a : (forall b, In b l -> 0 <= g b)%R -> In a l -> (0 < g a)%R -> (0 < rsum l g)%R.
Proof.
  induction l as [|b l IH]; intros H Ha P; [destruct Ha|]. cbn [rsum]. assert (0 <= rsum l g)%R by (apply rsum_nonneg; intros; apply H; now right).
  destruct Ha as [->|Ha]; [lra|]. assert (0 <= g b)%R by (apply H; now left). assert (0 < rsum l g)%R by (apply IH; auto; intros; apply H; now right). lra.
Qed.
Lemma norm_pos V g u : In u (configurations V) -> g (conf u) <> RtoC 0 -> (0 < norm V g)%R.
Proof. intros Hu Hg. unfold norm. apply (rsum_pos _ (fun u => Rsqr (Cmod (g (conf u)))) u); [intros; apply Rle_0_sqr|exact Hu|]. now apply mod2_pos. Qed.
Lemma covered V l xs u : unbiased V l xs -> In u (configurations V) -> psi V (conf u) <> RtoC 0 -> exists s, In (s, u) (combine (counted l) xs).
Proof.
  intros (L & _ & U) Hu Hp. set (ind := fun v : list Z => if list_eq_dec Z.eq_dec v u then 1%R else 0%R).
  specialize (U ind). assert (P : (0 < mean V (psi V) ind)%R).
  { unfold mean. apply Rdiv_lt_0_compat; [|exact (norm_pos V _ u Hu Hp)].
    apply (rsum_pos _ (fun l => Rsqr (Cmod (psi V (conf l))) * ind l)%R u); [|exact Hu|].
    - intros v _. apply Rmult_le_pos; [apply Rle_0_sqr|]. unfold ind. destruct list_eq_dec; lra.
    - unfold ind. destruct list_eq_dec; [|congruence]. rewrite Rmult_1_r. now apply mod2_pos. }
  rewrite <- U in P. clear U. destruct (in_dec (list_eq_dec Z.eq_dec) u (map snd (combine (counted l) xs))) as [I|I].
  - apply in_map_iff in I. destruct I as ((s, v) & E & I). cbn in E. subst v. now exists s.
  - exfalso. rewrite rsum_zero in P; [unfold Rdiv in P; lra|]. intros (s, v) Hs. cbn [fst snd]. unfold ind. destruct list_eq_dec as [->|]; [|ring].
    exfalso. apply I. apply in_map_iff. now exists (s, u).
Qed.

Lemma classic_distinct V x : distinct V x \/ exists m m', In m (labels V) /\ In m' (labels V) /\ orb V x m = orb V x m' /\ m <> m'.
Proof.
  destruct (classic (exists m m', In m (labels V) /\ In m' (labels V) /\ orb V x m = orb V x m' /\ m <> m')) as [E|E]; [now right|]. left.
  intros m m' Hm Hm' Eo. destruct (Z.eq_dec m m') as [|Nm]; [assumption|]. exfalso. apply E. now exists m, m'.
Qed.
Lemma norm_nonzero V l xs : unbiased V l xs -> norm V (psi V) <> 0%R.
Proof.
  intros (L & T & U) E. specialize (U (fun _ => 1%R)). rewrite <- (rsum_combine (counted l) xs (fun _ => 1%R) (fun _ => 1%R)) in U; [|exact L|reflexivity].
  unfold mean in U. rewrite E in U. replace (rsum (configurations V) (fun l => Rsqr (Cmod (psi V (conf l))) * 1)%R) with 0%R in U.
  - replace (rsum (counted l) (fun a => wgt a * 1)%R) with (total_weight l) in U by (unfold total_weight; apply rsum_ext; intros; ring).
    unfold Rdiv in U. rewrite Rinv_r in U by exact T. lra.
  - rewrite <- E. unfold norm. apply rsum_ext. intros; ring.
Qed.

Lemma sites_ok_para V0 P H : sites_ok V0 H -> sites_ok (with_para V0 P) H.
Proof. intros [A B C D E F G]. constructor; assumption. Qed.

Section Force.
Variables (V0 : wave) (P : Z -> C).
Notation V := (with_para V0 P).
Hypothesis HV : wf_wave V.
Hypothesis Hcomp : vFlagRBM V0 = true -> complete (vM V0).
Variable H : terms.
Hypothesis Hok : sites_ok V0 H.
Hypothesis Hsp : spins_kept H.
Hypothesis Hh : Uhf.Spec.files_hermitian (sites V0) H.
Variables (l : list sample) (xs : list (list Z)).
Hypothesis Hun : unbiased V l xs.
Hypothesis Hev : forall s u, In (s, u) (combine (counted l) xs) -> evaluated V H s (conf u).
Variable c : Z.
Hypothesis Hc : 0 <= c < 2 * n_para V0.
Variable d : list Z -> C.
Hypothesis Hflat : node_derivatives V0 P c d.
Notation X := (configurations V0).
Definition wf_t (t : R) : (Z -> Z) -> C := psi (with_para V0 (shifted P c t)).
Lemma wf_0 : wf_t R0 = psi V. Proof. unfold wf_t. change R0 with 0%R. now rewrite shifted_0. Qed.
Definition dpsi (y : Z -> Z) : C := (Derive (fun t => fst (wf_t t y)) R0, Derive (fun t => snd (wf_t t y)) R0).
Lemma dpsi_is y v : cderive (fun t => wf_t t y) v -> dpsi y = v.
Proof. intros [A B]. unfold dpsi. destruct v as [a b]. cbn [fst snd] in A, B. f_equal; apply is_derive_unique; assumption. Qed.
Definition N0 : 0 < sites V0 := N_pos V HV.
Definition Ne0 : 0 < Slater.Model.Ne (vS V0) := Ne_pos V HV.
(** what is known about a sample *)
Lemma sample_values s u : In (s, u) (combine (counted l) xs) -> psi V (conf u) <> RtoC 0 /\ ene s = local_value V (hamiltonian V H) (conf u) /\
  cderive (fun t => wf_t t (conf u)) (Cmult (dO c s) (psi V (conf u))).
Proof.
  intros I. destruct (Hev s u I) as (K & w & rcnt & ip & S & junk & Hs & HS & Hx & HE & HO).
  assert (Ex : Samp.Model.eleIdx w = conf u) by (apply functional_extensionality; exact Hx).
  split; [|split].
  - rewrite <- Ex. exact (psi_nz V HV w (sa_tables _ _ _ _ _ Hs) K rcnt ip Hs).
  - pose proof (C59_energy V HV K w rcnt ip Hs H (sites_ok_para V0 P H Hok) Hsp S HS) as E. rewrite HE in E. injection E as E. rewrite <- Ex. exact E.
  - destruct (assembled V0 P HV K w rcnt ip Hs junk Hcomp) as (O' & E & _ & _ & Hd & _). pose proof (eq_trans (eq_sym E) HO) as E'. injection E' as E'.
    specialize (Hd c Hc). apply logd_of in Hd. unfold logd in Hd. unfold dO. rewrite <- E', <- Ex. unfold Vt in Hd. change R0 with 0%R in Hd. rewrite shifted_0 in Hd. exact Hd.
Qed.
Lemma node u : In u X -> psi V (conf u) = RtoC 0 ->
  cderive (fun t => wf_t t (conf u)) (d u) \/ (cderive (fun t => wf_t t (conf u)) (RtoC 0) /\ forall ops, string V0 ops (psi V) (conf u) = RtoC 0).
Proof.
  intros Hu E. destruct (classic_distinct V0 (conf u)) as [Dd|(m & m' & Hm & Hm' & Eo & Nm)].
  - left. apply cderive_spec'. now apply (Hflat u Hu Dd).
  - right. split.
    + apply (cderive_ext (fun _ => RtoC 0)); [|apply cderive_const]. intros t. symmetry. unfold wf_t.
      apply (anti_dup (with_para V0 (shifted P c t)) N0 Ne0 _ (conf u) m m'); try assumption; [|exact (X_lat V0 N0 Ne0 u Hu)].
      apply psi_anti.
    + intros ops. apply (anti_dup V N0 Ne0 _ (conf u) m m'); try assumption; [|exact (X_lat V0 N0 Ne0 u Hu)].
      apply (string_anti V). apply psi_anti.
Qed.
Lemma derivatives u : In u X -> cderive (fun t => wf_t t (conf u)) (dpsi (conf u)).
Proof.
  intros Hu. assert (E : exists v, cderive (fun t => wf_t t (conf u)) v).
  { destruct (Ceq_dec (psi V (conf u)) (RtoC 0)) as [E|E].
    - destruct (node u Hu E) as [A|[A _]]; eexists; exact A.
    - destruct (covered V l xs u Hun Hu E) as (s & I). destruct (sample_values s u I) as (_ & _ & K). eexists. exact K. }
  destruct E as (v & Hd). rewrite (dpsi_is _ _ Hd). exact Hd.
Qed.
Notation e u := (local_value V (hamiltonian V H) (conf u)).
Definition oc (u : list Z) : C := Cdiv (dpsi (conf u)) (psi V (conf u)).
Lemma sample_oc s u : In (s, u) (combine (counted l) xs) -> dO c s = oc u.
Proof. intros I. destruct (sample_values s u I) as (N & _ & D). unfold oc. rewrite (dpsi_is _ _ D). field. exact N. Qed.
Lemma dpsi_oc u : psi V (conf u) <> RtoC 0 -> dpsi (conf u) = Cmult (oc u) (psi V (conf u)).
Proof. intros E. unfold oc. field. exact E. Qed.
Lemma conj_self z : Cmult (Cconj z) z = RtoC (Rsqr (Cmod z)).
Proof. rewrite mod2. destruct z as [a b]. unfold Cconj, Cmult, RtoC; cbn. f_equal; ring. Qed.
Lemma local_sum u : psi V (conf u) <> RtoC 0 -> csum (hamiltonian V0 H) (fun t => Cmult (fst t) (Cconj (string V0 (snd t) (psi V) (conf u)))) = Cmult (e u) (Cconj (psi V (conf u))).
Proof.
  intros E. unfold local_value. rewrite <- csum_scal_r. apply csum_ext. intros t _. unfold local. change (string V) with (string V0). rewrite <- Cmult_assoc, <- Cmult_conj. f_equal. f_equal. field. exact E.
Qed.
Lemma weigh (z : C) u : In u X -> Cmult (csum (hamiltonian V0 H) (fun t => Cmult (fst t) (Cconj (string V0 (snd t) (psi V) (conf u))))) (Cmult z (psi V (conf u))) =
  Cmult (RtoC (Rsqr (Cmod (psi V (conf u))))) (Cmult (e u) z).
Proof.
  intros Hu. destruct (Ceq_dec (psi V (conf u)) (RtoC 0)) as [E|E].
  - rewrite E, mod2_0. ring.
  - rewrite local_sum by exact E. rewrite <- conj_self. ring.
Qed.
Lemma re_scal r z : fst (Cmult (RtoC r) z) = (r * fst z)%R. Proof. destruct z. cbn. ring. Qed.
Lemma mean_force : (fst (element V0 (hamiltonian V0 H) (psi V) dpsi) / norm V0 (psi V))%R =
  (mean V (psi V) (fun u => fst (Cmult (e u) (oc u))) + missed V0 (hamiltonian V0 H) (psi V) d)%R.
Proof.
  unfold mean, missed. change (norm V (psi V)) with (norm V0 (psi V)). rewrite <- Rdiv_plus_distr. f_equal. unfold element. rewrite !csum_re, <- rsum_add. apply rsum_ext. intros u Hu.
  destruct (Ceq_dec (psi V (conf u)) (RtoC 0)) as [E|E].
  - rewrite E, mod2_0, Rmult_0_l, Rplus_0_l. destruct (node u Hu E) as [A|[A B]].
    + now rewrite (dpsi_is _ _ A).
    + rewrite !(csum_zero (hamiltonian V0 H)) by (intros t _; rewrite B, conj_0; ring). now rewrite !Cmult_0_l.
  - rewrite dpsi_oc by exact E. rewrite weigh by exact Hu. rewrite re_scal. cbn [fst RtoC]. ring.
Qed.
Lemma mean_oc : (fst (bracket V0 (psi V) dpsi) / norm V0 (psi V))%R = mean V (psi V) (fun u => fst (oc u)).
Proof.
  unfold mean. change (norm V (psi V)) with (norm V0 (psi V)). f_equal. unfold bracket. rewrite csum_re. apply rsum_ext. intros u Hu.
  destruct (Ceq_dec (psi V (conf u)) (RtoC 0)) as [E|E].
  - rewrite E, mod2_0, conj_0, Cmult_0_l. cbn. ring.
  - rewrite dpsi_oc by exact E. rewrite <- re_scal, <- conj_self. f_equal. ring.
Qed.
Lemma mean_energy : energy V0 (hamiltonian V0 H) (psi V) = mean V (psi V) (fun u => fst (e u)).
Proof.
  unfold energy, mean. change (norm V (psi V)) with (norm V0 (psi V)). f_equal. unfold element. rewrite csum_re. apply rsum_ext. intros u Hu.
  pose proof (weigh (RtoC 1) u Hu) as W. rewrite !Cmult_1_l, Cmult_1_r in W. rewrite W. apply re_scal.
Qed.
(** the force is a covariance *)
Lemma rmean_lin g h a b k : total_weight l <> 0%R -> rmean l (fun s => g s - a * h s - b * k s + a * b)%R = (rmean l g - a * rmean l h - b * rmean l k + a * b)%R.
Proof.
  intros T. unfold rmean. replace (rsum (counted l) (fun x => wgt x * (g x - a * h x - b * k x + a * b))%R) with
    (rsum (counted l) (fun x => wgt x * g x) - a * rsum (counted l) (fun x => wgt x * h x) - b * rsum (counted l) (fun x => wgt x * k x) + total_weight l * (a * b))%R.
  - field. exact T.
  - unfold total_weight. rewrite <- !rsum_scal, <- !rsum_scal_r, <- !rsum_sub, <- rsum_add. apply rsum_ext. intros; ring.
Qed.
Lemma force_is : force l c = (rmean l (fun s => fst (Cmult (ene s) (dO c s))) - rmean l (fun s => fst (ene s)) * rmean l (fun s => fst (dO c s)))%R.
Proof.
  destruct Hun as (_ & T & _). unfold force. cbv zeta. set (E := rmean l (fun s => fst (ene s))). set (Oc := rmean l (fun s => fst (dO c s))).
  transitivity (rmean l (fun s => fst (Cmult (ene s) (dO c s)) - E * fst (dO c s) - Oc * fst (ene s) + E * Oc)%R).
  - unfold rmean. f_equal. apply rsum_ext. intros s _. f_equal. destruct (ene s), (dO c s). cbn. ring.
  - rewrite rmean_lin by exact T. fold E Oc. ring.
Qed.
Lemma force_gradient : derivable_pt_lim (fun t => energy V0 (hamiltonian V0 H) (psi (with_para V0 (shifted P c t)))) 0 (2 * force l c + 2 * missed V0 (hamiltonian V0 H) (psi V) d)%R.
Proof.
  apply is_derive_Reals. pose proof (norm_nonzero V l xs Hun) as Hn. change (norm V (psi V)) with (norm V0 (psi V)) in Hn.
  pose proof (energy_derive V0 N0 Ne0 (hamiltonian V0 H) (files_self_adjoint V0 H N0 Ne0 Hok Hsp Hh) wf_t dpsi derivatives) as E. rewrite wf_0 in E. specialize (E Hn).
  rewrite mean_force, mean_oc, mean_energy in E. rewrite force_is.
  rewrite (rmean_exact V l xs (fun s => fst (Cmult (ene s) (dO c s))) (fun u => fst (Cmult (e u) (oc u))) Hun).
  2:{ intros s u I. rewrite (sample_oc s u I). destruct (sample_values s u I) as (_ & -> & _). reflexivity. }
  rewrite (rmean_exact V l xs (fun s => fst (ene s)) (fun u => fst (e u)) Hun) by (intros s u I; destruct (sample_values s u I) as (_ & -> & _); reflexivity).
  rewrite (rmean_exact V l xs (fun s => fst (dO c s)) (fun u => fst (oc u)) Hun) by (intros s u I; now rewrite (sample_oc s u I)).
  match type of E with is_derive _ _ ?v => match goal with |- is_derive _ _ ?w => replace w with v by ring end end. exact E.
Qed.
Lemma energy_printed : rmean l (fun s => fst (ene s)) = energy V0 (hamiltonian V0 H) (psi V).
Proof.
  rewrite mean_energy. apply (rmean_exact V l xs _ _ Hun). intros s u I. destruct (sample_values s u I) as (_ & -> & _). reflexivity.
Qed.
End Force.

(** ** the step goes downhill *)
Lemma step_downhill l idx del n dt y : 0 <= n -> (forall s, In s (counted l) -> 0 <= wgt s)%R -> (0 < total_weight l)%R -> (0 <= del)%R -> (0 < dt)%R ->
  (forall i, 0 <= i < n -> (rsum (zrange 0 n) (fun j => covMat l idx del i j * y j) = - 2 * dt * force l (idx i))%R) ->
  (rsum (zrange 0 n) (fun i => y i * (2 * force l (idx i))) <= 0)%R /\
  ((0 < del)%R -> (forall i, 0 <= i < n -> (0 < covO l (idx i) (idx i))%R) -> (exists i, 0 <= i < n /\ force l (idx i) <> 0%R) -> (rsum (zrange 0 n) (fun i => y i * (2 * force l (idx i))) < 0)%R).
Proof.
  intros Hn Hw HT Hd Hdt Hy. destruct (cov_props l idx del n Hn Hw HT Hd) as (_ & Hp & Hpd).
  assert (E : rsum (zrange 0 n) (fun i => y i * (2 * force l (idx i)))%R = (- / dt * rsum (zrange 0 n) (fun i => rsum (zrange 0 n) (fun j => y i * covMat l idx del i j * y j)))%R).
  { rewrite <- rsum_scal. apply rsum_ext. intros i Hi. apply zrange_in in Hi. specialize (Hy i Hi).
    replace (rsum (zrange 0 n) (fun j => y i * covMat l idx del i j * y j)%R) with (y i * rsum (zrange 0 n) (fun j => covMat l idx del i j * y j))%R by (rewrite <- rsum_scal; apply rsum_ext; intros; ring).
    rewrite Hy. field. lra. }
  assert (Hi : (0 < / dt)%R) by now apply Rinv_0_lt_compat.
  rewrite E. split.
  - pose proof (Hp y). nra.
  - intros D1 D2 (i & Hi' & Hf). assert (0 < rsum (zrange 0 n) (fun i => rsum (zrange 0 n) (fun j => y i * covMat l idx del i j * y j)))%R; [|nra].
    apply (Hpd D1 D2). destruct (classic (exists i, 0 <= i < n /\ y i <> 0%R)) as [X|X]; [exact X|]. exfalso. apply Hf.
    specialize (Hy i Hi'). rewrite rsum_zero in Hy; [nra|]. intros j Hj. apply zrange_in in Hj. destruct (Req_dec (y j) 0) as [->|Nz]; [ring|]. exfalso. apply X. now exists j.
Qed.
