(** Properties C67, C68: the Markov chain *)
From Coq Require Import ZArith List Bool Reals Lia Lra.
From Coquelicot Require Import Complex.
From Verif Require Import Base.ZLoop Base.Checked Base.RSum Proj.Model Slater.Model Rbm.Spec Green.Model Green.Spec Fsz.Spec Gfz.Spec Samp.Prog Samp.Model Samp.Spec Samp.Exec
  Mark.Model Mark.Spec Mark.Balance Mark.BalanceFsz Mark.Link Mark.Cases Mark.Modulo Mark.CasesFsz.
Import ListNotations.
Local Open Scope Z_scope.

(** C67: the weight with which the sampler compares its random number is the ratio of the squared amplitudes of the wave function
    after and before the proposed move, for every proposal from every stored configuration ... *)
Theorem C67_weight : forall I V, wf_input I -> wf_wave V -> fits I V -> forall Orc K w rcnt ip b q p c w1,
  sampled V K w rcnt ip -> propose I Orc w q = Some (p, c) -> proposed c = Some w1 ->
  weight (env_of V K) b w rcnt (sclog K ip) c = Some ((Cmod (psi V (Samp.Model.eleIdx w1)) / Cmod (psi V (Samp.Model.eleIdx w))) ^ 2)%R.
Proof. exact weight_ok. Qed.
Print Assumptions C67_weight.
(** ... also with general spins, where moves may change the spin ... *)
Theorem C67_weight_fsz : forall I V, wf_input I -> wf_fwave V -> fits_fsz I V -> forall Orc G w ip b q p c w1,
  sampled_fsz V G w ip -> is_log (gclog G) -> locals_single I w -> propose_fsz I Orc w q = Some (p, c) -> proposed c = Some w1 ->
  weight_fsz G b w (gclog G ip) c = Some ((Cmod (fpsi V (config V w1)) / Cmod (fpsi V (config V w))) ^ 2)%R.
Proof. exact weight_fsz_ok. Qed.
Print Assumptions C67_weight_fsz.
(** ... the next random word decides between the proposal and the old configuration ... *)
Theorem C67_decision : forall I Orc rank size, wf_input I -> forall (s : st Orc) tr s',
  consistent (Proj.Model.Nsite (T I)) (Samp.Model.Ne I) (wk _ s) -> runs (inner_step I Orc rank size s) tr (Done s') ->
  exists p c, propose I Orc (wk _ s) (Samp.Model.pos _ s) = Some (p, c) /\ decided Orc s s' p c.
Proof. exact step_decided. Qed.
Print Assumptions C67_decision.
Theorem C67_decision_fsz : forall I Orc rank size, wf_input I -> forall (s : st Orc) tr s',
  consistent_fsz (Proj.Model.Nsite (T I)) (Samp.Model.Ne I) (wk _ s) -> locals_single I (wk _ s) -> runs (inner_step_fsz I Orc rank size s) tr (Done s') ->
  exists p c, propose_fsz I Orc (wk _ s) (Samp.Model.pos _ s) = Some (p, c) /\ decided Orc s s' p c.
Proof. exact step_decided_fsz. Qed.
Print Assumptions C67_decision_fsz.
(** ... and the share of the 2^32 words that accept a weight a is min(1,a), up to one word *)
Theorem C67_share : forall a, (0 <= a)%R -> let c := (INR (length (accepting a)) / IZR wordsize)%R in (Rmin 1 a <= c < Rmin 1 a + 1 / IZR wordsize)%R.
Proof. exact accept_share. Qed.
Print Assumptions C67_share.

(** a hop of the up electron onto the down electron costs the factor of double occupancy *)
Definition hop_words (p : Z) : Z := if p =? 2 then 1 else 0.
Definition hop_orc : oracles := with_stream (ex_orc 1) hop_words 4.
Definition lands (o : option (Z * proposal)) : bool :=
  match o with Some (_, c) => match proposed c with Some w1 => (eleIdx w1 0 =? 1) && (eleIdx w1 1 =? 1) | None => false end | None => false end.
Example C67_hop : exists p c, propose (Im 2 0) hop_orc (wm 2 0 1) 0 = Some (p, c) /\
  weight (env_of (Vm 2) Km) (stBuf (stm 2 0 1)) (wm 2 0 1) (fun _ => RtoC 0) (sclog Km (RtoC 1)) c = Some (exp (-1) ^ 2)%R.
Proof.
  assert (L : lands (propose (Im 2 0) hop_orc (wm 2 0 1) 0) = true) by (vm_compute; reflexivity).
  destruct (propose (Im 2 0) hop_orc (wm 2 0 1) 0) as [(p, c)|] eqn:E; [|discriminate]. exists p, c. split; [reflexivity|].
  cbn [lands] in L. destruct (proposed c) as [w1|] eqn:Ec; [|discriminate]. apply andb_prop in L. destruct L as (L0 & L1). apply Z.eqb_eq in L0, L1.
  assert (H01 := legal_m 2 0 1 ltac:(lia) ltac:(lia) ltac:(lia)). assert (D01 := density_m 2 0 1 ltac:(lia) ltac:(lia) ltac:(lia)). assert (D11 := density_m 2 1 1 ltac:(lia) ltac:(lia) ltac:(lia)).
  rewrite (C67_weight (Im 2 0) (Vm 2) (Im_wf 2 0 eq_refl) (Vm_wf 2 eq_refl) (Im_fits 2 0) hop_orc Km (wm 2 0 1) (fun _ => RtoC 0) (RtoC 1) _ 0 p c w1 H01 E Ec).
  f_equal. unfold density in D01, D11. cbn [stW stm Z.eqb Pos.eqb] in D01, D11.
  assert (S : psi (Vm 2) (eleIdx w1) = psi (Vm 2) (eleIdx (wm 2 1 1))).
  { apply psi_same. intros m Hm. apply zrange_in in Hm. destruct (two_m m Hm) as [-> | ->]; [rewrite L0|rewrite L1]; reflexivity. }
  rewrite S. unfold Rdiv. rewrite Rpow_mult_distr, D11, pow_inv, D01. lra.
Qed.
(** a run of the sampler's step that moves an electron and one that does not *)
Definition moves (s' : outcome (st (ex_orc 1))) : bool := match s' with Done s' => negb (forallb (fun m => eleIdx (wk _ s') m =? xm 0 1 m) [0; 1]) | _ => false end.
Definition start_at (p : Z) : st (ex_orc 1) := St (ex_orc 1) p (wm 2 0 1) (fun _ => 0) 0 0.
Definition run_at (p : Z) := exec (inner_step (Im 2 1) (ex_orc 1) 0 1 (start_at p)).
Example C67_run : runs (inner_step (Im 2 1) (ex_orc 1) 0 1 (start_at 0)) (fst (run_at 0)) (snd (run_at 0)) /\
  existsb (fun p => moves (snd (run_at p))) (zrange 0 8) = true /\ existsb (fun p => negb (moves (snd (run_at p)))) (zrange 0 8) = true.
Proof. split; [apply exec_runs|]. split; vm_compute; reflexivity. Qed.

(** C68: detailed balance.  When the number of sites divides 2^32, the flow between two configurations by one step of the sampler
    that reads at most n random words is the same in both directions, with probabilities in proportion to the squared amplitude ... *)
Theorem C68_balance : forall I V, wf_input I -> wf_wave V -> fits I V -> forall Orc n x y,
  wordsize mod Proj.Model.Nsite (T I) = 0 -> legal V x -> legal V y ->
  (density V x * transition I V Orc n x y = density V y * transition I V Orc n y x)%R.
Proof. exact balance. Qed.
Print Assumptions C68_balance.
Theorem C68_balance_fsz : forall I V, wf_input I -> wf_fwave V -> fits_fsz I V -> forall Orc n x y,
  wordsize mod Proj.Model.Nsite (T I) = 0 -> legal_fsz I V x -> legal_fsz I V y ->
  (density_fsz V x * transition_fsz I Orc n x y = density_fsz V y * transition_fsz I Orc n y x)%R.
Proof. exact balance_fsz. Qed.
Print Assumptions C68_balance_fsz.
(** ... for any number of sites up to the bias of the remainders ... *)
Theorem C68_near_balance : forall I V, wf_input I -> wf_wave V -> fits I V -> forall Orc n x y, legal V x -> legal V y ->
  (Rabs (density V x * transition I V Orc n x y - density V y * transition I V Orc n y x) <= Rmax (density V x) (density V y) * bias n (Proj.Model.Nsite (T I)))%R.
Proof. exact near_balance. Qed.
Print Assumptions C68_near_balance.
Theorem C68_near_balance_fsz : forall I V, wf_input I -> wf_fwave V -> fits_fsz I V -> forall Orc n x y, legal_fsz I V x -> legal_fsz I V y ->
  (Rabs (density_fsz V x * transition_fsz I Orc n x y - density_fsz V y * transition_fsz I Orc n y x) <= Rmax (density_fsz V x) (density_fsz V y) * bias n (Proj.Model.Nsite (T I)))%R.
Proof. exact near_balance_fsz. Qed.
Print Assumptions C68_near_balance_fsz.
(** ... so the squared amplitude is stationary on every set of configurations that no step leaves ... *)
Theorem C68_stationary : forall I V, wf_input I -> wf_wave V -> fits I V -> forall Orc n L,
  wordsize mod Proj.Model.Nsite (T I) = 0 -> (forall x, In x L -> legal V x) -> closed I V Orc n L ->
  forall y, In y L -> next I V Orc n L (density V) y = density V y.
Proof. exact stationary. Qed.
Print Assumptions C68_stationary.
Theorem C68_stationary_fsz : forall I V, wf_input I -> wf_fwave V -> fits_fsz I V -> forall Orc n L,
  wordsize mod Proj.Model.Nsite (T I) = 0 -> (forall x, In x L -> legal_fsz I V x) -> closed_fsz I Orc n L ->
  forall y, In y L -> next_fsz I Orc n L (density_fsz V) y = density_fsz V y.
Proof. exact stationary_fsz. Qed.
Print Assumptions C68_stationary_fsz.
(** ... again up to the bias for any number of sites *)
Theorem C68_near_stationary : forall I V, wf_input I -> wf_wave V -> fits I V -> forall Orc n L,
  (forall x, In x L -> legal V x) -> closed I V Orc n L -> forall y, In y L ->
  (Rabs (next I V Orc n L (density V) y - density V y) <= rsum L (fun x => Rmax (density V x) (density V y)) * bias n (Proj.Model.Nsite (T I)))%R.
Proof. exact near_stationary. Qed.
Print Assumptions C68_near_stationary.
Theorem C68_near_stationary_fsz : forall I V, wf_input I -> wf_fwave V -> fits_fsz I V -> forall Orc n L,
  (forall x, In x L -> legal_fsz I V x) -> closed_fsz I Orc n L -> forall y, In y L ->
  (Rabs (next_fsz I Orc n L (density_fsz V) y - density_fsz V y) <= rsum L (fun x => Rmax (density_fsz V x) (density_fsz V y)) * bias n (Proj.Model.Nsite (T I)))%R.
Proof. exact near_stationary_fsz. Qed.
Print Assumptions C68_near_stationary_fsz.
(** The exact statement fails in general: on three sites two configurations of equal amplitude are not exchanged equally often, because
    2^32 mod 3 = 1 makes site 0 more likely than the others *)
Theorem C68_balance_refuted : forall Orc, exists I V x y, wf_input I /\ wf_wave V /\ fits I V /\ legal V x /\ legal V y /\
  density V x = density V y /\ (density V x * transition I V Orc 3 x y < density V y * transition I V Orc 3 y x)%R.
Proof. exact balance_refuted. Qed.
Print Assumptions C68_balance_refuted.

(** two sites, one electron of each spin: four configurations of two different probabilities; hopping, or hopping and exchange *)
Example C68_two_sites : forall ex Orc n y, In y L4 -> next (Im 2 ex) (Vm 2) Orc n L4 (density (Vm 2)) y = density (Vm 2) y.
Proof.
  intros ex Orc n. apply C68_stationary; [apply Im_wf; reflexivity|apply Vm_wf; reflexivity|apply Im_fits|reflexivity|exact L4_legal|apply L4_closed].
Qed.
Example C68_two_sites_density : density (Vm 2) (stm 2 0 0) = (exp (-1) ^ 2)%R /\ density (Vm 2) (stm 2 0 1) = 1%R.
Proof. split; rewrite density_m by lia; reflexivity. Qed.
(** two electrons of any spin on two sites: twelve configurations; [t] = -1 allows spin flips *)
Example C68_general_spins : forall ex t Orc n y, In y L12 -> next_fsz (In' ex t) Orc n L12 (density_fsz Vn) y = density_fsz Vn y.
Proof.
  intros ex t Orc n. apply C68_stationary_fsz; [apply In_wf|exact Vn_wf|apply In_fits|reflexivity|exact (L12_legal ex t)|apply L12_closed].
Qed.
(** for 12 sites and 100 words the bias is at most 100*4/2^32 *)
Example C68_bias : bias 100 12 = (400 / 4294967296)%R.
Proof. unfold bias. change (wordsize mod 12) with 4. change (IZR wordsize) with 4294967296%R. replace (INR 100) with 100%R by (rewrite INR_IZR_INZ; reflexivity). f_equal. lra. Qed.
