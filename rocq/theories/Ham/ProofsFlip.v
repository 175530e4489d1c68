(** Double occupation; the anticommutation rule behind [local_two]; terms that change spins. *)
From Coq Require Import ZArith List Bool Lia Reals Lra Permutation FunctionalExtensionality.
From Coquelicot Require Import Complex.
From Verif Require Import Base.ZLoop Base.Checked Base.RSum Pf.Pfaffian Proj.Model Proj.Spec Pf.Spec Slater.Model Slater.Spec Rbm.Model Samp.Model Samp.Spec Green.Model Green.Spec Green.Anti Green.Moves Green.Core Green.Proofs Green.ProofsAlg Green.Cases
  Ham.Model Ham.Spec Ham.ProofsExt Ham.Proofs.
From Verif Require SR.Proofs.
Notation Ceq := SR.Proofs.Ceq (only parsing).
Import ListNotations.
Local Open Scope Z_scope.

(** ** double occupation *)
Section Double.
Variable V : wave.
Hypothesis HV : wf_wave V.
Variables (K : setting) (w : walker) (rcnt : Z -> C) (ip : C).
Hypothesis HS : sampled V K w rcnt ip.
Let x := Samp.Model.eleIdx w.
Let e := Samp.Model.eleNum w.
Let N := sites V.
Lemma real_runs (f : Z -> R -> option R) (T : Z -> R) l : forall v, (forall i v, In i l -> f i v = Some (v + T i)%R) ->
  exists v', runs l f v = Some v' /\ RtoC v' = Cplus (RtoC v) (csum l (fun i => RtoC (T i))).
Proof.
  induction l as [|i l IH]; intros v Hf; [exists v; split; [reflexivity|cbn; ring]|]. rewrite runs_cons, Hf by now left. cbn [bind].
  destruct (IH (v + T i)%R) as (v' & E & Hv); [intros; apply Hf; now right|]. exists v'. split; [exact E|]. rewrite Hv, RtoC_plus. cbn [csum]. ring.
Qed.
Lemma double_ok P : execution (fun _ => N) P -> exists d, double_occupation (env_of V K) e P = Some d /\ RtoC d = local_value V (doublons V) x.
Proof.
  intros HP. unfold double_occupation. change (gNsite (env_of V K)) with N.
  set (T := fun r => IZR (e r * e (r + N))).
  assert (Hth : forall t, In t (zrange 0 (threads P)) -> exists v, runs (plan P 0 t) (fun ri v => bind (rd (2 * N) e ri) (fun a => bind (rd (2 * N) e (ri + N)) (fun b => Some (v + IZR (a * b))%R))) 0%R = Some v /\ RtoC v = csum (plan P 0 t) (fun r => RtoC (T r))).
  { intros t Ht. destruct (real_runs (fun ri v => bind (rd (2 * N) e ri) (fun a => bind (rd (2 * N) e (ri + N)) (fun b => Some (v + IZR (a * b))%R))) T (plan P 0 t) 0%R) as (v & E & Hv).
    { intros i v Hi. assert (0 <= i < N) by exact (plan_in (fun _ => N) P 0 t i HP ltac:(lia) Ht Hi). rewrite !rd_ok by lia. reflexivity. }
    exists v. split; [exact E|]. rewrite Hv. ring. }
  assert (Hall : forall l d, (forall t, In t l -> In t (zrange 0 (threads P))) -> exists d',
    runs l (fun t db => bind (runs (plan P 0 t) (fun ri v => bind (rd (2 * N) e ri) (fun a => bind (rd (2 * N) e (ri + N)) (fun b => Some (v + IZR (a * b))%R))) 0%R) (fun v => Some (db + v)%R)) d = Some d' /\
    RtoC d' = Cplus (RtoC d) (csum l (fun t => csum (plan P 0 t) (fun r => RtoC (T r))))).
  { induction l as [|t l IH]; intros d Hl; [exists d; split; [reflexivity|cbn; ring]|]. rewrite runs_cons. destruct (Hth t (Hl t (or_introl eq_refl))) as (v & E & Hv). rewrite E. cbn [bind].
    destruct (IH (d + v)%R) as (d' & E' & Hd); [intros; apply Hl; now right|]. exists d'. split; [exact E'|]. rewrite Hd, RtoC_plus, Hv. cbn [csum]. ring. }
  destruct (Hall (zrange 0 (threads P)) 0%R (fun t H => H)) as (d & E & Hd). exists d. split; [exact E|]. rewrite Hd.
  rewrite (plan_sum (fun _ => N) P 0 (fun r => RtoC (T r)) HP) by lia. unfold local_value, doublons. rewrite SR.Proofs.csum_map. fold N. rewrite Cplus_0_l. apply csum_ext.
  intros r Hr. apply zrange_in in Hr. cbn [fst snd]. change [number r; number (r + N)] with ([] ++ [number r; number (r + N)]).
  unfold x. rewrite (local_numbers V HV w (sa_tables _ _ _ _ _ HS)) by (fold N; lia). rewrite (local_nil V HV K w rcnt ip HS). fold e. unfold T. ring.
Qed.
End Double.

(** ** anticommutation *)
Section Anticomm.
Variable V : wave.
Hypothesis HV : wf_wave V.
Let N := sites V.
Let HN : 0 < N := N_pos V HV.
Let HNe : 0 < Slater.Model.Ne (vS V) := Ne_pos V HV.
Lemma off_opp a b c d f x : anti V f -> lattice V x -> b / N = d / N -> off V a b c d f x = Copp (off V a d c b f x).
Proof.
  intros Hf Hx Hbd. unfold off. rewrite <- csum_opp. rewrite csum_swap. rewrite (csum_ext (labels V) (fun m => Copp _) (fun m => csum (labels V) (fun m' => Copp
    (if m =? m' then RtoC 0 else if (orb V x m =? b) && (orb V x m' =? d) then f (upd (upd x m (c mod sites V)) m' (a mod sites V)) else RtoC 0)))) by (intros m _; now rewrite csum_opp).
  apply csum_ext. intros m Hm. apply csum_ext. intros m' Hm'. rewrite (Z.eqb_sym m' m). destruct (Z.eqb_spec m m') as [|Hne]; [ring|].
  rewrite andb_comm. destruct (Z.eqb_spec (orb V x m) b) as [E1|]; [|cbn; ring]. destruct (Z.eqb_spec (orb V x m') d) as [E2|]; [|cbn; ring]. cbn [andb].
  rewrite <- (Hf m m'); try assumption.
  - f_equal. apply functional_extensionality. intros i. unfold tr, upd. destruct (Z.eqb_spec i m) as [->|].
    + rewrite Z.eqb_refl. replace (m =? m') with false by lia. reflexivity.
    + destruct (Z.eqb_spec i m') as [->|]; [|replace (i =? m') with false by lia; replace (i =? m) with false by lia; reflexivity].
      replace (m =? m') with false by lia. rewrite Z.eqb_refl. reflexivity.
  - destruct (orb_div V HN HNe x m Hx Hm) as (D1 & _ & _), (orb_div V HN HNe x m' Hx Hm') as (D2 & _ & _). rewrite E1 in D1. rewrite E2 in D2. fold N in D1, D2. congruence.
Qed.
Lemma anticommutator a b c d x : operator V (a, b) -> operator V (c, d) -> operator V (a, d) -> (forall m, In m (labels V) -> 0 <= x m < sites V) ->
  string V [(a, b); (c, d)] (psi V) x = Cminus (Cplus (if b =? c then string V [(a, d)] (psi V) x else RtoC 0) (if c =? d then string V [(a, b)] (psi V) x else RtoC 0)) (string V [(a, d); (c, b)] (psi V) x).
Proof.
  intros H1 H2 H3 Hx. assert (H4 : operator V (c, b)). { destruct H1 as (A & B & E1), H2 as (A' & B' & E2), H3 as (_ & _ & E3). cbn in *. repeat split; cbn; try tauto. congruence. }
  rewrite !product by assumption. rewrite (off_opp a b c d) by (apply psi_anti || exact Hx || (destruct H1 as (_ & _ & E1), H3 as (_ & _ & E3); cbn in *; fold N in E1, E3; congruence)).
  rewrite (Z.eqb_sym d c). cbn [string]. ring.
Qed.
Lemma conj_sub u v : Cconj (Cminus u v) = Cminus (Cconj u) (Cconj v). Proof. apply Ceq; cbn; ring. Qed.
Lemma conj_plus u v : Cconj (Cplus u v) = Cplus (Cconj u) (Cconj v). Proof. apply Ceq; cbn; ring. Qed.
Lemma conj_0 : Cconj (RtoC 0) = RtoC 0. Proof. apply Ceq; cbn; ring. Qed.
Lemma local_two_ok a b c d x : operator V (a, b) -> operator V (c, d) -> operator V (a, d) -> c <> d -> (forall m, In m (labels V) -> 0 <= x m < sites V) ->
  local V [(a, b); (c, d)] x = Cminus (if b =? c then local V [(a, d)] x else RtoC 0) (local V [(a, d); (c, b)] x).
Proof.
  intros H1 H2 H3 Hcd Hx. unfold local. rewrite (anticommutator a b c d x) by assumption. replace (c =? d) with false by lia.
  transitivity (Cconj (Cminus (Cdiv (if b =? c then string V [(a, d)] (psi V) x else RtoC 0) (psi V x)) (Cdiv (string V [(a, d); (c, b)] (psi V) x) (psi V x)))); [f_equal; unfold Cdiv, Cminus; ring|].
  rewrite conj_sub. f_equal. destruct (b =? c); [reflexivity|]. replace (Cdiv (RtoC 0) (psi V x)) with (RtoC 0) by (unfold Cdiv; ring). apply conj_0.
Qed.
End Anticomm.

Lemma diagonal_ok V : wf_wave V -> forall K w rcnt ip, sampled V K w rcnt ip -> forall H, sites_ok V H -> forall P, execution (count H) P ->
  calculate_hamiltonian0 (env_of V K) H (Samp.Model.eleNum w) P = Some (local_value V (diagonal V H) (Samp.Model.eleIdx w)).
Proof.
  intros HV K w rcnt ip HS H HH P HP. rewrite (hamiltonian0_diag V HV w H HH (env_of V K) eq_refl P HP). f_equal. symmetry.
  exact (diagonal_nil V HV K w rcnt ip HS H HH).
Qed.

(** ** what the code computes with terms that change spins *)
(** columns 2 (and 6) of the spin of the creators replaced by those of the annihilators *)
Definition annihilator_spins (H : terms) : terms :=
  Terms (NIntra H) (Intra H) (ParaIntra H) (NInter H) (Inter H) (ParaInter H) (NHund H) (Hund H) (ParaHund H)
    (NTransfer H) (fun k c => if c =? 1 then Transfer H k 3 else Transfer H k c) (ParaTransfer H) (NPair H) (Pair H) (ParaPair H) (NExchange H) (Exchange H) (ParaExchange H)
    (NInterAll H) (fun k c => if c =? 1 then InterAll H k 3 else if c =? 5 then InterAll H k 7 else InterAll H k c) (ParaInterAll H).
Lemma annihilator_sites V H : sites_ok V H -> sites_ok V (annihilator_spins H).
Proof.
  intros HH. constructor; cbn; [exact (ok_intra V H HH)|exact (ok_inter V H HH)|exact (ok_hund V H HH)| |exact (ok_pair V H HH)|exact (ok_exchange V H HH)|].
  - intros k Hk. destruct (ok_transfer V H HH k Hk) as (? & ? & ? & ?). tauto.
  - intros k Hk. destruct (ok_interall V H HH k Hk) as (? & ? & ? & ? & ? & ? & ? & ?). tauto.
Qed.
Lemma spins_ignored V : wf_wave V -> forall K w rcnt ip, sampled V K w rcnt ip -> forall H, sites_ok V H -> forall P, execution (count H) P ->
  calculate_hamiltonian (env_of V K) H ip (Samp.Model.eleCfg w) (Samp.Model.eleNum w) (eleProjCnt w) rcnt P (Samp.Model.eleIdx w) =
  Some (local_value V (hamiltonian V (annihilator_spins H)) (Samp.Model.eleIdx w)).
Proof.
  intros HV K w rcnt ip HS H HH P HP.
  assert (E := energy V HV K w rcnt ip HS (annihilator_spins H) (annihilator_sites V H HH)). cbv zeta in E. rewrite <- (E ltac:(split; cbn; auto) P HP). reflexivity.
Qed.

(** the manual's InterAll line 0 0 0 1 1 1 1 0 0.5 0.0 *)
Definition manual_line (k c : Z) : Z := if (c =? 3) || (c =? 4) || (c =? 5) || (c =? 6) then 1 else 0.
Definition none1 : Z -> Z := fun _ => 0.
Definition none2 : Z -> Z -> Z := fun _ _ => 0.
Definition noneR : Z -> R := fun _ => 0%R.
Definition only_interall (n : Z) (t : Z -> Z -> Z) (p : Z -> C) : terms := Terms 0 none1 noneR 0 none2 noneR 0 none2 noneR 0 none2 (fun _ => RtoC 0) 0 none2 noneR 0 none2 noneR n t p.
Definition H_flip : terms := only_interall 1 manual_line (fun _ => RtoC (/ 2)).
Definition P_one (n : Z -> Z) (w0 : work) : sched := Sched 1 (fun l t => zrange 0 (n l)) (fun _ => w0).
Lemma P_one_ok n w0 : execution n (P_one n w0).
Proof. intros l _. change (zrange 0 (threads (P_one n w0))) with [0]. cbn. rewrite app_nil_r. apply Permutation_refl. Qed.
Lemma H_flip_sites : sites_ok V3 H_flip.
Proof.
  constructor; cbn; try (intros; lia). intros k Hk. unfold site, spin, manual_line. change (sites V3) with 4. cbn. lia.
Qed.
Lemma flip_refuted : exists V K w rcnt ip H P v, wf_wave V /\ sampled V K w rcnt ip /\ sites_ok V H /\ execution (count H) P /\
  NInterAll H = 1 /\ map (InterAll H 0) (zrange 0 8) = [0; 0; 0; 1; 1; 1; 1; 0] /\ ParaInterAll H 0 = RtoC (/ 2) /\
  calculate_hamiltonian (env_of V K) H ip (Samp.Model.eleCfg w) (Samp.Model.eleNum w) (eleProjCnt w) rcnt P (Samp.Model.eleIdx w) = Some v /\
  v <> any_value V (hamiltonian V H) (Samp.Model.eleIdx w).
Proof.
  destruct (V3_sampled (fun _ => RtoC 0)) as (cnt & HS).
  exists V3, K3, (w3 cnt), (fun _ => RtoC 0), (RtoC (-1)), H_flip, (P_one (count H_flip) (Work x3 e3 cnt (fun _ => RtoC 0) (fun _ => RtoC 0))), (RtoC (/ 2)).
  split; [exact V3_wf|]. split; [exact HS|]. split; [exact H_flip_sites|]. split; [apply P_one_ok|]. split; [reflexivity|]. split; [reflexivity|]. split; [reflexivity|]. split.
  - rewrite (spins_ignored V3 V3_wf K3 (w3 cnt) _ _ HS H_flip H_flip_sites) by apply P_one_ok. f_equal. unfold local_value.
    change (hamiltonian V3 (annihilator_spins H_flip)) with [(RtoC (/ 2), [number 4; number 1])]. cbn [csum fst snd].
    change [number 4; number 1] with ([] ++ [number 4; number 1]). rewrite (local_numbers V3 V3_wf (w3 cnt) (sa_tables _ _ _ _ _ HS)) by (change (sites V3) with 4; lia).
    rewrite (local_nil V3 V3_wf K3 (w3 cnt) _ _ HS). cbn. apply Ceq; cbn; lra.
  - unfold any_value. change (hamiltonian V3 H_flip) with [(RtoC (/ 2), [(0, 4); (5, 1)])]. cbn [csum fst snd]. unfold local_any, local_two. change (sites V3) with 4. cbn [Z.div Z.eqb andb].
    change (0 / 4 =? 4 / 4) with false. change (0 / 4 =? 1 / 4) with true. change (5 / 4 =? 4 / 4) with true. cbn [andb]. change (4 =? 5) with false. cbn iota.
    assert (Z0 : local V3 [(0, 1); (5, 4)] x3 = RtoC 0).
    { unfold local. change [(0, 1); (5, 4)] with ([(0, 1)] ++ [(5, 4)]). rewrite string_app.
      assert (Hop : operator V3 (5, 4)) by (repeat split; cbn; lia).
      destruct (single V3 V3_wf (w3 cnt) K3 _ _ HS 5 4 Hop ltac:(lia)) as [Hcl|(_ & Hz)].
      - exfalso. destruct (clean_e V3 (w3 cnt) K3 5 4 Hcl) as (_ & E1). change (e3 5 = 0) in E1. vm_compute in E1. discriminate.
      - rewrite Hz by (apply string_anti; apply psi_anti). unfold Cdiv. rewrite Cmult_0_l. apply conj_0. }
    change (Samp.Model.eleIdx (w3 cnt)) with x3. rewrite Z0. intros E. apply (f_equal fst) in E. cbn in E. lra.
Qed.
