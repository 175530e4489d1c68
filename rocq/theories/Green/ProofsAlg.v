(** The specification obeys the commutation rules of bilinears, and its one-body values. *)
From Coq Require Import ZArith List Bool Lia Reals Lra.
From Coquelicot Require Import Complex.
From Verif Require Import Base.ZLoop Base.RSum Pf.Pfaffian Pf.Spec Slater.Model Slater.Spec Samp.Model Samp.Spec Green.Model Green.Spec Green.Anti Green.Moves Green.Core Green.Proofs.
Import ListNotations.
Local Open Scope Z_scope.

Section Alg.
Variable V : wave.
Hypothesis HN : 0 < sites V.
Hypothesis HNe : 0 < Slater.Model.Ne (vS V).
Let N := sites V.

(* the part of act o2 (act o1 f) in which two different electrons move *)
Definition off (a b c d : Z) (f : (Z -> Z) -> C) (x : Z -> Z) : C :=
  csum (labels V) (fun m => csum (labels V) (fun m' => if m =? m' then RtoC 0 else if (orb V x m =? d) && (orb V x m' =? b) then f (upd (upd x m (c mod N)) m' (a mod N)) else RtoC 0)).
Lemma orb_upd x m v m' : orb V (upd x m v) m' = if m' =? m then v + (m / Slater.Model.Ne (vS V)) * N else orb V x m'.
Proof. unfold orb, orbital, upd. destruct (Z.eqb_spec m' m) as [->|]; reflexivity. Qed.
Lemma csum_if (l : list Z) m0 (g : Z -> C) : NoDup l -> In m0 l -> csum l (fun m => if m0 =? m then g m else RtoC 0) = g m0.
Proof.
  induction l as [|y l IH]; intros HD HI; [destruct HI|]. cbn [csum]. inversion HD as [|? ? Hy HD']; subst. destruct HI as [->|HI].
  - rewrite Z.eqb_refl. rewrite csum_zero; [ring|]. intros m Hm. destruct (Z.eqb_spec m0 m) as [->|]; [contradiction|reflexivity].
  - destruct (Z.eqb_spec m0 y) as [->|]; [contradiction|]. rewrite IH by assumption. ring.
Qed.
Lemma product a b c d f x : operator V (a, b) -> operator V (c, d) -> lattice V x ->
  string V [(a, b); (c, d)] f x = Cplus (if b =? c then act V (a, d) f x else RtoC 0) (off a b c d f x).
Proof.
  intros (A1 & A2 & A3) (C1 & C2 & C3) Hx. cbn [string fst snd] in *. fold N in A1, A2, A3, C1, C2, C3. unfold act at 1. cbn [fst snd].
  assert (E : forall m, In m (labels V) -> (if orb V x m =? d then act V (a, b) f (upd x m (c mod sites V)) else RtoC 0) =
    Cplus (if orb V x m =? d then (if b =? c then f (upd x m (a mod N)) else RtoC 0) else RtoC 0)
      (csum (labels V) (fun m' => if m =? m' then RtoC 0 else if (orb V x m =? d) && (orb V x m' =? b) then f (upd (upd x m (c mod N)) m' (a mod N)) else RtoC 0))).
  { intros m Hm. destruct (Z.eqb_spec (orb V x m) d) as [Ed|_].
    2:{ rewrite csum_zero; [ring|]. intros m' _. destruct (m =? m'); reflexivity. }
    cbn [andb]. unfold act. cbn [fst snd]. fold N.
    destruct (orb_div V HN HNe x m Hx Hm) as (D1 & _ & _). fold N in D1. rewrite Ed in D1.
    assert (Ec : c mod N + m / Slater.Model.Ne (vS V) * N = c). { rewrite <- D1, <- C3. rewrite (Z.div_mod c N) at 3 by (fold N in HN; lia). ring. }
    rewrite <- (csum_if (labels V) m (fun m' => if b =? c then f (upd x m' (a mod N)) else RtoC 0)) by (apply labels_nodup || exact Hm).
    rewrite <- csum_add. apply csum_ext. intros m' _. rewrite orb_upd. destruct (Z.eqb_spec m m') as [<-|Hne].
    - rewrite Z.eqb_refl, Ec. rewrite (Z.eqb_sym c b). rewrite upd_twice. destruct (b =? c); ring.
    - replace (m' =? m) with false by lia. destruct (orb V x m' =? b); ring. }
  rewrite (csum_ext _ _ _ E), csum_add. f_equal. destruct (b =? c).
  - unfold act. cbn [fst snd]. fold N. reflexivity.
  - apply csum_zero. intros m _. destruct (orb V x m =? d); reflexivity.
Qed.
Lemma off_sym a b c d f x : off a b c d f x = off c d a b f x.
Proof.
  unfold off. rewrite csum_swap. apply csum_ext. intros m _. apply csum_ext. intros m' _. rewrite (Z.eqb_sym m' m). destruct (Z.eqb_spec m m') as [|Hne]; [reflexivity|].
  rewrite andb_comm. destruct (_ && _); [|reflexivity]. now rewrite upd_comm by congruence.
Qed.
Lemma commutator a b c d f x : operator V (a, b) -> operator V (c, d) -> lattice V x ->
  Cminus (string V [(a, b); (c, d)] f x) (string V [(c, d); (a, b)] f x) =
  Cminus (if b =? c then string V [(a, d)] f x else RtoC 0) (if a =? d then string V [(c, b)] f x else RtoC 0).
Proof.
  intros H1 H2 Hx. rewrite !product by assumption. rewrite (off_sym c d a b). rewrite (Z.eqb_sym d a). cbn [string]. ring.
Qed.
End Alg.

Section One.
Variable V : wave.
Hypothesis HV : wf_wave V.
Variables (w : walker) (K : setting) (rcnt : Z -> C) (ip : C).
Hypothesis HS : sampled V K w rcnt ip.
Let x := Samp.Model.eleIdx w.
Let e := Samp.Model.eleNum w.
Let N := sites V.
Let Ne := Slater.Model.Ne (vS V).
Let HN : 0 < N := N_pos V HV.
Let HNe : 0 < Ne := Ne_pos V HV.
Let Hc : consistent N Ne w := sa_tables _ _ _ _ _ HS.
Lemma one_values a b : operator V (a, b) ->
  local V [(a, b)] x =
    if a =? b then RtoC (IZR (occupation V x a))
    else if (occupation V x a =? 1) || (occupation V x b =? 0) then RtoC 0
    else Cconj (Cdiv (psi V (upd x (lab V w b) (a mod N))) (psi V x)).
Proof.
  intros Ho. assert (Oa : orbit V a) by apply Ho. assert (Ob : orbit V b) by apply Ho.
  assert (Qa := occupation_e V HN HNe w Hc a Oa). assert (Qb := occupation_e V HN HNe w Hc b Ob). fold x e in Qa, Qb. rewrite Qa, Qb.
  destruct (Z.eqb_spec a b) as [<-|Hab].
  - destruct (e01 V HN HNe w Hc a Oa) as [E|E]; fold e in E; rewrite E.
    + apply (local_0 V w). rewrite (diag V HV w K rcnt ip HS a _ Ho). fold e. now rewrite E.
    + apply (local_1 V HV w K rcnt ip HS). rewrite (diag V HV w K rcnt ip HS a _ Ho). fold e. now rewrite E.
  - destruct (single V HV w K rcnt ip HS a b Ho Hab) as [Hcl|(Hn & Hz)].
    + destruct (clean_e V w K a b Hcl) as (E1 & E2). fold e in E1, E2. rewrite E1, E2. cbn [Z.eqb Pos.eqb Datatypes.orb]. unfold local. do 2 f_equal. unfold x. rewrite (clean_value V HN HNe w Hc _ _ Hcl). reflexivity.
    + fold e in Hn. replace ((e a =? 1) || (e b =? 0)) with true by (destruct Hn as [-> | ->]; [now rewrite orb_true_r|reflexivity]). apply (local_0 V w). apply Hz. now apply psi_anti.
Qed.
End One.
Lemma psi_exchange V : wf_wave V -> forall m1 m2 x, In m1 (labels V) -> In m2 (labels V) -> m1 <> m2 ->
  m1 / Slater.Model.Ne (vS V) = m2 / Slater.Model.Ne (vS V) ->
  psi V (fun i => x (if i =? m1 then m2 else if i =? m2 then m1 else i)) = Copp (psi V x).
Proof. intros HV m1 m2 x H1 H2 H3 H4. exact (psi_anti V m1 m2 x H1 H2 H3 H4). Qed.
Lemma one_cases V : wf_wave V -> forall K w rcnt ip, sampled V K w rcnt ip -> let x := Samp.Model.eleIdx w in
  forall a b, operator V (a, b) ->
    (a = b -> local V [(a, b)] x = RtoC (IZR (occupation V x a))) /\
    (a <> b -> occupation V x a = 1 \/ occupation V x b = 0 -> local V [(a, b)] x = RtoC 0) /\
    (a <> b -> occupation V x a = 0 -> forall m, In m (labels V) -> orb V x m = b ->
       local V [(a, b)] x = Cconj (Cdiv (psi V (upd x m (a mod sites V))) (psi V x))).
Proof.
  intros HV K w rcnt ip HS x a b Ho. assert (E := one_values V HV w K rcnt ip HS a b Ho). fold x in E. rewrite E. split; [|split].
  - intros ->. now rewrite Z.eqb_refl.
  - intros Hab H. replace (a =? b) with false by lia. replace ((occupation V x a =? 1) || (occupation V x b =? 0)) with true; [reflexivity|].
    destruct H as [-> | ->]; [reflexivity|now rewrite orb_true_r].
  - intros Hab Ha m Hm Hb. replace (a =? b) with false by lia. rewrite Ha.
    assert (Hob : occupation V x b = 1). { unfold occupation. replace (existsb _ _) with true; [reflexivity|]. symmetry. apply existsb_exists. exists m. split; [exact Hm|lia]. }
    rewrite Hob. cbn [Z.eqb Pos.eqb Datatypes.orb]. rewrite <- Hb at 1. unfold x. rewrite (lab_orb V (N_pos V HV) (Ne_pos V HV) w (sa_tables _ _ _ _ _ HS) m Hm). reflexivity.
Qed.
