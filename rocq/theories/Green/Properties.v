(** C19, C20, C21: local Green functions *)
From Coq Require Import ZArith List Bool Lia Reals.
From Coquelicot Require Import Complex.
From Verif Require Import Base.ZLoop Base.RSum Slater.Model Slater.Spec Samp.Model Samp.Spec Green.Model Green.Spec Green.Anti Green.Proofs Green.ProofsN Green.ProofsAlg Green.Cases.
Import ListNotations.
Local Open Scope Z_scope.

(** ** the specification: psi is antisymmetric, one-body matrix elements are what one expects, and the bilinears c+_a c_b obey
    [c+_a c_b, c+_c c_d] = delta_bc c+_a c_d - delta_ad c+_c c_b *)
Theorem C19_antisymmetric V : wf_wave V -> forall m1 m2 x, In m1 (labels V) -> In m2 (labels V) -> m1 <> m2 ->
  m1 / Slater.Model.Ne (vS V) = m2 / Slater.Model.Ne (vS V) ->
  psi V (fun i => x (if i =? m1 then m2 else if i =? m2 then m1 else i)) = Copp (psi V x).
Proof. exact (psi_exchange V). Qed.
Print Assumptions C19_antisymmetric.

Theorem C19_values V : wf_wave V -> forall K w rcnt ip, sampled V K w rcnt ip -> let x := Samp.Model.eleIdx w in
  forall a b, operator V (a, b) ->
    (a = b -> local V [(a, b)] x = RtoC (IZR (occupation V x a))) /\
    (a <> b -> occupation V x a = 1 \/ occupation V x b = 0 -> local V [(a, b)] x = RtoC 0) /\
    (a <> b -> occupation V x a = 0 -> forall m, In m (labels V) -> orb V x m = b ->
       local V [(a, b)] x = Cconj (Cdiv (psi V (upd x m (a mod sites V))) (psi V x))).
Proof. exact (one_cases V). Qed.
Print Assumptions C19_values.

(** the code: for every wave function, configuration, pair of sites and spin, GreenFunc1 returns the matrix element and
    leaves the configuration unchanged *)
Theorem C19_green1 V : wf_wave V -> forall K w rcnt ip, sampled V K w rcnt ip ->
  forall ri rj s k, 0 <= ri < sites V -> 0 <= rj < sites V -> 0 <= s <= 1 -> starts w k ->
  exists k', green1 (env_of V K) ri rj s ip (Samp.Model.eleCfg w) (eleProjCnt w) rcnt k =
               Some (local V [(ri + s * sites V, rj + s * sites V)] (Samp.Model.eleIdx w), k') /\
             starts w k'.
Proof. exact (fun HV K w rcnt ip HS => green1_ok V HV w K rcnt ip HS). Qed.
Print Assumptions C19_green1.
Example C19_case : wf_wave V2 /\ (exists cnt rcnt, sampled V2 K2 (w2 cnt) rcnt (RtoC 8)) /\ occupation V2 Slater.Cases.ele_ex 0 = 1 /\ occupation V2 Slater.Cases.ele_ex 1 = 0.
Proof. exact (conj V2_wf (conj V2_sampled (conj eq_refl eq_refl))). Qed.

Theorem C20_commutator V : wf_wave V -> forall a b c d f x, operator V (a, b) -> operator V (c, d) -> (forall m, In m (labels V) -> 0 <= x m < sites V) ->
  Cminus (string V [(a, b); (c, d)] f x) (string V [(c, d); (a, b)] f x) =
  Cminus (if b =? c then string V [(a, d)] f x else RtoC 0) (if a =? d then string V [(c, b)] f x else RtoC 0).
Proof. exact (fun HV => commutator V (Core.N_pos V HV) (Core.Ne_pos V HV)). Qed.
Print Assumptions C20_commutator.

Theorem C20_green2 V : wf_wave V -> forall K w rcnt ip, sampled V K w rcnt ip ->
  forall ri rj rk rl s t k, 0 <= ri < sites V -> 0 <= rj < sites V -> 0 <= rk < sites V -> 0 <= rl < sites V -> 0 <= s <= 1 -> 0 <= t <= 1 -> starts w k ->
  exists k', green2 (env_of V K) ri rj rk rl s t ip (Samp.Model.eleCfg w) (eleProjCnt w) rcnt k =
               Some (local V [(ri + s * sites V, rj + s * sites V); (rk + t * sites V, rl + t * sites V)] (Samp.Model.eleIdx w), k') /\
             starts w k'.
Proof. exact (fun HV K w rcnt ip HS => green2_ok V HV w K rcnt ip HS). Qed.
Print Assumptions C20_green2.
Example C20_case : wf_wave V3 /\ (forall rcnt, exists cnt, sampled V3 K3 (w3 cnt) rcnt (RtoC (-1))) /\ sites V3 = 4 /\ occupation V3 x3 1 = 1 /\ occupation V3 x3 2 = 0 /\ occupation V3 x3 5 = 1.
Proof. exact (conj V3_wf (conj V3_sampled (conj eq_refl (conj eq_refl (conj eq_refl eq_refl))))). Qed.

(** n-body strings of any length: the reduction to shorter strings and the restoring of the configuration are right, provided
    the routine for the Pfaffian of the moved configuration is.
    Missing for the full property: that routine (calculateNewPfMN_child) is a hypothesis, and as written it is wrong, see below;
    strings that mix spins in one bilinear are outside (the code returns 0). *)
Theorem C21_reduction_partial V : wf_wave V -> forall K w rcnt ip, sampled V K w rcnt ip ->
  forall kernel, pfaffian_routine V K w kernel ->
  forall fuel n a b k, 0 < n <= Z.of_nat fuel -> (forall i, 0 <= i < n -> operator V (a i, b i)) -> starts w k ->
  exists k', green_n (env_of V K) kernel fuel n a b ip (Samp.Model.eleCfg w) (eleProjCnt w) rcnt k =
               Some (local V (operators n a b) (Samp.Model.eleIdx w), k') /\
             starts w k'.
Proof. exact (fun HV K w rcnt ip HS => green_n_ok V HV w K rcnt ip HS). Qed.
Print Assumptions C21_reduction_partial.
(** strings of one and two bilinears do not need it *)
Theorem C21_short V : wf_wave V -> forall K w rcnt ip, sampled V K w rcnt ip ->
  forall kernel fuel n a b k, 0 < n <= 2 -> n <= Z.of_nat fuel -> (forall i, 0 <= i < n -> operator V (a i, b i)) -> starts w k ->
  exists k', green_n (env_of V K) kernel fuel n a b ip (Samp.Model.eleCfg w) (eleProjCnt w) rcnt k =
               Some (local V (operators n a b) (Samp.Model.eleIdx w), k') /\
             starts w k'.
Proof. exact (fun HV K w rcnt ip HS => green_n_short V HV w K rcnt ip HS). Qed.
Print Assumptions C21_short.

(** the kernel of the code passes n instead of 2n as the order of the matrix, so for n = 3 the library is asked for a Pfaffian of
    odd order, which is 0: GreenFuncN(3, ...) returns 0 on a string whose matrix element is not 0 *)
Theorem C21_kernel_refuted : exists V K w rcnt ip a b,
  wf_wave V /\ sampled V K w rcnt ip /\ (forall i, 0 <= i < 3 -> operator V (a i, b i)) /\
  local V (operators 3 a b) (Samp.Model.eleIdx w) <> RtoC 0 /\
  forall skpfa lda k, (forall m l A, Z.odd m = true -> skpfa m l A = RtoC 0) -> starts w k ->
    exists k', green_n (env_of V K) (new_pfmn (env_of V K) skpfa lda) 1 3 a b ip (Samp.Model.eleCfg w) (eleProjCnt w) rcnt k = Some (RtoC 0, k').
Proof. exact kernel_refuted. Qed.
Print Assumptions C21_kernel_refuted.
Example C21_case : wf_wave V3 /\ (forall rcnt, exists cnt, sampled V3 K3 (w3 cnt) rcnt (RtoC (-1))) /\ (forall i, 0 <= i < 3 -> operator V3 (a3 i, b3 i)) /\
  exists kernel, forall cnt, pfaffian_routine V3 K3 (w3 cnt) kernel.
Proof. exact (conj V3_wf (conj V3_sampled (conj legal3 ideal_kernel))). Qed.
