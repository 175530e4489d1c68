(** Property C63: local Green functions with general spins *)
From Coq Require Import ZArith List Bool Lia Reals Lra.
From Coquelicot Require Import Complex.
From Verif Require Import Base.ZLoop Base.RSum Proj.Model Proj.Spec Slater.Model Slater.Spec Samp.Model Samp.Spec Green.Model Green.Spec Fsz.Model Fsz.Spec Fsz.Cases Gfz.Model Gfz.Spec Gfz.Proofs Gfz.ProofsAlg Gfz.Cases.
Import ListNotations.
Local Open Scope Z_scope.

(** C63.  The operators of the specification: the wave function is antisymmetric in all electrons, bilinears commute as fermions do ... *)
Theorem C63_antisymmetric V m1 m2 x : In m1 (flabels V) -> In m2 (flabels V) -> m1 <> m2 ->
  fpsi V (fun i => x (if i =? m1 then m2 else if i =? m2 then m1 else i)) = Copp (fpsi V x).
Proof. exact (fexchange V m1 m2 x). Qed.
Print Assumptions C63_antisymmetric.
Theorem C63_commutator V a b c d f x :
  Cminus (fstring (flabels V) [(a, b); (c, d)] f x) (fstring (flabels V) [(c, d); (a, b)] f x) =
  Cminus (if b =? c then fstring (flabels V) [(a, d)] f x else RtoC 0) (if a =? d then fstring (flabels V) [(c, b)] f x else RtoC 0).
Proof. exact (fcommutator_V V a b c d f x). Qed.
Print Assumptions C63_commutator.

(** ... and the code: for all sites and spins the value returned is the matrix element over the amplitude, and the configuration
    tables are as before the call.  Creation and annihilation of equal spin ... *)
Theorem C63_one V : wf_fwave V -> forall G w ip, sampled_fsz V G w ip -> forall ri rj s k,
  site_spin (fsites V) ri s -> site_spin (fsites V) rj s -> starts_fsz w k ->
  exists k', green1_fsz G ri rj s ip (Samp.Model.eleCfg w) (eleProjCnt w) k = Some (flocal V [(ri + s * fsites V, rj + s * fsites V)] (config V w), k') /\ starts_fsz w k'.
Proof. exact (fun HV G w ip HS ri rj s k => green1_fsz_ok V HV G w ip HS ri rj s k). Qed.
Print Assumptions C63_one.
(** ... of any spins (the two places differ: the caller uses this routine only for unequal spins) ... *)
Theorem C63_one_flip V : wf_fwave V -> forall G w ip, sampled_fsz V G w ip -> forall ri rj s t k,
  site_spin (fsites V) ri s -> site_spin (fsites V) rj t -> ri + s * fsites V <> rj + t * fsites V -> starts_fsz w k ->
  exists k', green1_fsz2 G ri rj s t ip (Samp.Model.eleCfg w) (eleProjCnt w) k = Some (flocal V [(ri + s * fsites V, rj + t * fsites V)] (config V w), k') /\ starts_fsz w k'.
Proof. exact (fun HV G w ip HS ri rj s t k => green1_fsz2_ok V HV G w ip HS ri rj s t k). Qed.
Print Assumptions C63_one_flip.
(** ... two bilinears, each conserving the spin ... *)
Theorem C63_two V : wf_fwave V -> forall G w ip, sampled_fsz V G w ip -> forall ri rj rk rl s t k,
  site_spin (fsites V) ri s -> site_spin (fsites V) rj s -> site_spin (fsites V) rk t -> site_spin (fsites V) rl t -> starts_fsz w k ->
  exists k', green2_fsz G ri rj rk rl s t ip (Samp.Model.eleCfg w) (eleProjCnt w) k =
    Some (flocal V [(ri + s * fsites V, rj + s * fsites V); (rk + t * fsites V, rl + t * fsites V)] (config V w), k') /\ starts_fsz w k'.
Proof. exact (fun HV G w ip HS ri rj rk rl s t k => green2_fsz_ok V HV G w ip HS ri rj rk rl s t k). Qed.
Print Assumptions C63_two.
(** ... and two bilinears of any four spins *)
Theorem C63_two_flip V : wf_fwave V -> forall G w ip, sampled_fsz V G w ip -> forall ri rj rk rl s t u v k,
  site_spin (fsites V) ri s -> site_spin (fsites V) rj t -> site_spin (fsites V) rk u -> site_spin (fsites V) rl v -> starts_fsz w k ->
  exists k', green2_fsz2 G ri rj rk rl s t u v ip (Samp.Model.eleCfg w) (eleProjCnt w) k =
    Some (flocal V [(ri + s * fsites V, rj + t * fsites V); (rk + u * fsites V, rl + v * fsites V)] (config V w), k') /\ starts_fsz w k'.
Proof. exact (fun HV G w ip HS ri rj rk rl s t u v k => green2_fsz2_ok V HV G w ip HS ri rj rk rl s t u v k). Qed.
Print Assumptions C63_two_flip.
(** two electrons of equal spin on two sites; one hops onto the other with its spin flipped *)
Example C63_case : wf_fwave Vg /\ (exists cnt, sampled_fsz Vg Gg (wg cnt) (RtoC (-30))) /\ (forall cnt, starts_fsz (wg cnt) kg) /\
  site_spin (fsites Vg) 0 1 /\ site_spin (fsites Vg) 1 0 /\ forall cnt, flocal Vg [(0 + 1 * fsites Vg, 1 + 0 * fsites Vg)] (config Vg (wg cnt)) = RtoC (6 * exp (-1)).
Proof.
  split; [exact Vg_wf|]. split; [exact Vg_sampled|]. split; [exact kg_starts|]. split; [split; cbn; lia|]. split; [split; cbn; lia|]. exact value_g.
Qed.
