From Coq Require Import ZArith Reals Lia Lra.
From Flocq Require Import Core.
From Verif Require Import Rng.ModelReal.
Local Open Scope R_scope.
Lemma fmt (k e : Z) : (Z.abs k < 2 ^ 53)%Z -> (-1074 <= e)%Z -> rnd (IZR k * bpow radix2 e) = IZR k * bpow radix2 e.
Proof.
  intros K E. apply round_generic; [apply valid_rnd_N|]. apply generic_format_FLT. exists (Float radix2 k e); [reflexivity|exact K|exact E].
Qed.
Lemma real2 v : (0 <= v < 2 ^ 32)%Z -> to_real2 v = IZR v / 2 ^ 32.
Proof.
  intros V. unfold to_real2. assert (P : bpow radix2 (-32) = / 2 ^ 32) by (cbn; f_equal; lra).
  replace (1 / IZR 4294967296) with (IZR 1 * bpow radix2 (-32)) by (rewrite P; cbn; lra). rewrite (fmt 1 (-32)) by lia.
  replace (IZR v) with (IZR v * bpow radix2 0) at 1 by (cbn; lra). rewrite (fmt v 0) by lia. replace (IZR v * bpow radix2 0 * (IZR 1 * bpow radix2 (-32))) with (IZR v * bpow radix2 (-32)) by (cbn; lra). rewrite (fmt v (-32)) by lia. now rewrite P.
Qed.
Lemma real2_unit v : (0 <= v < 2 ^ 32)%Z -> 0 <= to_real2 v < 1.
Proof.
  intros V. rewrite real2 by exact V. assert (A : 0 <= IZR v) by (apply IZR_le; lia). assert (B : IZR v < 4294967296) by (apply IZR_lt; lia). replace (2 ^ 32) with 4294967296 by (cbn; lra). lra.
Qed.
