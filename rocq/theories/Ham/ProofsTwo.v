(** Coincidences in a string of two bilinears (as in Green/Proofs.v) below any antisymmetric function. *)
From Coq Require Import ZArith List Bool Lia Reals Lra FunctionalExtensionality.
From Coquelicot Require Import Complex.
From Verif Require Import Base.ZLoop Base.RSum Proj.Spec Pf.Spec Slater.Model Slater.Spec Samp.Model Samp.Spec Green.Model Green.Spec Green.Anti Green.Moves Green.Core Green.Proofs.
Import ListNotations.
Local Open Scope Z_scope.

Section Any.
Variable V : wave.
Hypothesis HV : wf_wave V.
Let N := sites V.
Let Ne := Slater.Model.Ne (vS V).
Variables (w : walker) (K : setting) (rcnt : Z -> C) (ip : C).
Hypothesis HS : sampled V K w rcnt ip.
Let Hc : consistent N Ne w := sa_tables _ _ _ _ _ HS.
Let x := Samp.Model.eleIdx w.
Let e := Samp.Model.eleNum w.
Let HN : 0 < N := N_pos V HV.
Let HNe : 0 < Ne := Ne_pos V HV.
Section Two.
Variables a b c d : Z.
Variable f : (Z -> Z) -> C.
Hypothesis Hf : anti V f.
Hypothesis O1 : operator V (a, b).
Hypothesis O2 : operator V (c, d).
Let F := act V (a, b) f.
Let two := string V [(a, b); (c, d)] f x.
Lemma F_anti : anti V F. Proof. apply act_anti. exact Hf. Qed.
Lemma two_diag2 : c = d -> two = if e c =? 0 then RtoC 0 else string V [(a, b)] f x.
Proof. intros <-. unfold two. cbn [string]. apply (diag V HV w K rcnt ip HS c F O2). Qed.
Lemma two_bd : c <> d -> b = d -> two = RtoC 0.
Proof.
  intros Hne Hbd. destruct (single V HV w K rcnt ip HS c d O2 Hne) as [Hcl|(_ & H)]; [|apply H; exact F_anti].
  apply (step_b_dup V HN HNe w Hc f a b [(c, d)] Hcl (c, d)); [now left|now symmetry].
Qed.
Lemma two_0 : c <> d -> e d = 0 \/ e c = 1 -> two = RtoC 0.
Proof. intros Hne He. apply (single_0 V HV w K rcnt ip HS c d O2 Hne He F F_anti). Qed.
Lemma two_b0 : c <> d -> c <> b -> e b = 0 -> two = RtoC 0.
Proof.
  intros Hne Hcb Hb. destruct (single V HV w K rcnt ip HS c d O2 Hne) as [Hcl|(_ & H)]; [|apply H; exact F_anti].
  apply (step_b_empty V HN HNe w Hc f a b [(c, d)] O1 Hcl); [|exact Hb]. intros o [<-|[]]. exact Hcb.
Qed.
Lemma two_bc : c <> d -> b = c -> e d = 1 -> e c = 0 -> two = string V [(a, d)] f x.
Proof.
  intros Hne E Ed Ec. destruct (single V HV w K rcnt ip HS c d O2 Hne) as [Hcl|([?|?] & _)]; [|unfold e in *; congruence|unfold e in *; congruence].
  destruct (step_chain V HN HNe w Hc f a b [(c, d)] O1 Hcl [] [] c d eq_refl (eq_sym E)) as (_ & H & _). exact H.
Qed.
Lemma D1 : c <> b -> d <> b -> forall o, In o [(c, d)] -> fst o <> b /\ snd o <> b.
Proof. intros H H' o [<-|[]]. auto. Qed.
Lemma two_ad : c <> d -> b <> c -> b <> d -> a = d -> e c = 0 -> e d = 1 -> e b = 1 -> two = Copp (string V [(c, b)] f x).
Proof.
  intros Hne H1 H2 E Ec Ed Eb. destruct (single V HV w K rcnt ip HS c d O2 Hne) as [Hcl|([?|?] & _)]; [|unfold e in *; congruence|unfold e in *; congruence].
  destruct (step_exchange V HN HNe w Hc f a b [(c, d)] Hf O1 Hcl (D1 (not_eq_sym H1) (not_eq_sym H2)) Eb [] [] c d eq_refl (eq_sym E)) as (_ & H & _). exact H.
Qed.
Lemma two_ac : c <> d -> b <> c -> b <> d -> a <> b -> a = c -> two = RtoC 0.
Proof.
  intros Hne H1 H2 H3 E. destruct (e01 V HN HNe w Hc b) as [Eb|Eb]; [apply O1|now apply two_b0; auto|].
  destruct (single V HV w K rcnt ip HS c d O2 Hne) as [Hcl|(_ & H)]; [|apply H; exact F_anti].
  apply (step_a_dup V HN HNe w Hc f a b [(c, d)] Hf O1 Hcl (D1 (not_eq_sym H1) (not_eq_sym H2)) Eb (c, d)); [exact H3|now left|now symmetry].
Qed.
Lemma two_diag1 : c <> d -> b <> c -> b <> d -> a = b -> two = if e a =? 0 then RtoC 0 else string V [(c, d)] f x.
Proof.
  intros Hne H1 H2 E. destruct (e01 V HN HNe w Hc a) as [Eb|Eb]; [apply O1| |]; fold e in Eb; rewrite Eb; cbn [Z.eqb].
  - apply two_b0; auto. now rewrite <- E.
  - destruct (single V HV w K rcnt ip HS c d O2 Hne) as [Hcl|(_ & H)]; [|unfold x; rewrite (H _ Hf); apply H; exact F_anti].
    apply (step_diag V HN HNe w Hc f a b [(c, d)] O1 Hcl (D1 (not_eq_sym H1) (not_eq_sym H2))); [now rewrite <- E|exact E].
Qed.
Lemma two_a1 : c <> d -> b <> c -> b <> d -> a <> b -> a <> d -> e a = 1 -> two = RtoC 0.
Proof.
  intros Hne H1 H2 H3 H4 Ea. destruct (e01 V HN HNe w Hc b) as [Eb|Eb]; [apply O1|now apply two_b0; auto|].
  destruct (single V HV w K rcnt ip HS c d O2 Hne) as [Hcl|(_ & H)]; [|apply H; exact F_anti].
  apply (step_a_full V HN HNe w Hc f a b [(c, d)] Hf O1 Hcl (D1 (not_eq_sym H1) (not_eq_sym H2)) Eb); [exact H3| |exact Ea]. intros o [<-|[]]. cbn. congruence.
Qed.
Lemma two_clean : c <> d -> b <> c -> b <> d -> a <> b -> a <> c -> e a = 0 -> e b = 1 -> e c = 0 -> e d = 1 -> clean V w [(a, b); (c, d)].
Proof.
  intros Hne H1 H2 H3 H4 Ea Eb Ec Ed. destruct (single V HV w K rcnt ip HS c d O2 Hne) as [Hcl|([?|?] & _)]; [|unfold e in *; congruence|unfold e in *; congruence].
  apply step_clean; [exact O1|exact Hcl|apply D1; congruence|exact Eb|exact H3| |exact Ea]. intros o [<-|[]]. cbn. congruence.
Qed.
End Two.
End Any.
