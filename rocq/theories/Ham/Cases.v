(** Concrete Hamiltonians with all kinds of terms, divided between two threads. *)
From Coq Require Import ZArith List Bool Lia Reals Lra Permutation.
From Coquelicot Require Import Complex.
From Verif Require Import Base.ZLoop Base.RSum Slater.Model Samp.Model Samp.Spec Green.Model Green.Spec Green.Cases Ham.Model Ham.Spec Ham.Proofs Ham.ProofsFlip.
From Verif Require SR.Proofs.
Notation Ceq := SR.Proofs.Ceq (only parsing).
Import ListNotations.
Local Open Scope Z_scope.

(** on the sites 0, 1, 2, 3: two terms of each kind *)
Definition pair_of (k c : Z) : Z := (k + c) mod 4.
Definition hop_of (k c : Z) : Z := if c =? 0 then k else if c =? 2 then k + 1 else k mod 2.
Definition four_of (k c : Z) : Z := if c =? 0 then k else if c =? 2 then k + 1 else if c =? 4 then 0 else if c =? 6 then 3 - k else if c <? 4 then 0 else 1.
Definition H_all : terms := Terms 2 (fun k => k) (fun k => IZR (2 + k)) 2 pair_of (fun _ => 1%R) 2 pair_of (fun _ => (/ 2)%R) 2 hop_of (fun k => (1, IZR k)%R) 2 pair_of (fun _ => 3%R) 2 pair_of (fun _ => 4%R)
  2 four_of (fun k => (IZR k, 1)%R).
Lemma one_two k : 0 <= k < 2 -> k = 0 \/ k = 1. Proof. lia. Qed.
Lemma H_all_sites : sites_ok V3 H_all.
Proof.
  constructor; cbn [H_all NIntra Intra NInter Inter NHund Hund NTransfer Transfer NPair Pair NExchange Exchange NInterAll InterAll]; intros k Hk; destruct (one_two k Hk) as [-> | ->]; unfold site, spin; change (sites V3) with 4; cbv; intuition discriminate.
Qed.
Lemma H_all_spins : spins_kept H_all.
Proof. split; cbn; intros k Hk; destruct (one_two k Hk) as [-> | ->]; cbn; auto. Qed.
(** the second thread runs the first iteration of every loop *)
Definition P_two (w0 w1 : work) : sched := Sched 2 (fun l t => if t =? 0 then [1] else [0]) (fun t => if t =? 0 then w0 else w1).
Lemma P_two_ok w0 w1 : execution (count H_all) (P_two w0 w1).
Proof.
  intros l Hl. change (zrange 0 (threads (P_two w0 w1))) with [0; 1]. replace (count H_all l) with 2; [cbn; apply perm_swap|].
  unfold count. repeat (destruct (_ =? _); [reflexivity|]). reflexivity.
Qed.
(** on two sites *)
Definition H_two : terms := Terms 1 none1 (fun _ => 5%R) 1 (fun _ c => c) (fun _ => 1%R) 1 (fun _ c => c) (fun _ => 2%R) 2 (fun k c => if c =? 0 then 1 else if c =? 2 then 0 else k) (fun k => RtoC 1) 1 (fun _ c => c) (fun _ => 3%R)
  1 (fun _ c => c) (fun _ => 4%R) 0 none2 (fun _ => RtoC 0).
Lemma H_two_sites : sites_ok V2 H_two.
Proof.
  constructor; cbn [H_two NIntra Intra NInter Inter NHund Hund NTransfer Transfer NPair Pair NExchange Exchange NInterAll InterAll]; intros k Hk; unfold site, spin, none1; change (sites V2) with 2; try lia.
  destruct (one_two k Hk) as [-> | ->]; cbv; intuition discriminate.
Qed.
Lemma H_two_spins : spins_kept H_two.
Proof. split; cbn; intros k Hk; [destruct (one_two k Hk) as [-> | ->]; reflexivity|lia]. Qed.
(** U = 2, 3 on the doubly occupied sites 0, 1; repulsion and Hund terms between 0 and 1 and between 1 and 2 *)
Lemma diagonal_energy cnt rcnt : sampled V3 K3 (w3 cnt) rcnt (RtoC (-1)) -> local_value V3 (diagonal V3 H_all) x3 = RtoC 8.
Proof.
  intros HS. change x3 with (Samp.Model.eleIdx (w3 cnt)). rewrite (diagonal_nil V3 V3_wf K3 (w3 cnt) rcnt (RtoC (-1)) HS H_all H_all_sites).
  unfold v_diag. cbn [H_all NIntra NInter NHund]. change (zrange 0 2) with [0; 1]. cbn [csum]. unfold v_intra, v_inter, v_hund. cbn [H_all Intra ParaIntra Inter ParaInter Hund ParaHund]. change (sites V3) with 4.
  change (Samp.Model.eleNum (w3 cnt)) with e3. unfold pair_of, e3. cbn. apply Ceq; cbn; lra.
Qed.
