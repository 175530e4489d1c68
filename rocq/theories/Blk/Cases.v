(** Three sites with two electrons of each spin, block size 2; the amplitude of orbitals x, y is (y - x)^3. *)
From Coq Require Import ZArith List Bool Lia Reals.
From Coquelicot Require Import Complex.
From Verif Require Import Base.ZLoop Base.Checked Base.RSum Pf.Pfaffian Pf.Spec Ltl.Model Ltl.Spec Ltl.Cases Blk.Model Blk.Spec Blk.ProofsSampler Blk.Reference.
Import ListNotations.
Local Open Scope Z_scope.

Definition Slz (p : Z) : Z := (p mod 6 - (p / 6) mod 6) ^ 3.
Definition Sl6 (p : Z) : C := RtoC (IZR (Slz p)).
Definition start4 (m : Z) : Z := if m =? 0 then 0 else if m =? 1 then 1 else if m =? 2 then 0 else 2.
(** a hop that is kept, one that is not, an exchange for which the pending hop must be merged, a hop of an electron that has a pending one *)
Definition moves4 : list (smove * bool) := [(SHop 0 0 2, true); (SHop 1 0 0, false); (SExchange 1 0 1 0 0, true); (SHop 0 1 0, true)].

Lemma Sl6_cell qp x y : 0 <= x < 6 -> 0 <= y < 6 -> Sl6 (qp * (2 * 3) * (2 * 3) + x * (2 * 3) + y) = RtoC (IZR ((y - x) ^ 3)).
Proof.
  intros Hx Hy. unfold Sl6, Slz.
  assert (E1 : (qp * (2 * 3) * (2 * 3) + x * (2 * 3) + y) mod 6 = y) by (replace (qp * (2 * 3) * (2 * 3) + x * (2 * 3) + y) with (y + (qp * 6 + x) * 6) by ring; rewrite Z.mod_add by lia; apply Z.mod_small; lia).
  assert (E2 : ((qp * (2 * 3) * (2 * 3) + x * (2 * 3) + y) / 6) mod 6 = x) by (replace (qp * (2 * 3) * (2 * 3) + x * (2 * 3) + y) with (y + (x + qp * 6) * 6) by ring; rewrite Z.div_add by lia; rewrite (Z.div_small y) by lia; rewrite Z.add_0_l, Z.mod_add by lia; apply Z.mod_small; lia).
  now rewrite E1, E2.
Qed.
Lemma Sl6_skew qp : skew_table 3 Sl6 qp.
Proof. intros x y Hx Hy. rewrite !Sl6_cell by lia. replace ((x - y) ^ 3) with (- ((y - x) ^ 3)) by ring. rewrite opp_IZR, RtoC_opp. reflexivity. Qed.
Definition four (z : Z -> Z -> Z) : Z := z 0 1 * z 2 3 - z 0 2 * z 1 3 + z 0 3 * z 1 2.
Lemma pf_four (z : Z -> Z -> Z) : pf (fun i j => RtoC (IZR (z i j))) (zrange 0 4) = RtoC (IZR (four z)).
Proof.
  change (zrange 0 4) with [0; 1; 2; 3]. rewrite !pf_cons. cbn [psum]. rewrite !pf_cons. cbn [psum]. rewrite !pf_nil. unfold four. rewrite plus_IZR, minus_IZR, !mult_IZR. apply (f_equal2 (@pair R R)); cbn; ring.
Qed.
Definition entries (e : Z -> Z) (i j : Z) : Z := Slz (0 * (2 * 3) * (2 * 3) + orbital 3 2 e i * (2 * 3) + orbital 3 2 e j).
Lemma val4 e : pf (pair_matrix 3 2 Sl6 0 e) (zrange 0 (2 * 2)) = RtoC (IZR (four (entries e))).
Proof. exact (pf_four (entries e)). Qed.
Lemma nonzero4 e : four (entries e) <> 0 -> pf (pair_matrix 3 2 Sl6 0 e) (zrange 0 (2 * 2)) <> RtoC 0.
Proof. rewrite val4. intros H E. apply H. injection E as E. now apply eq_IZR in E. Qed.
Lemma regular4 : stays_regular 2 (fun e => pf (pair_matrix 3 2 Sl6 0 e) (zrange 0 (2 * 2)) <> RtoC 0) start4 moves4.
Proof. cbn [stays_regular moves4]. repeat split; apply nonzero4; vm_compute; discriminate. Qed.
Lemma possible4 : Forall (fun m => possible 3 2 2 (fst m)) moves4.
Proof. unfold moves4. repeat constructor; cbn; lia. Qed.
Lemma lattice4 : on_lattice 3 (2 * 2) start4.
Proof. intros k Hk. unfold start4. repeat destruct (Z.eqb _ _); lia. Qed.
Lemma values4 : map (fun e => turned 2 (pf (pair_matrix 3 2 Sl6 0 e) (zrange 0 (2 * 2)))) (visited 2 start4 moves4) = map (fun z => RtoC (IZR z)) [-144; -540; -720; -540].
Proof.
  cbn [visited moves4 map]. unfold turned. change (Z.even 2) with true. cbv iota. rewrite !val4. rewrite <- !RtoC_opp, <- !opp_IZR.
  repeat (apply (f_equal2 (@cons C)); [apply (f_equal (fun z => RtoC (IZR z))); vm_compute; reflexivity|]). reflexivity.
Qed.
Theorem case4 junk M0 : exists s0 s, initialize (2 * 3) (2 * 2) (orbital_matrix 3 Sl6 0) junk ref_sktrf ref_trtri 64 M0 (elements 3 start4 (universal_spins 2)) = Some s0 /\
  trials (2 * 3) (2 * 2) 2 (orbital_matrix 3 Sl6 0) junk ref_sktrf ref_skpfa ref_trtri 64 (asked 3 2 moves4) s0 = Some (map (fun z => RtoC (IZR z)) [-144; -540; -720; -540], s).
Proof.
  destruct (sampling_ok 3 2 2 Sl6 0 (Sl6_skew 0) ltac:(lia) junk ref_sktrf ref_skpfa ref_trtri 64 M0 start4 moves4 ltac:(lia) ref_factorises ref_pfaffian ref_inverts lattice4 possible4 regular4) as (s0 & s & E0 & _ & E).
  exists s0, s. split; [exact E0|]. rewrite E. now rewrite values4.
Qed.
Theorem sign_refuted : ~ forall Nsite Ne Sl qp junk sktrf trtri npanel M0 e s0, skew_table Nsite Sl qp -> 0 < Ne -> factorises_upper sktrf -> inverts trtri -> on_lattice Nsite (2 * Ne) e ->
  initialize (2 * Nsite) (2 * Ne) (orbital_matrix Nsite Sl qp) junk sktrf trtri npanel M0 (elements Nsite e (universal_spins Ne)) = Some s0 ->
  Copp (get_pfa s0) = pf (pair_matrix Nsite Ne Sl qp e) (zrange 0 (2 * Ne)).
Proof.
  intros H. destruct (sampling_ok 3 2 2 Sl6 0 (Sl6_skew 0) ltac:(lia) (fun _ => RtoC 0) ref_sktrf ref_skpfa ref_trtri 64 (fun _ => RtoC 0) start4 [] ltac:(lia) ref_factorises ref_pfaffian ref_inverts lattice4 (Forall_nil _) (proj1 regular4)) as (s0 & s & E0 & Ep & _).
  rewrite (H 3 2 Sl6 0 _ _ _ _ _ start4 s0 (Sl6_skew 0) ltac:(lia) ref_factorises ref_inverts lattice4 E0), val4 in Ep. unfold turned in Ep. change (Z.even 2) with true in Ep. cbv iota in Ep.
  rewrite <- RtoC_opp, <- opp_IZR in Ep. injection Ep as Ep. apply eq_IZR in Ep. vm_compute in Ep. discriminate.
Qed.
Theorem split_refuted : ~ forall (w P P' : Z -> C), csum (zrange 0 2) (fun q => Cmult (w q) (P q)) <> RtoC 0 -> group_ip w [(0, 1); (1, 2)] P <> RtoC 0 ->
  Cdiv (group_ip w [(0, 1); (1, 2)] P') (group_ip w [(0, 1); (1, 2)] P) = Cdiv (csum (zrange 0 2) (fun q => Cmult (w q) (P' q))) (csum (zrange 0 2) (fun q => Cmult (w q) (P q))).
Proof.
  intros H. specialize (H (fun _ => RtoC 1) (fun _ => RtoC 1) (fun q => if q =? 0 then RtoC 1 else RtoC 3)).
  assert (E1 : forall P, csum (zrange 0 2) (fun q => Cmult (RtoC 1) (P q)) = Cplus (P 0) (P 1)) by (intros P; change (zrange 0 2) with [0; 1]; cbn [csum]; ring).
  assert (E2 : forall P, group_ip (fun _ => RtoC 1) [(0, 1); (1, 2)] P = Cplus (P 0) (P 0)) by (intros P; unfold group_ip; cbn [csum fst snd]; change (zrange 0 (1 - 0)) with [0]; change (zrange 0 (2 - 1)) with [0]; cbn [csum]; ring).
  rewrite !E1, !E2 in H. cbn [Z.eqb] in H.
  assert (N : Cplus (RtoC 1) (RtoC 1) <> RtoC 0) by (intros E; injection E; intros; Lra.lra).
  specialize (H N N). apply (f_equal (fun z => Cmult z (Cplus (RtoC 1) (RtoC 1)))) in H. unfold Cdiv in H. rewrite <- !Cmult_assoc, !(Cmult_comm (Cinv _)), !Cinv_r in H by exact N. rewrite !Cmult_1_r in H. injection H. intros. Lra.lra.
Qed.
