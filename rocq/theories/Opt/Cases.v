(** Concrete files. *)
From Coq Require Import ZArith List Bool String Lia.
From Verif Require Import Base.ZLoop Mem.Model Mem.Spec Opt.Model Opt.Spec.
From Verif Require File.Cases.
Import ListNotations.
Local Open Scope Z_scope.

Definition named_files (l : list (string * (bool * list token))) (k : string) : option (bool * list token) := option_map snd (find (fun e => String.eqb (fst e) k) l).
(** a Gutzwiller factor, two Jastrow factors and an orbital parameter *)
Definition files1 : string -> option (bool * list token) :=
  named_files [("Gutzwiller", (true, flag_lines [(0, 1)])); ("Jastrow", (true, flag_lines [(0, 1); (1, 0)])); ("Orbital", (true, flag_lines [(0, 1)]))]%string.
Definition sizes1 : sizes := File.Cases.small 1 2 1 0.
(** real factors, complex orbitals *)
Definition cflag1 (k : string) : Z := if String.eqb k "Orbital" then 1 else 0.
Lemma files1_lines : forall k p, files1 k = Some p -> exists l, snd p = flag_lines l /\ (List.length l < 5)%nat.
Proof.
  intros k p. unfold files1, named_files. cbn [find fst]. destruct (String.eqb _ k); [intros H; cbn in H; injection H as <-; exists [(0, 1)]; split; [reflexivity|cbn; lia]|].
  destruct (String.eqb _ k); [intros H; cbn in H; injection H as <-; exists [(0, 1); (1, 0)]; split; [reflexivity|cbn; lia]|].
  destruct (String.eqb _ k); [intros H; cbn in H; injection H as <-; exists [(0, 1)]; split; [reflexivity|cbn; lia]|discriminate].
Qed.
Lemma files1_orbital : orbital_files sizes1 files1.
Proof. right. repeat split; try reflexivity; discriminate. Qed.
Lemma read1 : exists opt, read_flags sizes1 files1 cflag1 5 = Accepted opt /\ map opt [0; 1; 2; 3; 4; 5; 6; 7] = [Some 1; None; Some 1; None; Some 0; None; Some 1; Some 1].
Proof. eexists. split; reflexivity. Qed.
(** two fixed parallel orbital parameters, complex *)
Definition files2 : string -> option (bool * list token) := named_files [("OrbitalParallel", (true, flag_lines [(0, 0)]))]%string.
Lemma files2_orbital : orbital_files (File.Cases.small 0 0 0 1) files2.
Proof. right. repeat split; try reflexivity; discriminate. Qed.
Lemma read2 : exists opt, read_flags (File.Cases.small 0 0 0 1) files2 (fun _ => 1) 3 = Accepted opt /\ map opt [0; 1; 2; 3] = [Some 0; Some 1; Some 0; Some 1].
Proof. eexists. split; reflexivity. Qed.
(** lines in another order *)
Definition files3 : string -> option (bool * list token) := named_files [("Jastrow", (true, flag_lines [(1, 0); (0, 1)])); ("Orbital", (true, flag_lines [(0, 1)]))]%string.
Lemma files3_orbital : orbital_files (File.Cases.small 0 2 1 0) files3.
Proof. right. repeat split; try reflexivity; discriminate. Qed.
Lemma read3 : exists opt, read_flags (File.Cases.small 0 2 1 0) files3 (fun _ => 0) 5 = Accepted opt /\ opt 0 = Some 0 /\ opt 2 = Some 1.
Proof. eexists. repeat split; reflexivity. Qed.
(** one orbital parameter, fixed, and an optimised linear combination of one translation *)
Definition sizes4 : sizes :=
  {| Nsite := 2; Ne := 1; NTransfer := 2; NCoulombIntra := 0; NCoulombInter := 0; NHundCoupling := 0;
     NPairHopping := 0; NExchangeCoupling := 0; NGutzwillerIdx := 0; NJastrowIdx := 0;
     NDoublonHolon2siteIdx := 0; NDoublonHolon4siteIdx := 0; FlagRBM := 0; NneuronCharge := 0;
     NneuronSpin := 0; NneuronGeneral := 0; NChargeRBM_PhysLayerIdx := 0; NSpinRBM_PhysLayerIdx := 0;
     NGeneralRBM_PhysLayerIdx := 0; NChargeRBM_HiddenLayerIdx := 0; NSpinRBM_HiddenLayerIdx := 0;
     NGeneralRBM_HiddenLayerIdx := 0; NChargeRBM_PhysHiddenIdx := 0; NSpinRBM_PhysHiddenIdx := 0;
     NGeneralRBM_PhysHiddenIdx := 0; NBackFlowIdx := 0; Nrange := 0; NProjBF := 0; iFlgOrbitalGeneral := 0;
     iNOrbitalAntiParallel := 1; iNOrbitalParallel := 0; NOrbitalIdx := 1; NQPTrans := 1; NCisAjs := 0;
     NCisAjsCktAlt := 0; NCisAjsCktAltDC := 0; NInterAll := 0; NQPOptTrans := 1; FlagOptTrans := 1;
     NSPGaussLeg := 1; NMPTrans := 1 |}.
Lemma sizes4_valid : valid sizes4.
Proof. constructor; cbn; try lia; reflexivity. Qed.
Definition files4 : string -> option (bool * list token) := named_files [("Orbital", (true, flag_lines [(0, 0)])); ("OptTrans", (true, []))]%string.
Lemma files4_orbital : orbital_files sizes4 files4.
Proof. right. repeat split; try reflexivity; discriminate. Qed.
Lemma read4 : exists opt, read_flags sizes4 files4 (fun _ => 1) 5 = Accepted opt /\ map opt [0; 1; 2; 3] = [Some 0; Some 1; None; None].
Proof. eexists. split; reflexivity. Qed.
(** a word among the flags *)
Definition files5 : string -> option (bool * list token) := named_files [("Gutzwiller", (true, [Num 0; Num 1; Word])); ("Orbital", (true, flag_lines [(0, 1)]))]%string.

(** ** orbitals of two sites *)
Definition six_lines : list (list Z) := [[0; 0; 1; 0; 0; 1]; [0; 0; 0; 1; 1; -1]; [0; 0; 1; 1; 2; 1]; [1; 0; 0; 1; 3; 1]; [1; 0; 1; 1; 1; 1]; [0; 1; 1; 1; 4; -1]].
Lemma six_read : exists a, get_info_orbital_general 2 1 (fun _ => true) (number_lines six_lines ++ []) no_orbitals = Filled a /\ fst a 2 0 = 1 /\ snd a 2 0 = 1 /\ fst a 2 3 = 4 /\ snd a 2 3 = -1.
Proof. eexists. split; [reflexivity|]. repeat split; reflexivity. Qed.
Lemma six_distinct : NoDup (map (general_pair 2) six_lines).
Proof. cbn. repeat (constructor; [cbn; intuition discriminate|]). constructor. Qed.
Definition same_lines : list (list Z) := repeat [0; 0; 1; 0; 3; 1] 6.
Lemma same_read : exists a, get_info_orbital_general 2 0 (fun _ => true) (number_lines same_lines) no_orbitals = Filled a /\ fst a 0 1 = 3 /\ fst a 2 3 = 0 /\ snd a 2 3 = 1.
Proof. eexists. split; [reflexivity|]. repeat split; reflexivity. Qed.
Definition anti_lines : list (list Z) := [[0; 0; 0; 1]; [0; 1; 1; 1]; [1; 0; 1; -1]; [1; 1; 0; 1]].
Definition para_lines : list (list Z) := [[0; 1; 0; -1]].
Lemma both_read : exists a b, get_info_orbital_antiparallel 2 1 (fun _ => true) (number_lines anti_lines ++ []) no_orbitals = Filled a /\ get_info_orbital_parallel 2 1 2 (fun _ => true) (number_lines para_lines ++ []) a = Filled b /\
  fst b 1 2 = 1 /\ snd b 1 2 = -1 /\ snd b 2 1 = 1 /\ fst b 2 3 = 3 /\ snd b 3 2 = 1.
Proof. do 2 eexists. split; [reflexivity|]. split; [reflexivity|]. repeat split; reflexivity. Qed.
Lemma anti_distinct : NoDup (map site_pair anti_lines).
Proof. cbn. repeat (constructor; [cbn; intuition discriminate|]). constructor. Qed.
