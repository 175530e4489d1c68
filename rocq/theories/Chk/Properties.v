(** C80: run settings are accepted when and only when they are consistent *)
From Coq Require Import ZArith List Bool Lia.
From Verif Require Import Base.ZLoop Samp.Prog Samp.Model Chk.Model Chk.Spec Chk.Proofs Chk.ProofsSpin.
Import ListNotations.
Local Open Scope Z_scope.

(** consistent settings are accepted, and the run has the stated number of electrons *)
Theorem C80_accepts s : consistent s -> exists s', check_settings s = Some s' /\ 2 * sNe s' = electrons s' /\ electrons s' = electrons s.
Proof. exact (accepts s). Qed.
Print Assumptions C80_accepts.

(** accepted settings have these properties, and nothing but Ne and SPGaussLeg is changed *)
Theorem C80_accepted s s' : check_settings s = Some s' ->
  (sNCond s = -1 -> sNe s' = sNe s) /\ (sNCond s <> -1 -> even (sNCond s) /\ sNe s' = Z.quot (sNLocSpin s + sNCond s) 2) /\
  (sTwoSz s <> 0 -> sGeneral s = true /\ (sTwoSz s = -1 \/ even (sTwoSz s))) /\
  (sGeneral s = true -> sGauss s' <= 1 /\ (sGauss s <= 1 -> sLanczos s = 0)) /\ (sGeneral s = false -> sGauss s' = sGauss s) /\
  (0 < sNLocSpin s -> sNLocSpin s <= 2 * sNe s' /\ sPath s <> 0 /\ (sNLocSpin s = 2 * sNe s' -> sPath s = 2)) /\
  (sNCond s', sNLocSpin s', sTwoSz s', sGeneral s', sLanczos s', sPath s') = (sNCond s, sNLocSpin s, sTwoSz s, sGeneral s, sLanczos s, sPath s).
Proof. exact (accepted s s'). Qed.
Print Assumptions C80_accepted.

(** a Lanczos step with general orbitals is accepted when a spin projection is requested as well *)
Theorem C80_lanczos_refuted : exists s s', check_settings s = Some s' /\ sGeneral s' = true /\ sLanczos s' <> 0.
Proof. exists (Settings (-1) 0 2 0 true 8 1 0). eexists. split; [reflexivity|]. split; [reflexivity|discriminate]. Qed.
Print Assumptions C80_lanczos_refuted.

(** an odd number of local spins with conduction electrons is accepted, and the run has one electron less *)
Theorem C80_odd_refuted : exists s s', check_settings s = Some s' /\ 0 < sNLocSpin s /\ 0 < sNCond s /\ 2 * sNe s' = electrons s - 1.
Proof. exists (Settings 2 3 0 0 false 1 0 1). eexists. split; [reflexivity|]. split; [reflexivity|]. split; reflexivity. Qed.
Print Assumptions C80_odd_refuted.

(** a total spin that the electrons cannot have is accepted *)
Theorem C80_spin_refuted : exists s s', consistent s /\ check_settings s = Some s' /\ 0 < sNe s' /\ ~ possible_spin s'.
Proof.
  exists (Settings (-1) 0 1 100 true 1 0 1). eexists. split; [|split; [reflexivity|]].
  - constructor; cbn; intros; try lia; try reflexivity. split; [reflexivity|]. right. exists 50. reflexivity.
  - split; [reflexivity|]. unfold possible_spin, electrons. cbn. lia.
Qed.
Print Assumptions C80_spin_refuted.

(** the block size of the machine becomes a positive multiple of eight close to the requested one *)
Theorem C80_block b : 0 < b -> 0 < adjust_block b /\ (exists h, adjust_block b = 8 * h) /\ adjust_block b < b + 8 /\ b - 8 < adjust_block b.
Proof. exact (block b). Qed.
Print Assumptions C80_block.

(** four local spins, four conduction electrons: Ne becomes 4; a spin system that must exchange spins; a request for blocks of 13 *)
Example C80_case : consistent (Settings 4 4 0 (-1) true 8 0 1) /\ check_settings (Settings 4 4 0 (-1) true 8 0 1) = Some (Settings 4 4 4 (-1) true 1 0 1) /\
  consistent (Settings (-1) 6 3 0 false 8 1 2) /\ check_settings (Settings (-1) 6 3 0 false 8 1 1) = None /\ adjust_block 13 = 8 /\ adjust_block 5 = 8.
Proof.
  split; [|split; [reflexivity|split; [|split; [reflexivity|split; reflexivity]]]].
  - constructor; unfold electrons; cbn; intros; try lia; try reflexivity.
    split; [exists 2|exists 4]; reflexivity.

  - constructor; unfold electrons; cbn; intros; try lia; try discriminate.
Qed.

(** for accepted settings the first configuration with general orbitals has the requested total spin, and zero when the spin is not fixed *)
Theorem C80_first_spin s s' I Orc spn : check_settings s = Some s' -> Ne I = sNe s' -> TwoSz I = sTwoSz s' -> 0 <= sNe s' -> sTwoSz s' = -1 \/ Z.abs (sTwoSz s') <= 2 * sNe s' ->
  exists b, initial_spin I Orc spn = Ret b /\ spin_sum (2 * Ne I) b = if sTwoSz s' =? -1 then 0 else sTwoSz s'.
Proof. exact (accepted_spins s s' I Orc spn). Qed.
Print Assumptions C80_first_spin.

(** accepted but impossible total spins start, without any message, from all electrons up or all down: never the requested spin *)
Theorem C80_first_spin_refuted s s' I Orc spn : check_settings s = Some s' -> Ne I = sNe s' -> TwoSz I = sTwoSz s' -> 0 <= sNe s' -> sTwoSz s' <> -1 -> 2 * sNe s' < Z.abs (sTwoSz s') ->
  exists b, initial_spin I Orc spn = Ret b /\ Z.abs (spin_sum (2 * Ne I) b) = 2 * sNe s' /\ spin_sum (2 * Ne I) b <> sTwoSz s'.
Proof. exact (impossible_spins s s' I Orc spn). Qed.
Print Assumptions C80_first_spin_refuted.

(** six electrons: total spin 4 gives five up and one down; 100 gives six up *)
Example C80_first_spin_case I Orc : Ne I = 3 -> 
  (check_settings (Settings (-1) 0 3 4 true 1 0 1) = Some (Settings (-1) 0 3 4 true 1 0 1) /\ (TwoSz I = 4 -> exists b, initial_spin I Orc (fun _ => 7) = Ret b /\ map b (zrange 0 6) = [0;0;0;0;0;1])) /\
  (check_settings (Settings (-1) 0 3 100 true 1 0 1) = Some (Settings (-1) 0 3 100 true 1 0 1) /\ (TwoSz I = 100 -> exists b, initial_spin I Orc (fun _ => 7) = Ret b /\ map b (zrange 0 6) = [0;0;0;0;0;0])).
Proof.
  intros HN. split; (split; [reflexivity|]); intros HT; unfold initial_spin, fill; rewrite HN, HT; eexists; (split; [reflexivity|reflexivity]).
Qed.
