(** C45, C56, C57: definition files of the variational parameters. *)
From Coq Require Import ZArith List Bool String Lia.
From Verif Require Import Base.ZLoop Mem.Model Mem.Spec Opt.Model Opt.Spec Opt.ProofsFlags Opt.ProofsTab Opt.ProofsIdx Opt.Cases.
From Verif Require File.Spec File.Cases.
Import ListNotations.
Local Open Scope Z_scope.

(** C45: after an accepted reading every parameter lies in one named family; the flag of its real part is the flag of its line (two parameters share a line of OrbitalParallel).
    Missing: the flag of the imaginary part is the same only for families declared complex ([C45_imaginary_refuted]) and not for OrbitalParallel ([C45_parallel_refuted]);
    lines are taken in file order, whatever their index ([C45_order_refuted]); no OptTrans file ([C45_trans_refuted]). *)
Theorem C45_flags_partial (S : sizes) (files : string -> option (bool * list token)) (cflag : string -> Z) (fuel : nat) (opt : memory) (i : Z) :
  valid S -> orbital_files S files -> FlagOptTrans S <= 0 -> (forall k p, files k = Some p -> exists l, snd p = flag_lines l) ->
  read_flags S files cflag fuel = Accepted opt -> 0 <= i < NPara S ->
  exists kw h first num l x f, File.Spec.place S ("In" ++ kw) = Some (h, first, num) /\ first <= i < first + num /\ files kw = Some (true, flag_lines l) /\
    Z.of_nat (List.length l) = (if String.eqb kw "OrbitalParallel" then num / 2 else num) /\
    nth_error l (Z.to_nat (if String.eqb kw "OrbitalParallel" then (i - first) / 2 else i - first)) = Some (x, f) /\
    opt (2 * i) = Some f /\ opt (2 * i + 1) = (if String.eqb kw "OrbitalParallel" then Some (cflag kw) else if 0 <? cflag kw then Some f else None).
Proof. intros V O T F. now apply flags_ok. Qed.
Print Assumptions C45_flags_partial.
Example C45_flags_case : valid sizes1 /\ orbital_files sizes1 files1 /\ FlagOptTrans sizes1 <= 0 /\ NPara sizes1 = 4 /\
  exists opt, read_flags sizes1 files1 cflag1 5 = Accepted opt /\ opt 4 = Some 0 /\ opt 6 = Some 1 /\ opt 7 = Some 1.
Proof.
  split; [apply File.Cases.small_valid; lia|]. split; [exact files1_orbital|]. split; [cbn; lia|]. split; [reflexivity|]. destruct read1 as (opt & H & E). exists opt. split; [exact H|]. cbn in E. now inversion E.
Qed.
(** a real factor beside complex orbitals: the flag of its imaginary part is never written *)
Theorem C45_imaginary_refuted : exists S files cflag fuel opt, valid S /\ orbital_files S files /\ FlagOptTrans S <= 0 /\ read_flags S files cflag fuel = Accepted opt /\ 0 < NPara S /\ opt 1 = None.
Proof.
  destruct read1 as (opt & H & E). exists sizes1, files1, cflag1, 5%nat, opt. split; [apply File.Cases.small_valid; lia|]. split; [exact files1_orbital|]. split; [cbn; lia|]. split; [exact H|]. split; [reflexivity|]. cbn in E. now inversion E.
Qed.
Print Assumptions C45_imaginary_refuted.
(** complex parallel orbitals declared fixed: their imaginary parts are optimised *)
Theorem C45_parallel_refuted : exists S files fuel opt, valid S /\ orbital_files S files /\ files "OrbitalParallel"%string = Some (true, flag_lines [(0, 0)]) /\
  read_flags S files (fun _ => 1) fuel = Accepted opt /\ opt 0 = Some 0 /\ opt 1 = Some 1.
Proof.
  destruct read2 as (opt & H & E). exists (File.Cases.small 0 0 0 1), files2, 3%nat, opt. split; [apply File.Cases.small_valid; lia|]. split; [exact files2_orbital|]. split; [reflexivity|]. split; [exact H|]. cbn in E. now inversion E.
Qed.
Print Assumptions C45_parallel_refuted.
(** the file says that parameter 1 is fixed and parameter 0 is not; the reading says the opposite *)
Theorem C45_order_refuted : exists S files fuel opt, valid S /\ orbital_files S files /\ files "Jastrow"%string = Some (true, flag_lines [(1, 0); (0, 1)]) /\ NGutzwillerIdx S = 0 /\
  read_flags S files (fun _ => 0) fuel = Accepted opt /\ opt 0 = Some 0 /\ opt 2 = Some 1.
Proof.
  destruct read3 as (opt & H & E). exists (File.Cases.small 0 2 1 0), files3, 5%nat, opt. split; [apply File.Cases.small_valid; lia|]. split; [exact files3_orbital|]. split; [reflexivity|]. split; [reflexivity|]. split; [exact H|exact E].
Qed.
Print Assumptions C45_order_refuted.
(** with OptTrans: its parameter has no flag, and the imaginary part of the fixed orbital is optimised instead *)
Theorem C45_trans_refuted : exists S files fuel opt, valid S /\ orbital_files S files /\ files "Orbital"%string = Some (true, flag_lines [(0, 0)]) /\ NPara S = 2 /\
  read_flags S files (fun _ => 1) fuel = Accepted opt /\ map opt [0; 1; 2; 3] = [Some 0; Some 1; None; None].
Proof.
  destruct read4 as (opt & H & E). exists sizes4, files4, 5%nat, opt. split; [exact sizes4_valid|]. split; [exact files4_orbital|]. split; [reflexivity|]. split; [reflexivity|]. split; [exact H|exact E].
Qed.
Print Assumptions C45_trans_refuted.

(** C56: accepted tables are antisymmetric, for all file contents *)
Theorem C56_general_antisymmetric (N AP : Z) (flags_ok : list (list token) -> bool) (file : list (list token)) (a : orbitals) : 0 <= N ->
  get_info_orbital_general N AP flags_ok file no_orbitals = Filled a -> antisymmetric N a.
Proof. intros HN H. apply (general_skew N AP flags_ok file no_orbitals a HN H). apply no_skew. Qed.
Print Assumptions C56_general_antisymmetric.
(** OrbitalAntiParallel, then OrbitalParallel *)
Theorem C56_both_antisymmetric (N AP NAP : Z) (ok1 ok2 : list (list token) -> bool) (file1 file2 : list (list token)) (a b : orbitals) : 0 <= N ->
  get_info_orbital_antiparallel N AP ok1 file1 no_orbitals = Filled a -> get_info_orbital_parallel N AP NAP ok2 file2 a = Filled b -> antisymmetric N a /\ antisymmetric N b.
Proof. intros HN H1 H2. assert (A := antiparallel_skew N AP ok1 file1 no_orbitals a HN H1 (no_skew N)). split; [exact A|]. exact (parallel_skew N AP NAP ok2 file2 a b HN H2 A). Qed.
Print Assumptions C56_both_antisymmetric.
(** every pair of spin orbitals has the parameter and sign of its line; all signs are plus without antiperiodic boundary *)
Theorem C56_general_values (N AP : Z) (flags_ok : list (list token) -> bool) (lines : list (list Z)) (rest : list (list token)) (a : orbitals) :
  0 <= N -> Z.of_nat (List.length lines) = 2 * N * N - N -> List.Forall (fun l => List.length l = 6%nat) lines -> NoDup (map (general_pair N) lines) ->
  get_info_orbital_general N AP flags_ok (number_lines lines ++ rest) no_orbitals = Filled a ->
  forall x y, 0 <= x < y -> y < 2 * N -> exists i s j t f g, In [i; s; j; t; f; g] lines /\ x = i + s * N /\ y = j + t * N /\ fst a x y = f /\ snd a x y = if AP =? 0 then 1 else g.
Proof. exact (general_values N AP flags_ok lines rest a). Qed.
Print Assumptions C56_general_values.
Example C56_general_case : NoDup (map (general_pair 2) six_lines) /\ exists a, get_info_orbital_general 2 1 (fun _ => true) (number_lines six_lines ++ []) no_orbitals = Filled a /\ fst a 2 0 = 1 /\ snd a 2 0 = 1 /\ fst a 2 3 = 4 /\ snd a 2 3 = -1.
Proof. split; [exact six_distinct|exact six_read]. Qed.
Theorem C56_both_values (N AP NAP : Z) (ok1 ok2 : list (list token) -> bool) (lines1 lines2 : list (list Z)) (rest1 rest2 : list (list token)) (a b : orbitals) :
  1 < N -> Z.of_nat (List.length lines1) = N * N -> 2 * Z.of_nat (List.length lines2) = N * (N - 1) ->
  List.Forall (fun l => List.length l = 4%nat) lines1 -> List.Forall (fun l => List.length l = 4%nat) lines2 -> NoDup (map site_pair lines1) -> NoDup (map site_pair lines2) ->
  get_info_orbital_antiparallel N AP ok1 (number_lines lines1 ++ rest1) no_orbitals = Filled a -> get_info_orbital_parallel N AP NAP ok2 (number_lines lines2 ++ rest2) a = Filled b ->
  (forall i j, 0 <= i < N -> 0 <= j < N -> exists f g, In [i; j; f; g] lines1 /\ fst b i (j + N) = f /\ snd b i (j + N) = if AP =? 0 then 1 else g) /\
  (forall i j s, 0 <= i < j -> j < N -> s = 0 \/ s = 1 -> exists f g, In [i; j; f; g] lines2 /\ fst b (i + s * N) (j + s * N) = NAP + 2 * f + s /\ snd b (i + s * N) (j + s * N) = if AP =? 0 then 1 else g).
Proof.
  intros HN L1 L2 C1 C2 D1 D2 H1 H2. assert (HN' : 0 <= N) by lia. destruct (parallel_values N AP NAP ok2 lines2 rest2 a b HN' L2 HN C2 D2 H2) as [P1 P2]. split; [|exact P1].
  intros i j Hi Hj. destruct (P2 i j Hi Hj) as [-> ->]. exact (anti_values N AP ok1 lines1 rest1 a HN' L1 C1 D1 H1 i j Hi Hj).
Qed.
Print Assumptions C56_both_values.
Example C56_both_case : NoDup (map site_pair anti_lines) /\ exists a b, get_info_orbital_antiparallel 2 1 (fun _ => true) (number_lines anti_lines ++ []) no_orbitals = Filled a /\ get_info_orbital_parallel 2 1 2 (fun _ => true) (number_lines para_lines ++ []) a = Filled b /\
  fst b 1 2 = 1 /\ snd b 1 2 = -1 /\ snd b 2 1 = 1 /\ fst b 2 3 = 3 /\ snd b 3 2 = 1.
Proof. split; [exact anti_distinct|exact both_read]. Qed.
(** Gutzwiller and RBM layers: one line per site *)
Theorem C56_sites (N : Z) (lines : list (Z * Z)) (rest : list token) (fuel : nat) (a : memory) (n : Z) (a' : memory) (rest' : list token) :
  0 < N -> Z.of_nat (List.length lines) = N -> NoDup (map fst lines) -> read_sites N fuel (flag_lines lines ++ rest) 0 0 a = Ok (n, false, a', rest') ->
  n = N /\ rest' = rest /\ forall i, 0 <= i < N -> exists v, In (i, v) lines /\ a' i = Some v.
Proof. exact (sites_all N lines rest fuel a n a' rest'). Qed.
Print Assumptions C56_sites.
Example C56_sites_case : exists a, read_sites 2 3 (flag_lines [(1, 5); (0, 7)] ++ [Num 0]) 0 0 (fun _ => None) = Ok (2, false, a, [Num 0]) /\ a 0 = Some 7 /\ a 1 = Some 5.
Proof. eexists. split; [reflexivity|]. now split. Qed.
(** Jastrow: one line per ordered pair *)
Theorem C56_site_pairs (N : Z) (lines : list (Z * Z * Z)) (rest : list token) (fuel : nat) (a : table) (n : Z) (a' : table) (rest' : list token) :
  1 < N -> Z.of_nat (List.length lines) = N * (N - 1) -> NoDup (map fst lines) -> read_pairs N fuel (pair_lines lines ++ rest) 0 0 0 a = Ok (n, false, a', rest') ->
  n = N * (N - 1) /\ rest' = rest /\ forall i j, 0 <= i < N -> 0 <= j < N -> i <> j -> exists v, In (i, j, v) lines /\ a' i j = Some v.
Proof. exact (pairs_all N lines rest fuel a n a' rest'). Qed.
Print Assumptions C56_site_pairs.
Example C56_site_pairs_case : exists a, read_pairs 2 3 (pair_lines [(1, 0, 4); (0, 1, 4)] ++ [Num 0]) 0 0 0 (fun _ _ => None) = Ok (2, false, a, [Num 0]) /\ a 0 1 = Some 4 /\ a 1 0 = Some 4 /\ a 0 0 = Some (-1).
Proof. eexists. split; [reflexivity|]. now repeat split. Qed.
(** a pair listed again and again is accepted; the pair (2, 3) then uses parameter 0 *)
Theorem C56_repeated_refuted : exists lines a, List.length lines = 6%nat /\ (forall l, In l lines -> l = [0; 0; 1; 0; 3; 1]) /\
  get_info_orbital_general 2 0 (fun _ => true) (number_lines lines) no_orbitals = Filled a /\ fst a 2 3 = 0 /\ snd a 2 3 = 1.
Proof. destruct same_read as (a & H & _ & E). exists same_lines, a. split; [reflexivity|]. split; [intros l Hl; exact (repeat_spec 6 _ l Hl)|]. now split. Qed.
Print Assumptions C56_repeated_refuted.
(** a parameter that does not exist is accepted: the number of parameters is not looked at *)
Theorem C56_parameter_refuted : exists a, get_info_orbital_general 1 1 (fun _ => true) (number_lines [[0; 0; 0; 1; 99; 1]]) no_orbitals = Filled a /\ fst a 0 1 = 99.
Proof. eexists. split; reflexivity. Qed.
Print Assumptions C56_parameter_refuted.
(** a spin that does not exist, or a site before the first one in a one-index file, is written outside the table *)
Theorem C56_outside_refuted : get_info_orbital_general 1 1 (fun _ => true) (number_lines [[0; 0; 0; 2; 0; 1]]) no_orbitals = Overrun /\
  (forall N fuel rest a, read_sites N (Datatypes.S fuel) (Num (-1) :: Num 0 :: rest) 0 0 a = Outside).
Proof. split; reflexivity. Qed.
Print Assumptions C56_outside_refuted.
(** a Jastrow file may give different factors to (i, j) and (j, i) *)
Theorem C56_jastrow_refuted : exists a, read_pairs 2 3 (pair_lines [(0, 1, 0); (1, 0, 1)]) 0 0 0 (fun _ _ => None) = Ok (2, false, a, []) /\ a 0 1 <> a 1 0.
Proof. eexists. split; [reflexivity|]. discriminate. Qed.
Print Assumptions C56_jastrow_refuted.

(** C57: files of numbers, two per flag line, are read to the end.  Missing: other files, see [C57_word_refuted] *)
Theorem C57_numbers_partial (S : sizes) (files : string -> option (bool * list token)) (cflag : string -> Z) (fuel : nat) :
  (forall k p, files k = Some p -> exists l, snd p = flag_lines l /\ (List.length l < fuel)%nat) -> read_flags S files cflag fuel <> Endless.
Proof. exact (read_end S files cflag fuel). Qed.
Print Assumptions C57_numbers_partial.
Example C57_numbers_case : (forall k p, files1 k = Some p -> exists l, snd p = flag_lines l /\ (List.length l < 5)%nat) /\ read_flags sizes1 files1 cflag1 5 <> Endless.
Proof. split; [exact files1_lines|]. destruct read1 as (opt & -> & _). discriminate. Qed.
(** a word that is no number among the flags of a real family: the reading never ends *)
Theorem C57_word_refuted : exists S files, valid S /\ orbital_files S files /\ files "Gutzwiller"%string = Some (true, [Num 0; Num 1; Word]) /\
  forall fuel, read_flags S files (fun _ => 0) fuel = Endless.
Proof.
  exists (File.Cases.small 1 0 1 0), files5. split; [apply File.Cases.small_valid; lia|]. split; [right; repeat split; try reflexivity; discriminate|]. split; [reflexivity|]. intros fuel.
  assert (H : forall st, read_family (File.Cases.small 1 0 1 0) files5 (fun _ => 0) fuel ("Gutzwiller"%string, (false, 0, 1)) (st, 0, false) = OutOfFuel).
  { intros st. unfold read_family. cbn [fst snd]. replace (files5 "Gutzwiller"%string) with (Some (true, [Num 0; Num 1; Word])) by reflexivity. cbn [Z.eqb Pos.eqb]. destruct fuel as [|fuel]; [reflexivity|]. cbn [get_info_opt skip_number scan]. change (put (2 * NPara (File.Cases.small 1 0 1 0)) st (2 * 0) (Some 1)) with (Ok (upd st 0 (Some 1))). cbn [bind Z.ltb Z.compare]. now rewrite word_forever. }
  unfold read_flags. cbn [flag_keywords fold_left bind]. change (NGutzwillerIdx (File.Cases.small 1 0 1 0)) with 1. rewrite H. reflexivity.
Qed.
Print Assumptions C57_word_refuted.
