(** Properties C22-C24: Pfaffian ratios and inverse updates *)
From Coq Require Import ZArith List Bool Reals Lia Lra.
From Coquelicot Require Import Complex.
From Verif Require Import Base.ZLoop Base.RSum Pf.Pfaffian Pf.Model Pf.Spec Pf.Algebra Pf.Proofs Pf.ProofsTwo Pf.ProofsSeq.
Import ListNotations.
Local Open Scope Z_scope.

(** C22.  After an accepted one-electron move the tables are those of the new configuration. *)
Theorem C22_one_electron_update Nsite Ne Sl eleIdx InvM PfM m s r qpStart qpEnd :
  0 < Ne -> (forall q, 0 <= q < qpEnd - qpStart -> skew_table Nsite Sl (q + qpStart)) ->
  electron Ne m s -> 0 <= r < Nsite -> on_lattice Nsite (2 * Ne) eleIdx ->
  current Nsite Ne Sl qpStart qpEnd eleIdx InvM PfM ->
  regular Nsite Ne Sl qpStart qpEnd (upd eleIdx (m + s * Ne) r) ->
  let st := update_mall Nsite Ne (2 * Ne) Sl m s (upd eleIdx (m + s * Ne) r) qpStart qpEnd (InvM, PfM) in
  current Nsite Ne Sl qpStart qpEnd (upd eleIdx (m + s * Ne) r) (fst st) (snd st).
Proof. exact (fun H => update_one Nsite Ne H Sl eleIdx InvM PfM m s r qpStart qpEnd). Qed.
Print Assumptions C22_one_electron_update.

(** any number of accepted one-electron moves *)
Theorem C22_any_sequence Nsite Ne Sl qpStart qpEnd moves eleIdx InvM PfM :
  0 < Ne -> (forall q, 0 <= q < qpEnd - qpStart -> skew_table Nsite Sl (q + qpStart)) ->
  on_lattice Nsite (2 * Ne) eleIdx ->
  current Nsite Ne Sl qpStart qpEnd eleIdx InvM PfM ->
  Forall (fun mv => exists m s r, mv = One m s r /\ electron Ne m s /\ 0 <= r < Nsite) moves ->
  all_regular Nsite Ne Sl qpStart qpEnd eleIdx moves ->
  let '(ele', st) := fold_left (accept Nsite Ne Sl qpStart qpEnd) moves (eleIdx, (InvM, PfM)) in
  ele' = fold_left (moved Ne) moves eleIdx /\ current Nsite Ne Sl qpStart qpEnd ele' (fst st) (snd st).
Proof. exact (seq_one Nsite Ne Sl qpStart qpEnd moves eleIdx InvM PfM). Qed.
Print Assumptions C22_any_sequence.

(** the tables computed from scratch, by any correct Pfaffian/inversion routine on column-major matrices *)
Theorem C22_from_scratch Nsite Ne Sl skpf eleIdx qpStart q InvM PfM I P :
  0 < Ne -> oracle_correct skpf -> skew_table Nsite Sl (q + qpStart) -> on_lattice Nsite (2 * Ne) eleIdx ->
  calculate_mall_child Nsite Ne (2 * Ne) Sl skpf eleIdx qpStart q InvM PfM = Some (I, P) ->
  P q = pf (pair_matrix Nsite Ne Sl (q + qpStart) eleIdx) (zrange 0 (2 * Ne)) /\
  is_inverse (2 * Ne) (stored (2 * Ne) I q) (pair_matrix Nsite Ne Sl (q + qpStart) eleIdx) /\
  forall q', q' <> q -> P q' = PfM q' /\ forall i j, 0 <= i < 2 * Ne -> 0 <= j < 2 * Ne -> stored (2 * Ne) I q' i j = stored (2 * Ne) InvM q' i j.
Proof. exact (fun H => scratch Nsite Ne H Sl skpf eleIdx qpStart q InvM PfM I P). Qed.
Print Assumptions C22_from_scratch.

(** recomputing the tables of a configuration gives back the updated ones: there is only one inverse *)
Theorem C22_recompute_agrees Nsite Ne Sl skpf eleIdx qpStart qpEnd q InvM PfM I P :
  0 < Ne -> oracle_correct skpf -> skew_table Nsite Sl (q + qpStart) -> on_lattice Nsite (2 * Ne) eleIdx ->
  0 <= q < qpEnd - qpStart ->
  current Nsite Ne Sl qpStart qpEnd eleIdx InvM PfM ->
  calculate_mall_child Nsite Ne (2 * Ne) Sl skpf eleIdx qpStart q InvM PfM = Some (I, P) ->
  P q = PfM q /\ forall i j, 0 <= i < 2 * Ne -> 0 <= j < 2 * Ne -> stored (2 * Ne) I q i j = stored (2 * Ne) InvM q i j.
Proof. exact (recompute Nsite Ne Sl skpf eleIdx qpStart qpEnd q InvM PfM I P). Qed.
Print Assumptions C22_recompute_agrees.

(** C23.  Two-electron update, whatever old sites are passed (the code reads its "old" element at raOld twice). *)
Theorem C23_two_electron_update Nsite Ne Sl eleIdx InvM PfM ma s ra mb t rb raOld rbOld qpStart qpEnd :
  0 < Ne -> (forall q, 0 <= q < qpEnd - qpStart -> skew_table Nsite Sl (q + qpStart)) ->
  electron Ne ma s -> electron Ne mb t -> ma + s * Ne <> mb + t * Ne -> 0 <= ra < Nsite -> 0 <= rb < Nsite ->
  on_lattice Nsite (2 * Ne) eleIdx ->
  current Nsite Ne Sl qpStart qpEnd eleIdx InvM PfM ->
  let ele' := upd (upd eleIdx (ma + s * Ne) ra) (mb + t * Ne) rb in
  regular Nsite Ne Sl qpStart qpEnd ele' ->
  let st := update_mall_two Nsite Ne (2 * Ne) Sl ma s mb t raOld rbOld ele' qpStart qpEnd (InvM, PfM) in
  current Nsite Ne Sl qpStart qpEnd ele' (fst st) (snd st).
Proof. exact (fun H => update_two Nsite Ne H Sl eleIdx InvM PfM ma s ra mb t rb raOld rbOld qpStart qpEnd). Qed.
Print Assumptions C23_two_electron_update.

(** any sequence of accepted one- and two-electron moves *)
Theorem C23_any_sequence Nsite Ne Sl qpStart qpEnd moves eleIdx InvM PfM :
  0 < Ne -> (forall q, 0 <= q < qpEnd - qpStart -> skew_table Nsite Sl (q + qpStart)) ->
  on_lattice Nsite (2 * Ne) eleIdx ->
  current Nsite Ne Sl qpStart qpEnd eleIdx InvM PfM ->
  Forall (legal Nsite Ne) moves ->
  all_regular Nsite Ne Sl qpStart qpEnd eleIdx moves ->
  let '(ele', st) := fold_left (accept Nsite Ne Sl qpStart qpEnd) moves (eleIdx, (InvM, PfM)) in
  ele' = fold_left (moved Ne) moves eleIdx /\ current Nsite Ne Sl qpStart qpEnd ele' (fst st) (snd st).
Proof. exact (seq_any Nsite Ne Sl qpStart qpEnd moves eleIdx InvM PfM). Qed.
Print Assumptions C23_any_sequence.

(** C24.  The Pfaffians used in the acceptance tests are those of the proposed configuration; the proposal may be singular. *)
Theorem C24_one_electron_pfaffian Nsite Ne Sl eleIdx InvM PfM pfN m s r qpStart qpEnd :
  0 < Ne -> (forall q, 0 <= q < qpEnd - qpStart -> skew_table Nsite Sl (q + qpStart)) ->
  electron Ne m s -> 0 <= r < Nsite -> on_lattice Nsite (2 * Ne) eleIdx ->
  current Nsite Ne Sl qpStart qpEnd eleIdx InvM PfM ->
  forall q, 0 <= q < qpEnd - qpStart ->
    calculate_new_pfm Nsite Ne (2 * Ne) Sl m s (upd eleIdx (m + s * Ne) r) qpStart qpEnd InvM PfM pfN q =
    pf (pair_matrix Nsite Ne Sl (q + qpStart) (upd eleIdx (m + s * Ne) r)) (zrange 0 (2 * Ne)).
Proof. exact (fun H => calc_one Nsite Ne H Sl eleIdx InvM PfM pfN m s r qpStart qpEnd). Qed.
Print Assumptions C24_one_electron_pfaffian.

(** also when the two moves are of the same electron *)
Theorem C24_two_electron_pfaffian Nsite Ne Sl eleIdx InvM PfM pfN ma s ra mb t rb qpStart qpEnd :
  0 < Ne -> (forall q, 0 <= q < qpEnd - qpStart -> skew_table Nsite Sl (q + qpStart)) ->
  electron Ne ma s -> electron Ne mb t -> 0 <= ra < Nsite -> 0 <= rb < Nsite -> on_lattice Nsite (2 * Ne) eleIdx ->
  current Nsite Ne Sl qpStart qpEnd eleIdx InvM PfM ->
  forall q, 0 <= q < qpEnd - qpStart ->
    calculate_new_pfm_two Nsite Ne (2 * Ne) Sl ma s mb t (upd (upd eleIdx (ma + s * Ne) ra) (mb + t * Ne) rb) qpStart qpEnd InvM PfM pfN q =
    pf (pair_matrix Nsite Ne Sl (q + qpStart) (upd (upd eleIdx (ma + s * Ne) ra) (mb + t * Ne) rb)) (zrange 0 (2 * Ne)).
Proof. exact (fun H => calc_two Nsite Ne H Sl eleIdx InvM PfM pfN ma s ra mb t rb qpStart qpEnd). Qed.
Print Assumptions C24_two_electron_pfaffian.

(** An exact proposal need not be safe to accept: the weight compared in the test is the sum over projections, and the
    update of a projection whose own Pfaffian vanishes divides by zero.  Two projections, two electrons: the move is
    accepted with total amplitude 1, the tables afterwards are not those of the configuration (in the model 1/0 is 0, in C it is
    not a number). *)
Theorem C22_singular_projection_refuted :
  exists Nsite Ne Sl eleIdx InvM PfM m s r qpEnd, 0 < Ne /\ (forall q, 0 <= q < qpEnd -> skew_table Nsite Sl (q + 0)) /\
    electron Ne m s /\ 0 <= r < Nsite /\ on_lattice Nsite (2 * Ne) eleIdx /\
    current Nsite Ne Sl 0 qpEnd eleIdx InvM PfM /\
    csum (zrange 0 qpEnd) (fun q => pf (pair_matrix Nsite Ne Sl q (upd eleIdx (m + s * Ne) r)) (zrange 0 (2 * Ne))) = RtoC 1 /\
    let st := update_mall Nsite Ne (2 * Ne) Sl m s (upd eleIdx (m + s * Ne) r) 0 qpEnd (InvM, PfM) in
    ~ current Nsite Ne Sl 0 qpEnd (upd eleIdx (m + s * Ne) r) (fst st) (snd st).
Proof. exact singular_case. Qed.
Print Assumptions C22_singular_projection_refuted.

(** ** concrete cases: two sites, one electron per spin, amplitudes f(0,0)=1, f(0,1)=2, f(1,0)=3, f(1,1)=5 *)
Example C22_case_hypotheses :
  0 < 1 /\ (forall q, 0 <= q < 1 - 0 -> skew_table 2 Sl_ex (q + 0)) /\ electron 1 0 0 /\ 0 <= 1 < 2 /\ on_lattice 2 (2 * 1) ele_ex /\
  current 2 1 Sl_ex 0 1 ele_ex Inv_ex Pf_ex /\ regular 2 1 Sl_ex 0 1 (upd ele_ex (0 + 0 * 1) 1) /\
  Pf_ex 0 = RtoC 2 /\ snd (update_mall 2 1 (2 * 1) Sl_ex 0 0 (upd ele_ex (0 + 0 * 1) 1) 0 1 (Inv_ex, Pf_ex)) 0 = RtoC 5.
Proof. exact case_one. Qed.
Example C23_case_hypotheses :
  Forall (legal 2 1) [Two 0 0 1 0 1 0 0 1; One 0 0 0] /\ all_regular 2 1 Sl_ex 0 1 ele_ex [Two 0 0 1 0 1 0 0 1; One 0 0 0] /\
  snd (snd (fold_left (accept 2 1 Sl_ex 0 1) [Two 0 0 1 0 1 0 0 1; One 0 0 0] (ele_ex, (Inv_ex, Pf_ex)))) 0 = RtoC 1.
Proof. exact case_two. Qed.
Example C22_case_scratch : oracle_correct sk2 /\
  exists I P, calculate_mall_child 2 1 (2 * 1) Sl_ex sk2 ele_ex 0 0 (fun _ => RtoC 0) (fun _ => RtoC 0) = Some (I, P) /\ P 0 = RtoC 2.
Proof. exact (conj sk2_correct case_scratch). Qed.
