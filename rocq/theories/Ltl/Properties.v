(** C70: Pfaffian and inverse from the tridiagonal factorisation. *)
From Coq Require Import ZArith List Bool Lia Reals.
From Coquelicot Require Import Complex.
From Verif Require Import Base.ZLoop Base.RSum Pf.Pfaffian Pf.Model Pf.Spec Pf.ProofsTwo Ltl.Model Ltl.Spec Ltl.Pfa Ltl.Proofs Ltl.Frame Ltl.Cases.
Local Open Scope Z_scope.

(** The number utu2pfa (upper) or ltl2pfa (lower) returns is the Pfaffian of the matrix that was factorised, for every even size. *)
Theorem C70_pfaffian (upper : bool) n A R ld piv : Z.Even n -> 0 <= n -> factorised upper n A R ld piv ->
  (if upper then utu2pfa n R ld piv else ltl2pfa n R ld piv) = pf A (zrange 0 n).
Proof. exact (pfaffian_is upper n A R ld piv). Qed.
Print Assumptions C70_pfaffian.

(** What utu2inv or ltl2inv leaves is the skew inverse of that matrix whenever the Pfaffian is not zero, for every panel width the
    library may choose and whatever the work space held. *)
Theorem C70_inverse trtri npanel (upper : bool) n A R ldA piv M ldM : inverts trtri -> Z.Even n -> 0 <= n -> n <= ldA -> n <= ldM ->
  factorised upper n A R ldA piv -> pf A (zrange 0 n) <> RtoC 0 ->
  exists Y, (if upper then utu2inv trtri npanel n R ldA piv M ldM else ltl2inv trtri npanel n R ldA piv M ldM) = Some Y /\ is_inverse n (at_ Y ldA) A.
Proof. exact (fun H => inverse_when trtri npanel H upper n A R ldA piv M ldM). Qed.
Print Assumptions C70_inverse.

(** It divides by zero exactly when the Pfaffian is zero. *)
Theorem C70_singular trtri npanel (upper : bool) n A R ldA piv M ldM : inverts trtri -> Z.Even n -> 0 <= n -> n <= ldA -> n <= ldM ->
  factorised upper n A R ldA piv ->
  ((if upper then utu2inv trtri npanel n R ldA piv M ldM else ltl2inv trtri npanel n R ldA piv M ldM) = None <-> pf A (zrange 0 n) = RtoC 0).
Proof. exact (fun H => singular_iff trtri npanel H upper n A R ldA piv M ldM). Qed.
Print Assumptions C70_singular.

(** It writes to no cell outside the n x n matrix. *)
Theorem C70_frame trtri npanel (upper : bool) n R ldA piv M ldM Y : inverts trtri -> Z.Even n -> 2 <= n -> n <= ldA -> (forall j, 0 <= j < n -> 1 <= piv j <= n) ->
  (if upper then utu2inv trtri npanel n R ldA piv M ldM else ltl2inv trtri npanel n R ldA piv M ldM) = Some Y ->
  forall p, ~ (exists i j, 0 <= i < n /\ 0 <= j < n /\ p = i + j * ldA) -> Y p = R p.
Proof. exact (fun H => inverse_frame trtri npanel H upper n R ldA piv M ldM Y). Qed.
Print Assumptions C70_frame.

(** The Pfaffian and the inverse that the program recomputes for a projection are those of the matrix of pair amplitudes of the
    configuration: C22_from_scratch with the contract of the two external routines in place of that of the whole computation. *)
Theorem C70_tables trtri npanel sktrf bufM Nsite Ne Sl eleIdx qpStart q InvM PfM I P : inverts trtri -> factorises sktrf ->
  0 < Ne -> skew_table Nsite Sl (q + qpStart) -> on_lattice Nsite (2 * Ne) eleIdx ->
  calculate_mall_child Nsite Ne (2 * Ne) Sl (pfaffian_and_inverse trtri npanel sktrf bufM) eleIdx qpStart q InvM PfM = Some (I, P) ->
  P q = pf (pair_matrix Nsite Ne Sl (q + qpStart) eleIdx) (zrange 0 (2 * Ne)) /\
  is_inverse (2 * Ne) (stored (2 * Ne) I q) (pair_matrix Nsite Ne Sl (q + qpStart) eleIdx) /\
  forall q', q' <> q -> P q' = PfM q' /\ forall i j, 0 <= i < 2 * Ne -> 0 <= j < 2 * Ne -> stored (2 * Ne) I q' i j = stored (2 * Ne) InvM q' i j.
Proof. exact (tables_of_calls trtri npanel sktrf bufM Nsite Ne Sl eleIdx qpStart q InvM PfM I P). Qed.
Print Assumptions C70_tables.

(** Cases.  A triangular inversion that meets its contract for all sizes; a 4x4 matrix with interchanges whose Pfaffian is 10 (upper) and
    one with -10 (lower), with panels of width 3 and whole; a factorisation routine and a configuration of two electrons. *)
Example C70_case_contract : inverts ref_trtri. Proof. exact ref_inverts. Qed.
Example C70_case_upper : factorised true 4 matrix4 stored4 5 pivots4 /\ utu2pfa 4 stored4 5 pivots4 = RtoC 10 /\
  (exists Y, utu2inv ref_trtri 3 4 stored4 5 pivots4 (fun _ => RtoC 9) 4 = Some Y /\ is_inverse 4 (at_ Y 5) matrix4) /\
  exists Y, utu2inv ref_trtri 64 4 stored4 5 pivots4 (fun _ => RtoC 9) 4 = Some Y /\ is_inverse 4 (at_ Y 5) matrix4.
Proof. exact case_upper. Qed.
Example C70_case_lower : factorised false 4 matrix4l stored4l 4 pivots4l /\ ltl2pfa 4 stored4l 4 pivots4l = RtoC (-10) /\
  exists Y, ltl2inv ref_trtri 3 4 stored4l 4 pivots4l (fun _ => RtoC 9) 4 = Some Y /\ is_inverse 4 (at_ Y 4) matrix4l.
Proof. exact case_lower. Qed.
Example C70_case_tables : factorises sktrf2 /\ exists I P, calculate_mall_child 1 1 2 table2 (pfaffian_and_inverse ref_trtri 64 sktrf2 (fun _ => RtoC 9)) (fun _ => 0) 0 0 (fun _ => RtoC 0) (fun _ => RtoC 0) = Some (I, P) /\
  skew_table 1 table2 (0 + 0) /\ on_lattice 1 (2 * 1) (fun _ => 0).
Proof. exact case_tables. Qed.
