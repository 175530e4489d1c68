(** Properties C04, C05, C06, C07, C46 (correlation counters). *)
From Coq Require Import ZArith List Bool Lia.
From Verif Require Import Base.ZLoop Base.Checked Proj.Model Proj.Spec Proj.Proofs.
Import ListNotations.
Local Open Scope Z_scope.

(** a concrete system: 3 sites, 2 Gutzwiller, 2 Jastrow, one 2-site and one 4-site shape *)
Definition ex_tables : tables :=
  Tables 3 2 2 1 1
    (fun r => if r =? 0 then 0 else 1)
    (fun i j => if (i + j) =? 1 then 0 else 1)
    (fun _ k => (k / 2 + 1 + k mod 2) mod 3)
    (fun _ k => (k / 4 + 1 + k mod 2) mod 3).
Lemma ex_tables_wf : wf_tables ex_tables.
Proof.
  split; cbn; try lia; intros.
  - destruct (r =? 0); lia.
  - destruct (_ =? _); lia.
Qed.
(** up electrons on sites 0,1; down electrons on 0,2 *)
Definition ex_ele (rs : Z) : Z := if (rs =? 0) || (rs =? 1) || (rs =? 3) || (rs =? 5) then 1 else 0.
Lemma ex_occ : occ01 (Nsite ex_tables) ex_ele.
Proof. intros rs _. unfold ex_ele. destruct (_ || _); auto. Qed.

(** Counting from scratch is defined for every configuration and yields what the specification
    (Proj/Spec.v) says each parameter counts. *)
Theorem C04_make_counts_spec : forall T, wf_tables T -> forall e, occ01 (Nsite T) e -> forall c,
  exists c', make_proj_cnt T c e = Some c' /\ is_proj_cnt T e c' /\
  forall j, ~ (0 <= j < NProj T) -> c' j = c j.
Proof. exact make_correct. Qed.
Print Assumptions C04_make_counts_spec.

(** C04: after a hop of a spin-s electron from ri to rj the incremental counters are the ones computed
    from scratch, whether the update is done in place or into a second buffer. *)
Theorem C04_hop_update_is_recount : forall T, wf_tables T ->
  forall ri rj s alias cnew cold e junk1 junk2,
  occ01 (Nsite T) e -> legal_hop (Nsite T) ri s rj s e -> make_proj_cnt T junk1 e = Some cold ->
  exists c1 c2,
    update_proj_cnt T ri rj s alias cnew cold (hop (Nsite T) ri s rj s e) = Some c1 /\
    make_proj_cnt T junk2 (hop (Nsite T) ri s rj s e) = Some c2 /\
    forall j, 0 <= j < NProj T -> c1 j = c2 j.
Proof. exact update_is_make. Qed.
Print Assumptions C04_hop_update_is_recount.

(** C05: the same for a move that may change the spin, including ri = rj. *)
Theorem C05_spin_hop_update_is_recount : forall T, wf_tables T ->
  forall ri s rj t alias cnew cold e junk1 junk2,
  occ01 (Nsite T) e -> legal_hop (Nsite T) ri s rj t e -> make_proj_cnt T junk1 e = Some cold ->
  exists c1 c2,
    update_proj_cnt_fsz T ri rj s t alias cnew cold (hop (Nsite T) ri s rj t e) = Some c1 /\
    make_proj_cnt T junk2 (hop (Nsite T) ri s rj t e) = Some c2 /\
    forall j, 0 <= j < NProj T -> c1 j = c2 j.
Proof. exact update_fsz_is_make. Qed.
Print Assumptions C05_spin_hop_update_is_recount.

(** C06: exchange of a spin-s electron on ri with a spin-(1-s) electron on rj. *)
Theorem C06_exchange_update_is_recount : forall T, wf_tables T ->
  forall ri rj s cnew cold e junk1 junk2,
  occ01 (Nsite T) e -> ri <> rj ->
  legal_hop (Nsite T) ri s rj s e -> legal_hop (Nsite T) rj (1 - s) ri (1 - s) e ->
  make_proj_cnt T junk1 e = Some cold ->
  let e1 := hop (Nsite T) ri s rj s e in
  let e2 := hop (Nsite T) rj (1 - s) ri (1 - s) e1 in
  exists c1 c2 c3,
    update_proj_cnt T ri rj s false cnew cold e1 = Some c1 /\
    update_proj_cnt T rj ri (1 - s) true c1 c1 e2 = Some c2 /\
    make_proj_cnt T junk2 e2 = Some c3 /\
    forall j, 0 <= j < NProj T -> c2 j = c3 j.
Proof. exact exchange_is_make. Qed.
Print Assumptions C06_exchange_update_is_recount.

Definition read_cnt (n : Z) (o : option (Z -> Z)) : option (list Z) :=
  match o with Some c => Some (map c (zrange 0 n)) | None => None end.

Example C04_case : legal_hop 3 1 0 2 0 ex_ele /\
  read_cnt 20 (make_proj_cnt ex_tables (fun _ => 7) ex_ele)
  = Some [1;0;0;0; 0;1;0;0;0;0; 0;1;0;0;0;0;0;0;0;0] /\
  read_cnt 20 (c <- make_proj_cnt ex_tables (fun _ => 7) ex_ele;;
               update_proj_cnt ex_tables 1 2 0 false (fun _ => 9) c (hop 3 1 0 2 0 ex_ele))
  = Some [1;1;-1;0; 0;0;0;2;1;0; 0;0;0;0;0;2;0;0;1;0].
Proof. repeat split; vm_compute; try congruence. left; reflexivity. Qed.
Example C05_case : legal_hop 3 1 0 1 1 ex_ele /\ legal_hop 3 1 0 2 0 ex_ele.
Proof. repeat split; vm_compute; try congruence; left; reflexivity. Qed.
Example C06_case : legal_hop 3 1 0 2 0 ex_ele /\ legal_hop 3 2 1 1 1 ex_ele.
Proof. repeat split; vm_compute; try congruence; left; reflexivity. Qed.

(** C07: the cell ranges of the four families are disjoint and fill [0,NProj): every index below NProj
    is one and only one of the cells named in the specification.  (That no access leaves its array
    is the "= Some" of C04-C06: any out-of-bounds access is None in the model.) *)
Theorem C07_cells_fill_exactly : forall T, wf_tables T -> forall j,
  (0 <= j < NProj T <-> exists f xn xi xm, cell T j f xn xi xm) /\
  (forall f xn xi xm f' xn' xi' xm', cell T j f xn xi xm -> cell T j f' xn' xi' xm' ->
     f = f' /\ xn = xn' /\ xi = xi' /\ xm = xm').
Proof. exact cells_exact. Qed.
Print Assumptions C07_cells_fill_exactly.
Example C07_case : cell ex_tables 7 2 0 1 1 /\ NProj ex_tables = 20.
Proof. split; [|reflexivity]. right; right; left. cbn. lia. Qed.

(** C46: different iterations of the parallel doublon-holon loops change different cells. *)
Theorem C46_dh2_iterations_disjoint : forall T, wf_tables T -> forall e xn c c',
  occ01 (Nsite T) e -> 0 <= xn < NDoublonHolon2siteIdx T -> dh2_body T e xn c = Some c' ->
  forall j, c' j <> c j ->
    NGutzwillerIdx T + NJastrowIdx T <= j < NGutzwillerIdx T + NJastrowIdx T + 6 * NDoublonHolon2siteIdx T /\
    (j - (NGutzwillerIdx T + NJastrowIdx T)) mod NDoublonHolon2siteIdx T = xn.
Proof. exact dh2_body_cells. Qed.
Print Assumptions C46_dh2_iterations_disjoint.
Theorem C46_dh4_iterations_disjoint : forall T, wf_tables T -> forall e xn c c',
  occ01 (Nsite T) e -> 0 <= xn < NDoublonHolon4siteIdx T -> dh4_body T e xn c = Some c' ->
  forall j, c' j <> c j ->
    NGutzwillerIdx T + NJastrowIdx T + 6 * NDoublonHolon2siteIdx T <= j < NProj T /\
    (j - (NGutzwillerIdx T + NJastrowIdx T + 6 * NDoublonHolon2siteIdx T)) mod NDoublonHolon4siteIdx T = xn.
Proof. exact dh4_body_cells. Qed.
Print Assumptions C46_dh4_iterations_disjoint.
