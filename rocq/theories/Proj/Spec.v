(** Specification of the correlation counters, independent of the code: what each parameter of the
    correlation factor counts in a configuration. *)
From Coq Require Import ZArith List Bool.
From Verif Require Import Base.ZLoop Proj.Model.
Import ListNotations.
Local Open Scope Z_scope.

(** what the reader of the definition files guarantees *)
Record wf_tables (T : tables) : Prop := {
  wf_site : 0 <= Nsite T;
  wf_ng : 0 <= NGutzwillerIdx T;
  wf_nj : 0 <= NJastrowIdx T;
  wf_n2 : 0 <= NDoublonHolon2siteIdx T;
  wf_n4 : 0 <= NDoublonHolon4siteIdx T;
  wf_g : 0 < NGutzwillerIdx T -> forall r, 0 <= r < Nsite T -> 0 <= GutzwillerIdx T r < NGutzwillerIdx T;
  wf_j : 0 < NJastrowIdx T -> forall ri rj, 0 <= ri < Nsite T -> 0 <= rj < Nsite T -> ri <> rj ->
         0 <= JastrowIdx T ri rj < NJastrowIdx T;
  wf_2 : forall xn k, 0 <= xn < NDoublonHolon2siteIdx T -> 0 <= k < 2 * Nsite T ->
         0 <= DoublonHolon2siteIdx T xn k < Nsite T;
  wf_4 : forall xn k, 0 <= xn < NDoublonHolon4siteIdx T -> 0 <= k < 4 * Nsite T ->
         0 <= DoublonHolon4siteIdx T xn k < Nsite T
}.

(** occupation numbers of a configuration: each (site, spin) holds 0 or 1 electron *)
Definition occ01 (Ns : Z) (eleNum : Z -> Z) : Prop :=
  forall rs, 0 <= rs < 2 * Ns -> eleNum rs = 0 \/ eleNum rs = 1.

Section Spec.
Variable T : tables.
Variable eleNum : Z -> Z.
Let N := Nsite T.
Definition occ (r : Z) : Z := eleNum r + eleNum (r + N).           (* electrons on site r *)
Definition doublon (r : Z) : bool := occ r =? 2.
Definition holon (r : Z) : bool := occ r =? 0.

Definition count (l : list Z) (p : Z -> bool) : Z := zsum l (fun x => if p x then 1 else 0).

(** the counter multiplying Gutzwiller parameter k: doublons on the sites using it *)
Definition spec_gutz (k : Z) : Z :=
  count (zrange 0 N) (fun r => (GutzwillerIdx T r =? k) && doublon r).

(** the counter multiplying Jastrow parameter k: sum over pairs ri<rj using it of (ni-1)(nj-1) *)
Definition spec_jast (k : Z) : Z :=
  zsum (zrange 0 N) (fun ri => zsum (zrange (ri + 1) N) (fun rj =>
    if JastrowIdx T ri rj =? k then (occ ri - 1) * (occ rj - 1) else 0)).

(** the counter of the 2-site doublon-holon parameter of shape xn, centre type xi (0 holon,
    1 doublon) and xm partners: sites that are holons (doublons) with exactly xm doublons (holons)
    among their two neighbours *)
Definition partners2 (xn xi r : Z) : Z :=
  count [0; 1] (fun j => (if xi =? 0 then doublon else holon) (DoublonHolon2siteIdx T xn (2 * r + j))).
Definition spec_dh2 (xn xi xm : Z) : Z :=
  count (zrange 0 N) (fun r => (if xi =? 0 then holon else doublon) r && (partners2 xn xi r =? xm)).

Definition partners4 (xn xi r : Z) : Z :=
  count [0; 1; 2; 3] (fun j => (if xi =? 0 then doublon else holon) (DoublonHolon4siteIdx T xn (4 * r + j))).
Definition spec_dh4 (xn xi xm : Z) : Z :=
  count (zrange 0 N) (fun r => (if xi =? 0 then holon else doublon) r && (partners4 xn xi r =? xm)).

(** the whole counter vector *)
Record is_proj_cnt (c : Z -> Z) : Prop := {
  cnt_gutz : forall k, 0 <= k < NGutzwillerIdx T -> c k = spec_gutz k;
  cnt_jast : forall k, 0 <= k < NJastrowIdx T -> c (NGutzwillerIdx T + k) = spec_jast k;
  cnt_dh2 : forall xn xi xm, 0 <= xn < NDoublonHolon2siteIdx T -> 0 <= xi <= 1 -> 0 <= xm <= 2 ->
    c (NGutzwillerIdx T + NJastrowIdx T + xn + (xi + 2 * xm) * NDoublonHolon2siteIdx T) = spec_dh2 xn xi xm;
  cnt_dh4 : forall xn xi xm, 0 <= xn < NDoublonHolon4siteIdx T -> 0 <= xi <= 1 -> 0 <= xm <= 4 ->
    c (NGutzwillerIdx T + NJastrowIdx T + 6 * NDoublonHolon2siteIdx T
       + xn + (xi + 2 * xm) * NDoublonHolon4siteIdx T) = spec_dh4 xn xi xm
}.
End Spec.

(** the electron (ri, spin s) moves to (rj, spin t); rsi = ri + s*Nsite *)
Definition hop (Ns ri s rj t : Z) (eleNum : Z -> Z) : Z -> Z :=
  upd (upd eleNum (ri + s * Ns) 0) (rj + t * Ns) 1.
Definition legal_hop (Ns ri s rj t : Z) (eleNum : Z -> Z) : Prop :=
  0 <= ri < Ns /\ 0 <= rj < Ns /\ 0 <= s <= 1 /\ 0 <= t <= 1 /\
  eleNum (ri + s * Ns) = 1 /\ (eleNum (rj + t * Ns) = 0 \/ (ri = rj /\ s = t)).

(** the cell j of the counter vector belongs to family f (0 Gutzwiller, 1 Jastrow, 2 two-site, 3 four-site)
    with parameter number xn, centre type xi and partner count xm *)
Definition cell (T : tables) (j : Z) (f xn xi xm : Z) : Prop :=
  (f = 0 /\ 0 <= xn < NGutzwillerIdx T /\ xi = 0 /\ xm = 0 /\ j = xn) \/
  (f = 1 /\ 0 <= xn < NJastrowIdx T /\ xi = 0 /\ xm = 0 /\ j = NGutzwillerIdx T + xn) \/
  (f = 2 /\ 0 <= xn < NDoublonHolon2siteIdx T /\ 0 <= xi <= 1 /\ 0 <= xm <= 2 /\
   j = NGutzwillerIdx T + NJastrowIdx T + xn + (xi + 2 * xm) * NDoublonHolon2siteIdx T) \/
  (f = 3 /\ 0 <= xn < NDoublonHolon4siteIdx T /\ 0 <= xi <= 1 /\ 0 <= xm <= 4 /\
   j = NGutzwillerIdx T + NJastrowIdx T + 6 * NDoublonHolon2siteIdx T
       + xn + (xi + 2 * xm) * NDoublonHolon4siteIdx T).
