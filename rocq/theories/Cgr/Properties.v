(** Property C65: measured Green functions *)
From Coq Require Import ZArith List Bool Lia Reals.
From Coquelicot Require Import Complex.
From Verif Require Import Base.ZLoop Base.RSum Slater.Model Samp.Model Green.Model Green.Spec Green.Cases Gfz.Model Gfz.Spec Gfz.Cases Cgr.Model Cgr.Spec Cgr.Proofs Cgr.Cases.
From Verif Require Ham.Spec.
Import ListNotations.
Local Open Scope Z_scope.

(** C65.  A sample of weight w adds w times the matrix elements of the requested operators over its amplitude, in every order of the
    iterations and division among threads, for requests whose bilinears keep the spin ... *)
Theorem C65_measured V : wf_wave V -> forall K wk rcnt ip, sampled V K wk rcnt ip -> forall Q w, requests_ok (sites V) Q -> forall P, g_execution Q P -> requests_kept Q -> forall m,
  exists m', calculate_green Q w (env_of V K) ip (Samp.Model.eleCfg wk) (Samp.Model.eleNum wk) (eleProjCnt wk) rcnt P (Samp.Model.eleIdx wk) m = Some m' /\
    adds Q (sites V) w (fun ops => local V ops (Samp.Model.eleIdx wk)) m m'.
Proof. exact (fun HV K wk rcnt ip HS Q w HQ P HP Hk m => green_std V HV K wk rcnt ip HS Q w HQ P HP Hk m). Qed.
Print Assumptions C65_measured.
(** ... for any others the functions of other operators are added: of the annihilator's spin in one-body rows, the creators' in two-body rows ... *)
Theorem C65_spins_ignored V : wf_wave V -> forall K wk rcnt ip, sampled V K wk rcnt ip -> forall Q w, requests_ok (sites V) Q -> forall P, g_execution Q P -> forall m,
  exists m', calculate_green Q w (env_of V K) ip (Samp.Model.eleCfg wk) (Samp.Model.eleNum wk) (eleProjCnt wk) rcnt P (Samp.Model.eleIdx wk) m = Some m' /\
    adds (spins_read Q) (sites V) w (fun ops => local V ops (Samp.Model.eleIdx wk)) m m'.
Proof. exact (fun HV K wk rcnt ip HS Q w HQ P HP m => green_ignored V HV K wk rcnt ip HS Q w HQ P HP m). Qed.
Print Assumptions C65_spins_ignored.
(** ... so the row 0 0 0 1 (which the reader accepts) measures the number of down electrons instead of zero *)
Theorem C65_flip_refuted : exists V K wk rcnt ip Q P m m', wf_wave V /\ sampled V K wk rcnt ip /\ requests_ok (sites V) Q /\ g_execution Q P /\
  calculate_green Q 1 (env_of V K) ip (Samp.Model.eleCfg wk) (Samp.Model.eleNum wk) (eleProjCnt wk) rcnt P (Samp.Model.eleIdx wk) m = Some m' /\
  ~ adds Q (sites V) 1 (fun ops => Ham.Spec.local_any V ops (Samp.Model.eleIdx wk)) m m'.
Proof. exact flip_green_refuted. Qed.
Print Assumptions C65_flip_refuted.
(** general spins, any requests; partial: iterations of different threads do not overlap in time (with one thread they never do) ... *)
Theorem C65_fsz_partial V : wf_fwave V -> forall G wk ip, sampled_fsz V G wk ip -> forall Q w, requests_ok (fsites V) Q -> forall P m, no_overlap Q P ->
  exists m', calculate_green_fsz Q w G ip (Samp.Model.eleCfg wk) (Samp.Model.eleNum wk) (eleProjCnt wk) P (Samp.Model.eleIdx wk) (Samp.Model.eleSpn wk) m = Some m' /\
    adds Q (fsites V) w (fun ops => flocal V ops (config V wk)) m m'.
Proof. exact (fun HV G wk ip HS Q w HQ P m => green_fsz V HV G wk ip HS Q w HQ P m). Qed.
Print Assumptions C65_fsz_partial.
(** ... when they do, variables shared by mistake give wrong values *)
Theorem C65_race_refuted : exists V G wk ip Q P m m', wf_fwave V /\ sampled_fsz V G wk ip /\ requests_ok (fsites V) Q /\ any_overlap Q P /\
  calculate_green_fsz Q 1 G ip (Samp.Model.eleCfg wk) (Samp.Model.eleNum wk) (eleProjCnt wk) P (Samp.Model.eleIdx wk) (Samp.Model.eleSpn wk) m = Some m' /\
  ~ adds Q (fsites V) 1 (fun ops => flocal V ops (config V wk)) m m'.
Proof. exact race_refuted. Qed.
Print Assumptions C65_race_refuted.
(** three one-body rows, two two-body rows, two products, two threads interleaved *)
Example C65_case : wf_wave V3 /\ (forall rcnt, exists cnt, sampled V3 K3 (w3 cnt) rcnt (RtoC (-1))) /\ requests_ok (sites V3) Q3 /\ requests_kept Q3 /\ forall sp, g_execution Q3 (P3 sp).
Proof. split; [exact V3_wf|]. split; [exact V3_sampled|]. split; [exact Q3_ok|]. split; [exact Q3_kept|exact P3_ok]. Qed.
(** rows that flip spins *)
Example C65_case_fsz : wf_fwave Vg /\ (exists cnt, sampled_fsz Vg Gg (wg cnt) (RtoC (-30))) /\ requests_ok (fsites Vg) Qr /\ (forall sp pv, no_overlap Qr (Pr sp pv)) /\
  forall cnt, flocal Vg (row1 (fsites Vg) (CisAjsIdx Qr 0)) (config Vg (wg cnt)) = RtoC (6 * exp (-1)).
Proof. split; [exact Vg_wf|]. split; [exact Vg_sampled|]. split; [exact Qr_ok|]. split; [exact Pr_ok|exact value_g]. Qed.
