(** C76: the symmetry projection gives the wave function the requested symmetry *)
From Coq Require Import ZArith List Bool Lia Reals Lra.
From Coquelicot Require Import Complex.
From Verif Require Import Base.ZLoop Base.RSum Proj.Model Slater.Model Slater.Spec Rbm.Model Rbm.Spec SR.Proofs Samp.Model Green.Spec Grd.Spec
  Sym.Model Sym.Spec Sym.ProofsPf Sym.ProofsOcc Sym.ProofsMean Sym.ProofsRead Sym.Cases.
Import ListNotations.
Local Open Scope Z_scope.

(** moving all electrons by transformation g multiplies the wave function by the inverse weight of g and the signs that the
    electrons collect *)
Theorem C76_wave V g x : wf_wave V -> symmetry V g -> on_lattice V x -> Cmult (vpara V g) (psi V (moved V g x)) = Cmult (collected V g x) (psi V x).
Proof. exact (psi_moved V g x). Qed.
Print Assumptions C76_wave.

(** the same for the pair part alone as the program computes it, for two walkers that differ by the transformation *)
Theorem C76_overlap V g K w rcnt ip K' w' rcnt' ip' : wf_wave V -> symmetry V g -> sampled V K w rcnt ip -> sampled V K' w' rcnt' ip' ->
  (forall i, In i (labels V) -> Samp.Model.eleIdx w' i = QPTrans (vQ V) g (Samp.Model.eleIdx w i)) -> Cmult (vpara V g) ip' = Cmult (collected V g (Samp.Model.eleIdx w)) ip.
Proof. exact (overlap_moved V g K w rcnt ip K' w' rcnt' ip'). Qed.
Print Assumptions C76_overlap.

(** equivalent configurations are equally probable *)
Theorem C76_probability V g x : wf_wave V -> symmetry V g -> Cmod (vpara V g) = 1%R -> on_lattice V x -> Cmod (psi V (moved V g x)) = Cmod (psi V x).
Proof. exact (modulus_moved V g x). Qed.
Print Assumptions C76_probability.

(** so that the mean of any function of the configurations is that of the transformed function *)
Theorem C76_means V g F : wf_wave V -> symmetry V g -> Cmod (vpara V g) = 1%R -> mean V (psi V) (fun u => F (map (QPTrans (vQ V) g) u)) = mean V (psi V) F.
Proof. exact (mean_moved V g F). Qed.
Print Assumptions C76_means.
Theorem C76_density V g a : wf_wave V -> symmetry V g -> Cmod (vpara V g) = 1%R -> density V (lifted (sites V) (QPTrans (vQ V) g) a) = density V a.
Proof. exact (density_moved V g a). Qed.
Print Assumptions C76_density.
Theorem C76_joint V g a b : wf_wave V -> symmetry V g -> Cmod (vpara V g) = 1%R -> joint V (lifted (sites V) (QPTrans (vQ V) g) a) (lifted (sites V) (QPTrans (vQ V) g) b) = joint V a b.
Proof. exact (joint_moved V g a b). Qed.
Print Assumptions C76_joint.

(** the transformations used are those of the file, whatever the arrays contained before; accepted exactly with all lines *)
Theorem C76_file ap N n ws rows m : 0 < n -> weights_ok n ws -> table_ok ap n N rows ->
  exists info m', get_trans_sym ap N n ws rows m = Some (info, m') /\ (info = 0 <-> Z.of_nat (length rows) = N * n) /\
  (forall w, In w ws -> mPara m' (fst w) = snd w) /\
  (forall r, In r rows -> mTrans m' (rtr r) (rsite r) = rimage r /\ mSgn m' (rtr r) (rsite r) = sign_of ap r).
Proof. exact (file_read ap N n ws rows m). Qed.
Print Assumptions C76_file.
Theorem C76_complete ap N n rows : 0 <= N -> 0 <= n -> table_ok ap n N rows -> Z.of_nat (length rows) = N * n -> forall i j, site n i -> site N j -> exists r, In r rows /\ rtr r = i /\ rsite r = j.
Proof. exact (file_complete ap N n rows). Qed.
Print Assumptions C76_complete.

(** without a file of additional transforms there is one, the identity, and it is compatible with every transformation *)
Theorem C76_default V g t s : NQPOptTrans (vS V) = 1 -> permutes (sites V) (QPTrans (vQ V) g) ->
  (forall r, QPOptTrans (vQ V) 0 r = fst (init_opt_trans (sites V) t s) 0 r /\ QPOptTransSgn (vQ V) 0 r = snd (init_opt_trans (sites V) t s) 0 r) ->
  forall o r, site (NQPOptTrans (vS V)) o -> site (sites V) r -> QPOptTrans (vQ V) o r = r /\ QPOptTransSgn (vQ V) o r = 1 /\
  QPOptTrans (vQ V) o (QPTrans (vQ V) g r) = QPTrans (vQ V) g (QPOptTrans (vQ V) o r) /\
  QPOptTransSgn (vQ V) o (QPTrans (vQ V) g r) * QPTransSgn (vQ V) g r = QPOptTransSgn (vQ V) o r * QPTransSgn (vQ V) g (QPOptTrans (vQ V) o r).
Proof. exact (default_identity V g t s). Qed.
Print Assumptions C76_default.

(** antiperiodic boundaries and lines without the fourth column: accepted, and the wave function is 0 on every configuration *)
Theorem C76_no_sign_refuted : exists N n ws rows m', 0 < N /\ 0 < n /\ weights_ok n ws /\ table_ok false n N rows /\ get_trans_sym true N n ws rows junk0 = Some (0, m') /\
  forall V, valid (vS V) (vQ V) (vflag V) -> sites V = N -> NMPTrans (vS V) = n -> (forall m r, QPTrans (vQ V) m r = mTrans m' m r /\ QPTransSgn (vQ V) m r = mSgn m' m r) -> forall x, on_lattice V x -> psi V x = RtoC 0.
Proof. exact no_sign_refuted. Qed.
Print Assumptions C76_no_sign_refuted.
(** a site outside the lattice is written outside its row instead of being reported *)
Theorem C76_site_refuted : exists N n ws rows, 0 < N /\ 0 < n /\ weights_ok n ws /\ Z.of_nat (length rows) = N * n /\ (exists r, In r rows /\ ~ row_ok n N r) /\ forall m, get_trans_sym false N n ws rows m = None.
Proof. exact site_refuted. Qed.
Print Assumptions C76_site_refuted.
(** a repeated and a missing line: accepted, the missing entry is what was in memory *)
Theorem C76_repeated_refuted : exists N n ws rows, weights_ok n ws /\ (forall r, In r rows -> row_ok n N r) /\
  forall m, exists m', get_trans_sym false N n ws rows m = Some (0, m') /\ mTrans m' 0 1 = mTrans m 0 1.
Proof. exact repeated_refuted. Qed.
Print Assumptions C76_repeated_refuted.
(** NMPTrans larger than the number n of transformations in the file is not noticed: the weights depend on memory behind them *)
Theorem C76_number_refuted : exists S n para para', NMPTrans S > n /\ 0 < n /\ (forall k, site n k -> para k = para' k) /\
  exists k, QPFixWeight (init_qp_weight S 0 (fun _ => 0%R) (fun _ => 0%R) para false (fun _ => RtoC 1)) k <> QPFixWeight (init_qp_weight S 0 (fun _ => 0%R) (fun _ => 0%R) para' false (fun _ => RtoC 1)) k.
Proof. exact number_refuted. Qed.
Print Assumptions C76_number_refuted.

(** an antiperiodic ring of four sites with all factors and momentum pi/2: every translation is a symmetry, the wave function does
    not vanish, and its file is accepted *)
Example C76_case : wf_wave Vr /\ (forall g, 0 <= g < 4 -> symmetry Vr g /\ Cmod (vpara Vr g) = 1%R) /\ psi Vr (fun i => i) <> RtoC 0 /\
  Cmult (ipow 3) (psi Vr (fun i => (i + 3) mod 4)) = Copp (psi Vr (fun i => i)).
Proof.
  split; [exact Vr_wf|]. split; [intros g Hg; split; [exact (Vr_symmetry g Hg)|exact (ipow_mod g Hg)]|]. split; [exact psi_r|].
  pose proof (psi_moved Vr 3 (fun i => i) Vr_wf (Vr_symmetry 3 ltac:(lia)) ltac:(intros i Hi; apply in_zrange in Hi; change (0 <= i < 2) in Hi; change (0 <= i < 4); lia)) as E.
  refine (eq_trans E _). replace (collected Vr 3 (fun i => i)) with (Copp (RtoC 1)); [ring|]. unfold collected. change (labels Vr) with [0; 1]. cbn. apply SR.Proofs.Ceq; cbn; ring.
Qed.
Example C76_file_case : weights_ok 4 ws_r /\ table_ok true 4 4 rows_r /\ Z.of_nat (length rows_r) = 4 * 4 /\
  (forall r, In r rows_r -> QPTrans Qr (rtr r) (rsite r) = rimage r /\ QPTransSgn Qr (rtr r) (rsite r) = sign_of true r) /\ (forall w, In w ws_r -> vpara Vr (fst w) = snd w).
Proof.
  destruct file_r as (A & B & D). split; [exact A|]. split; [exact B|]. split; [exact D|]. split.
  - intros r Hr. unfold rows_r in Hr. apply in_flat_map in Hr. destruct Hr as (m & _ & Hr). apply in_map_iff in Hr. destruct Hr as (k & <- & _). split; reflexivity.
  - intros w Hw. unfold ws_r in Hw. apply in_map_iff in Hw. destruct Hw as (m & <- & _). reflexivity.
Qed.
