(** Definition files that do not distinguish equivalent sites give an invariant Hamiltonian, general spins. *)
From Coq Require Import ZArith List Bool Lia Reals Lra Permutation FunctionalExtensionality.
From Coquelicot Require Import Complex.
From Verif Require Import Base.ZLoop Base.RSum Pf.Spec Proj.Model Slater.Model Slater.Spec Rbm.Model Samp.Model Green.Spec Ham.Model Grd.Spec Grd.ProofsSum
  Fsz.Spec Gfz.Spec Hfz.Model Hfz.Spec Sym.Spec Sym.ProofsPf Sym.ProofsOcc Inv.Spec Ifz.Spec Ifz.Proofs.
From Verif Require Inv.ProofsHam.
Import ListNotations.
Local Open Scope Z_scope.

(** ** operators that commute *)
Lemma upd_self (x : Z -> Z) m : upd x m (x m) = x.
Proof. apply functional_extensionality. intros i. unfold upd. now destruct (Z.eqb_spec i m) as [->|]. Qed.
Lemma upd_swap (x : Z -> Z) m n a b : m <> n -> upd (upd x m a) n b = upd (upd x n b) m a.
Proof. intros D. apply functional_extensionality. intros i. unfold upd. destruct (Z.eqb_spec i n), (Z.eqb_spec i m); subst; try reflexivity. lia. Qed.
Lemma fact_number L a f x : fact L (a, a) f x = Cmult (csum L (fun m => if x m =? a then RtoC 1 else RtoC 0)) (f x).
Proof. unfold fact. cbn [fst snd]. rewrite <- csum_scal_r. apply csum_ext. intros m _. destruct (Z.eqb_spec (x m) a) as [<-|]; [rewrite upd_self; ring|ring]. Qed.
Lemma fnumbers_commute L a b f x : fstring L [num a; num b] f x = fstring L [num b; num a] f x.
Proof. cbn [fstring]. unfold num. rewrite !fact_number. ring. Qed.
(** c+_a c_b and c+_c c_d with a <> d and b <> c *)
Lemma fcommute L a b c d f x : NoDup L -> a <> d -> c <> b -> fact L (a, b) (fact L (c, d) f) x = fact L (c, d) (fact L (a, b) f) x.
Proof.
  intros ND D1 D2.
  assert (E : forall a b c d, a <> d -> fact L (a, b) (fact L (c, d) f) x = csum L (fun m => csum L (fun n => if n =? m then RtoC 0 else if x m =? b then if x n =? d then f (upd (upd x m a) n c) else RtoC 0 else RtoC 0))).
  { intros a' b' c' d' D. unfold fact at 1. cbn [fst snd]. apply csum_ext. intros m Hm. destruct (x m =? b').
    - unfold fact. cbn [fst snd]. apply csum_ext. intros n Hn. destruct (Z.eqb_spec n m) as [->|Dn].
      + rewrite upd_same. destruct (Z.eqb_spec a' d'); [contradiction|reflexivity].
      + now rewrite upd_other by exact Dn.
    - symmetry. rewrite (csum_ext L _ (fun _ => RtoC 0)) by (intros n _; now destruct (n =? m)). clear. induction L as [|n l IH]; cbn [csum]; [reflexivity|]. rewrite IH. ring. }
  rewrite (E a b c d D1), (E c d a b D2). rewrite csum_swap. apply csum_ext. intros m Hm. apply csum_ext. intros n Hn. rewrite (Z.eqb_sym m n). destruct (Z.eqb_spec n m) as [->|Dn]; [reflexivity|].
  rewrite (upd_swap x n m) by exact Dn. now destruct (x n =? b), (x m =? d).
Qed.

Section Files.
Variables (V : fwave) (g : Z) (H : terms).
Hypothesis HV : valid_fsz (fS V) (fQ V) (fflag V).
Hypothesis HS : fsymmetry V g.
Hypothesis Hok : fsites_ok (fsites V) H.
Hypothesis Hf : symmetric_files (lattice V) g H.
Notation N := (fsites V).
Notation W := (lattice V).
Notation p := (QPTrans (fQ V) g).
Notation sg := (fun r => IZR (QPTransSgn (fQ V) g r)).
Let HN : 0 < N. Proof. exact (proj1 HV). Qed.
Variables (f : (Z -> Z) -> C) (x : Z -> Z).
Let val (t : C * list (Z * Z)) : C := Cmult (fst t) (Cconj (fstring (flabels V) (snd t) f x)).
Let val' (t : C * list (Z * Z)) : C := val (Cmult (fst t) (RtoC (string_sign W g (snd t))), carried_string W g (snd t)).
Lemma fcar_s i s : site N i -> carried W g (i + s * N) = p i + s * N. Proof. intros Hi. unfold carried. exact (lifted_orb N p HN i s Hi). Qed.
Lemma fcar_0 i : site N i -> carried W g i = p i. Proof. intros Hi. pose proof (fcar_s i 0 Hi) as E. now rewrite Z.mul_0_l, !Z.add_0_r in E. Qed.
Lemma fcar_1 i : site N i -> carried W g (i + N) = p i + N. Proof. intros Hi. pose proof (fcar_s i 1 Hi) as E. now rewrite Z.mul_1_l in E. Qed.
Lemma fsig_s i s : site N i -> carried_sign W g (i + s * N) = sg i. Proof. intros Hi. unfold carried_sign. change (sites W) with N. rewrite Z.mod_add by lia. now rewrite Z.mod_small by exact Hi. Qed.
Lemma fsig_0 i : site N i -> carried_sign W g i = sg i. Proof. intros Hi. pose proof (fsig_s i 0 Hi) as E. now rewrite Z.mul_0_l, !Z.add_0_r in E. Qed.
Lemma fsig_1 i : site N i -> carried_sign W g (i + N) = sg i. Proof. intros Hi. pose proof (fsig_s i 1 Hi) as E. now rewrite Z.mul_1_l in E. Qed.
Lemma fsq i : site N i -> (sg i * sg i = 1)%R. Proof. intros Hi. pose proof (fsign_square V g HV HS i) as E. now rewrite (fsig_0 i Hi) in E. Qed.
Lemma fval'_numbers c a b : val' (c, [num a; num b]) = val (c, [num (carried W g a); num (carried W g b)]).
Proof. unfold val', val. cbn [fst snd string_sign carried_string map fold_right num]. rewrite !(fsign_square V g HV HS). rewrite !Rmult_1_l. now rewrite Cmult_1_r. Qed.
Lemma fval_swap c a b : val (c, [num a; num b]) = val (c, [num b; num a]).
Proof. unfold val. cbn [fst snd]. now rewrite (fnumbers_commute _ a b f x). Qed.
Lemma fbond_value (G : Z -> Z -> C) i j : G i j = G j i -> G (fst (bond i j)) (snd (bond i j)) = G i j.
Proof. intros E. unfold bond. cbn [fst snd]. destruct (Z.le_ge_cases i j) as [L|L]; [now rewrite Z.min_l, Z.max_r by exact L|]. rewrite Z.min_r, Z.max_l by exact L. symmetry. exact E. Qed.

Lemma fintra_ok : csum (zrange 0 (NIntra H)) (fun k => csum (f_intra N H k) val') = csum (zrange 0 (NIntra H)) (fun k => csum (f_intra N H k) val).
Proof.
  apply (Inv.ProofsHam.kept_sum _ _ _ (fun ri => val (RtoC (fst ri), [num (snd ri); num (snd ri + N)])) _ _ (sf_intra _ _ _ Hf)); intros k Hk; unfold f_intra; cbv zeta; cbn [csum fst snd]; rewrite Cplus_0_r; [reflexivity|].
  rewrite fval'_numbers. rewrite fcar_0, fcar_1 by exact (fok_intra _ _ Hok k Hk). reflexivity.
Qed.
Let Ginter (r : R) (i j : Z) : C := csum [(RtoC r, [num i; num j]); (RtoC r, [num i; num (j + N)]); (RtoC r, [num (i + N); num j]); (RtoC r, [num (i + N); num (j + N)])] val.
Lemma fGinter_swap r i j : Ginter r i j = Ginter r j i.
Proof. unfold Ginter. cbn [csum]. rewrite (fval_swap _ i j), (fval_swap _ i (j + N)), (fval_swap _ (i + N) j), (fval_swap _ (i + N) (j + N)). ring. Qed.
Lemma finter_ok : csum (zrange 0 (NInter H)) (fun k => csum (f_inter N H k) val') = csum (zrange 0 (NInter H)) (fun k => csum (f_inter N H k) val).
Proof.
  apply (Inv.ProofsHam.kept_sum _ _ _ (fun rij => Ginter (fst rij) (fst (snd rij)) (snd (snd rij))) _ _ (sf_inter _ _ _ Hf)); intros k Hk; destruct (fok_inter _ _ Hok k Hk) as (Hi & Hj); cbn [fst snd]; rewrite (fbond_value (Ginter _)) by apply fGinter_swap; [reflexivity|].
  unfold f_inter, Ginter. cbv zeta. cbn [csum]. rewrite !fval'_numbers. rewrite !fcar_1, !fcar_0 by assumption. reflexivity.
Qed.
Let Ghund (r : R) (i j : Z) : C := csum [(Copp (RtoC r), [num i; num j]); (Copp (RtoC r), [num (i + N); num (j + N)])] val.
Lemma fGhund_swap r i j : Ghund r i j = Ghund r j i.
Proof. unfold Ghund. cbn [csum]. rewrite (fval_swap _ i j), (fval_swap _ (i + N) (j + N)). ring. Qed.
Lemma fhund_ok : csum (zrange 0 (NHund H)) (fun k => csum (f_hund N H k) val') = csum (zrange 0 (NHund H)) (fun k => csum (f_hund N H k) val).
Proof.
  apply (Inv.ProofsHam.kept_sum _ _ _ (fun rij => Ghund (fst rij) (fst (snd rij)) (snd (snd rij))) _ _ (sf_hund _ _ _ Hf)); intros k Hk; destruct (fok_hund _ _ Hok k Hk) as (Hi & Hj); cbn [fst snd]; rewrite (fbond_value (Ghund _)) by apply fGhund_swap; [reflexivity|].
  unfold f_hund, Ghund. cbv zeta. cbn [csum]. rewrite !fval'_numbers. rewrite !fcar_1, !fcar_0 by assumption. reflexivity.
Qed.
Lemma ftransfer_ok : csum (zrange 0 (NTransfer H)) (fun k => csum (f_transfer N H k) val') = csum (zrange 0 (NTransfer H)) (fun k => csum (f_transfer N H k) val).
Proof.
  apply (Inv.ProofsHam.kept_sum _ _ _ (fun (r : C * (Z * Z * Z * Z)) => let '(t, (i, s, j, s')) := r in val (Copp t, [(i + s * N, j + s' * N)])) _ _ (sf_transfer _ _ _ Hf)); intros k Hk; unfold f_transfer; cbn [csum fst snd]; rewrite Cplus_0_r; [reflexivity|].
  destruct (fok_transfer _ _ Hok k Hk) as ((Hi & _) & Hj & _). unfold val', val. cbn [fst snd string_sign carried_string map fold_right]. rewrite !fcar_s, !fsig_s by assumption. rewrite Rmult_1_r. f_equal. cbn [vQ lattice]. ring.
Qed.
Lemma fpair_ok : csum (zrange 0 (NPair H)) (fun k => csum (f_pair N H k) val') = csum (zrange 0 (NPair H)) (fun k => csum (f_pair N H k) val).
Proof.
  apply (Inv.ProofsHam.kept_sum _ _ _ (fun (r : R * (Z * Z)) => let '(t, (i, j)) := r in val (RtoC t, [(i, j); (i + N, j + N)])) _ _ (sf_pair _ _ _ Hf)); intros k Hk; unfold f_pair; cbv zeta; cbn [csum fst snd]; rewrite Cplus_0_r; [reflexivity|].
  destruct (fok_pair _ _ Hok k Hk) as (Hi & Hj). unfold val', val. cbn [fst snd string_sign carried_string map fold_right]. rewrite !fcar_1, !fcar_0, !fsig_1, !fsig_0 by assumption.
  replace (sg (Pair H k 0%Z) * sg (Pair H k 1%Z) * (sg (Pair H k 0%Z) * sg (Pair H k 1%Z) * 1))%R with ((sg (Pair H k 0%Z) * sg (Pair H k 0%Z)) * (sg (Pair H k 1%Z) * sg (Pair H k 1%Z)))%R by ring.
  rewrite (fsq _ Hi), (fsq _ Hj), Rmult_1_r. now rewrite Cmult_1_r.
Qed.
Let Gex (r : R) (i j : Z) : C := Cplus (val (RtoC r, [(i, j); (j + N, i + N)])) (val (RtoC r, [(i + N, j + N); (j, i)])).
Lemma fGex_swap r i j : site N i -> site N j -> Gex r i j = Gex r j i.
Proof.
  intros Hi Hj. unfold Gex, val. cbn [fst snd fstring]. unfold site in *. pose proof (zrange_NoDup 0 (2 * Slater.Model.Ne (fS V))) as ND. fold (flabels V) in ND.
  rewrite (fcommute _ (j + N) (i + N) i j f x ND) by lia. rewrite (fcommute _ j i (i + N) (j + N) f x ND) by lia. ring.
Qed.
Lemma fexchange_ok : csum (zrange 0 (NExchange H)) (fun k => csum (f_exchange N H k) val') = csum (zrange 0 (NExchange H)) (fun k => csum (f_exchange N H k) val).
Proof.
  apply (Inv.ProofsHam.kept_sum _ _ _ (fun rij => Gex (fst rij) (fst (snd rij)) (snd (snd rij))) _ _ (sf_exchange _ _ _ Hf)); intros k Hk; destruct (fok_exchange _ _ Hok k Hk) as (Hi & Hj); cbn [fst snd].
  - rewrite (fbond_value (Gex _)) by now apply fGex_swap. unfold f_exchange, Gex. cbv zeta. cbn [csum]. ring.
  - pose proof (fp_perm V g HS) as (Pp & _). rewrite (fbond_value (Gex _)) by (apply fGex_swap; now apply Pp). unfold f_exchange, Gex. cbv zeta. cbn [csum]. rewrite Cplus_0_r.
    unfold val', val. cbn [fst snd string_sign carried_string map fold_right]. rewrite !fcar_1, !fcar_0, !fsig_1, !fsig_0 by assumption.
    replace (sg (Exchange H k 0%Z) * sg (Exchange H k 1%Z) * (sg (Exchange H k 1%Z) * sg (Exchange H k 0%Z) * 1))%R with ((sg (Exchange H k 0%Z) * sg (Exchange H k 0%Z)) * (sg (Exchange H k 1%Z) * sg (Exchange H k 1%Z)))%R by ring.
    rewrite (fsq _ Hi), (fsq _ Hj), Rmult_1_r, !Cmult_1_r. reflexivity.
Qed.
Lemma finterall_ok : csum (zrange 0 (NInterAll H)) (fun k => csum (f_interall N H k) val') = csum (zrange 0 (NInterAll H)) (fun k => csum (f_interall N H k) val).
Proof.
  apply (Inv.ProofsHam.kept_sum _ _ _ (fun (r : C * (Z * Z * Z * Z * (Z * Z * Z * Z))) => let '(t, (a, b, c, d, (a', b', c', d'))) := r in val (t, [(a + b * N, c + d * N); (a' + b' * N, c' + d' * N)])) _ _ (sf_interall _ _ _ Hf));
    intros k Hk; unfold f_interall; cbv zeta; cbn [csum fst snd]; rewrite Cplus_0_r; [reflexivity|].
  destruct (fok_interall _ _ Hok k Hk) as ((H0 & _) & (H2 & _) & (H4 & _) & (H6 & _)). unfold val', val. cbn [fst snd string_sign carried_string map fold_right]. rewrite !fcar_s, !fsig_s by assumption. rewrite Rmult_1_r. reflexivity.
Qed.
Lemma ffiles_applied : fapplied V (carried_observable W g (fhamiltonian N H)) f x = fapplied V (fhamiltonian N H) f x.
Proof.
  unfold fapplied, carried_observable. rewrite csum_map. fold val. change (csum (fhamiltonian N H) val' = csum (fhamiltonian N H) val). unfold fhamiltonian, fdiagonal, fhopping. rewrite !csum_app, !csum_flat_map.
  rewrite fintra_ok, finter_ok, fhund_ok, ftransfer_ok, fpair_ok, fexchange_ok, finterall_ok. reflexivity.
Qed.
End Files.
Theorem ffiles_invariant V g H : wf_fwave V -> fsymmetry V g -> fsites_ok (fsites V) H -> symmetric_files (lattice V) g H -> finvariant V g (fhamiltonian (fsites V) H).
Proof. intros HV HS Hok Hf f x. exact (ffiles_applied V g H (wf_valid _ HV) HS Hok Hf f x). Qed.
