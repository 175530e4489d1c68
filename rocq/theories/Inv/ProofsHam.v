(** Definition files that do not distinguish equivalent sites give an invariant Hamiltonian. *)
From Coq Require Import ZArith List Bool Lia Reals Lra Permutation.
From Coquelicot Require Import Complex.
From Verif Require Import Base.ZLoop Base.RSum Pf.Spec Proj.Model Proj.Spec Slater.Model Slater.Spec Rbm.Model Rbm.Spec Samp.Model Samp.Spec Green.Model Green.Spec Ham.Model Ham.Spec Grd.Spec Grd.ProofsSum
  Sym.Spec Sym.ProofsPf Sym.ProofsOcc Sym.ProofsMean Inv.Spec Inv.Proofs.
Import ListNotations.
Local Open Scope Z_scope.

Section Files.
Variables (V : wave) (g : Z) (H : terms).
Hypothesis HV : wf_wave V.
Hypothesis HS : symmetry V g.
Hypothesis Hok : sites_ok V H.
Hypothesis Hf : symmetric_files V g H.
Notation N := (sites V).
Notation p := (QPTrans (vQ V) g).
Notation sg := (fun r => IZR (QPTransSgn (vQ V) g r)).
Let HN : 0 < N. Proof. exact (proj1 (wv_valid _ HV)). Qed.
Let HNe : 0 < Slater.Model.Ne (vS V). Proof. exact (proj1 (proj2 (wv_valid _ HV))). Qed.
Variables (f : (Z -> Z) -> C) (u : list Z).
Hypothesis Hu : In u (configurations V).
Let val (t : C * list (Z * Z)) : C := Cmult (fst t) (Cconj (string V (snd t) f (conf u))).
Let val' (t : C * list (Z * Z)) : C := val (Cmult (fst t) (RtoC (string_sign V g (snd t))), carried_string V g (snd t)).
Lemma kept_sum {A} n (row image : Z -> A) (G : A -> C) (a a' : Z -> C) : kept n row image -> (forall k, 0 <= k < n -> a k = G (row k)) -> (forall k, 0 <= k < n -> a' k = G (image k)) -> csum (zrange 0 n) a' = csum (zrange 0 n) a.
Proof.
  intros K E E'. rewrite (csum_ext _ a (fun k => G (row k))) by (intros k Hk; apply zrange_in in Hk; now apply E). rewrite (csum_ext _ a' (fun k => G (image k))) by (intros k Hk; apply zrange_in in Hk; now apply E').
  rewrite <- (csum_map row), <- (csum_map image). now apply csum_perm.
Qed.
Lemma car_s i s : site N i -> carried V g (i + s * N) = p i + s * N. Proof. intros Hi. unfold carried. now rewrite lifted_orb. Qed.
Lemma car_0 i : site N i -> carried V g i = p i. Proof. intros Hi. pose proof (car_s i 0 Hi) as E. now rewrite Z.mul_0_l, !Z.add_0_r in E. Qed.
Lemma car_1 i : site N i -> carried V g (i + N) = p i + N. Proof. intros Hi. pose proof (car_s i 1 Hi) as E. now rewrite Z.mul_1_l in E. Qed.
Lemma sig_s i s : site N i -> carried_sign V g (i + s * N) = sg i. Proof. intros Hi. unfold carried_sign. rewrite Z.mod_add by lia. now rewrite Z.mod_small by exact Hi. Qed.
Lemma sig_0 i : site N i -> carried_sign V g i = sg i. Proof. intros Hi. pose proof (sig_s i 0 Hi) as E. now rewrite Z.mul_0_l, !Z.add_0_r in E. Qed.
Lemma sig_1 i : site N i -> carried_sign V g (i + N) = sg i. Proof. intros Hi. pose proof (sig_s i 1 Hi) as E. now rewrite Z.mul_1_l in E. Qed.
Lemma sq i : site N i -> (sg i * sg i = 1)%R. Proof. intros Hi. pose proof (sign_square V g HV HS i) as E. now rewrite (sig_0 i Hi) in E. Qed.
(** strings made of number operators have sign 1 *)
Lemma val'_numbers c a b : val' (c, [number a; number b]) = val (c, [number (carried V g a); number (carried V g b)]).
Proof.
  unfold val', val. cbn [fst snd string_sign carried_string map fold_right number]. rewrite !(sign_square V g HV HS). rewrite !Rmult_1_l. now rewrite Cmult_1_r.
Qed.
Lemma val_swap c a b : val (c, [number a; number b]) = val (c, [number b; number a]).
Proof. unfold val, number. cbn [fst snd]. now rewrite (numbers_commute V HN HNe a b f u Hu). Qed.
(** a function of two sites that does not depend on their order *)
Lemma bond_value (G : Z -> Z -> C) i j : G i j = G j i -> G (fst (bond i j)) (snd (bond i j)) = G i j.
Proof. intros E. unfold bond. cbn [fst snd]. destruct (Z.le_ge_cases i j) as [L|L]; [now rewrite Z.min_l, Z.max_r by exact L|]. rewrite Z.min_r, Z.max_l by exact L. symmetry. exact E. Qed.
Lemma op_uu i j : site N i -> site N j -> operator V (i, j).
Proof. unfold site. intros Hi Hj. unfold operator. cbn [fst snd]. rewrite !Z.div_small by lia. lia. Qed.
Lemma op_dd i j : site N i -> site N j -> operator V (i + N, j + N).
Proof. unfold site. intros Hi Hj. unfold operator. cbn [fst snd]. replace (i + N) with (i + 1 * N) by lia. replace (j + N) with (j + 1 * N) by lia. rewrite !Z.div_add by lia. rewrite !Z.div_small by lia. lia. Qed.

Lemma intra_ok : csum (zrange 0 (NIntra H)) (fun k => csum (h_intra V H k) val') = csum (zrange 0 (NIntra H)) (fun k => csum (h_intra V H k) val).
Proof.
  apply (kept_sum _ _ _ (fun ri => val (RtoC (fst ri), [number (snd ri); number (snd ri + N)])) _ _ (sf_intra _ _ _ Hf)); intros k Hk; unfold h_intra; cbn [csum fst snd]; rewrite Cplus_0_r; [reflexivity|].
  rewrite val'_numbers. rewrite car_0, car_1 by exact (ok_intra _ _ Hok k Hk). reflexivity.
Qed.
Let Ginter (r : R) (i j : Z) : C := csum (map (fun st : Z * Z => (RtoC r, [number (i + fst st * N); number (j + snd st * N)])) [(0, 0); (0, 1); (1, 0); (1, 1)]) val.
Lemma Ginter_swap r i j : Ginter r i j = Ginter r j i.
Proof. unfold Ginter. cbn [map csum fst snd]. rewrite (val_swap _ (i + 0 * N) (j + 0 * N)), (val_swap _ (i + 0 * N) (j + 1 * N)), (val_swap _ (i + 1 * N) (j + 0 * N)), (val_swap _ (i + 1 * N) (j + 1 * N)). ring. Qed.
Lemma inter_ok : csum (zrange 0 (NInter H)) (fun k => csum (h_inter V H k) val') = csum (zrange 0 (NInter H)) (fun k => csum (h_inter V H k) val).
Proof.
  apply (kept_sum _ _ _ (fun rij => Ginter (fst rij) (fst (snd rij)) (snd (snd rij))) _ _ (sf_inter _ _ _ Hf)); intros k Hk; destruct (ok_inter _ _ Hok k Hk) as (Hi & Hj); cbn [fst snd]; rewrite (bond_value (Ginter _)) by apply Ginter_swap; [reflexivity|].
  unfold h_inter, Ginter. cbn [map csum fst snd]. rewrite !val'_numbers. rewrite !car_s by assumption. reflexivity.
Qed.
Let Ghund (r : R) (i j : Z) : C := csum (map (fun s => (Copp (RtoC r), [number (i + s * N); number (j + s * N)])) [0; 1]) val.
Lemma Ghund_swap r i j : Ghund r i j = Ghund r j i.
Proof. unfold Ghund. cbn [map csum fst snd]. rewrite (val_swap _ (i + 0 * N) (j + 0 * N)), (val_swap _ (i + 1 * N) (j + 1 * N)). ring. Qed.
Lemma hund_ok : csum (zrange 0 (NHund H)) (fun k => csum (h_hund V H k) val') = csum (zrange 0 (NHund H)) (fun k => csum (h_hund V H k) val).
Proof.
  apply (kept_sum _ _ _ (fun rij => Ghund (fst rij) (fst (snd rij)) (snd (snd rij))) _ _ (sf_hund _ _ _ Hf)); intros k Hk; destruct (ok_hund _ _ Hok k Hk) as (Hi & Hj); cbn [fst snd]; rewrite (bond_value (Ghund _)) by apply Ghund_swap; [reflexivity|].
  unfold h_hund, Ghund. cbn [map csum fst snd]. rewrite !val'_numbers. rewrite !car_s by assumption. reflexivity.
Qed.
Lemma transfer_ok : csum (zrange 0 (NTransfer H)) (fun k => csum (h_transfer V H k) val') = csum (zrange 0 (NTransfer H)) (fun k => csum (h_transfer V H k) val).
Proof.
  apply (kept_sum _ _ _ (fun (r : C * (Z * Z * Z * Z)) => let '(t, (i, s, j, s')) := r in val (Copp t, [(i + s * N, j + s' * N)])) _ _ (sf_transfer _ _ _ Hf)); intros k Hk; unfold h_transfer; cbn [csum fst snd]; rewrite Cplus_0_r; [reflexivity|].
  destruct (ok_transfer _ _ Hok k Hk) as (Hi & _ & Hj & _). unfold val', val. cbn [fst snd string_sign carried_string map fold_right]. rewrite !car_s, !sig_s by assumption. rewrite Rmult_1_r. f_equal. ring.
Qed.
Lemma pair_ok : csum (zrange 0 (NPair H)) (fun k => csum (h_pair V H k) val') = csum (zrange 0 (NPair H)) (fun k => csum (h_pair V H k) val).
Proof.
  apply (kept_sum _ _ _ (fun (r : R * (Z * Z)) => let '(t, (i, j)) := r in val (RtoC t, [(i, j); (i + N, j + N)])) _ _ (sf_pair _ _ _ Hf)); intros k Hk; unfold h_pair; cbn [csum fst snd]; rewrite Cplus_0_r; [reflexivity|].
  destruct (ok_pair _ _ Hok k Hk) as (Hi & Hj). unfold val', val. cbn [fst snd string_sign carried_string map fold_right]. rewrite !car_0, !car_1, !sig_0, !sig_1 by assumption.
  replace (sg (Pair H k 0%Z) * sg (Pair H k 1%Z) * (sg (Pair H k 0%Z) * sg (Pair H k 1%Z) * 1))%R with ((sg (Pair H k 0%Z) * sg (Pair H k 0%Z)) * (sg (Pair H k 1%Z) * sg (Pair H k 1%Z)))%R by ring.
  rewrite (sq _ Hi), (sq _ Hj), Rmult_1_r. now rewrite Cmult_1_r.
Qed.
Let Gex (r : R) (i j : Z) : C := Cplus (val (RtoC r, [(i, j); (j + N, i + N)])) (val (RtoC r, [(i + N, j + N); (j, i)])).
Lemma Gex_swap r i j : site N i -> site N j -> Gex r i j = Gex r j i.
Proof.
  intros Hi Hj. unfold Gex, val. cbn [fst snd string]. unfold site in *.
  rewrite (disjoint_commute V HN HNe (j + N) (i + N) i j f u Hu (op_dd _ _ Hj Hi) (op_uu _ _ Hi Hj)) by lia. rewrite (disjoint_commute V HN HNe j i (i + N) (j + N) f u Hu (op_uu _ _ Hj Hi) (op_dd _ _ Hi Hj)) by lia. ring.
Qed.
Lemma exchange_ok : csum (zrange 0 (NExchange H)) (fun k => csum (h_exchange V H k) val') = csum (zrange 0 (NExchange H)) (fun k => csum (h_exchange V H k) val).
Proof.
  apply (kept_sum _ _ _ (fun rij => Gex (fst rij) (fst (snd rij)) (snd (snd rij))) _ _ (sf_exchange _ _ _ Hf)); intros k Hk; destruct (ok_exchange _ _ Hok k Hk) as (Hi & Hj); cbn [fst snd].
  - rewrite (bond_value (Gex _)) by now apply Gex_swap. unfold h_exchange, Gex. cbn [csum]. ring.
  - pose proof (p_perm V g HS) as (Pp & _). rewrite (bond_value (Gex _)) by (apply Gex_swap; now apply Pp). unfold h_exchange, Gex. cbn [csum]. rewrite Cplus_0_r.
    unfold val', val. cbn [fst snd string_sign carried_string map fold_right]. rewrite !car_0, !car_1, !sig_0, !sig_1 by assumption.
    replace (sg (Exchange H k 0%Z) * sg (Exchange H k 1%Z) * (sg (Exchange H k 1%Z) * sg (Exchange H k 0%Z) * 1))%R with ((sg (Exchange H k 0%Z) * sg (Exchange H k 0%Z)) * (sg (Exchange H k 1%Z) * sg (Exchange H k 1%Z)))%R by ring.
    rewrite (sq _ Hi), (sq _ Hj), Rmult_1_r, !Cmult_1_r. reflexivity.
Qed.
Lemma interall_ok : csum (zrange 0 (NInterAll H)) (fun k => csum (h_interall V H k) val') = csum (zrange 0 (NInterAll H)) (fun k => csum (h_interall V H k) val).
Proof.
  apply (kept_sum _ _ _ (fun (r : C * (Z * Z * Z * Z * (Z * Z * Z * Z))) => let '(t, (a, b, c, d, (a', b', c', d'))) := r in val (t, [(a + b * N, c + d * N); (a' + b' * N, c' + d' * N)])) _ _ (sf_interall _ _ _ Hf));
    intros k Hk; unfold h_interall; cbn [csum fst snd]; rewrite Cplus_0_r; [reflexivity|].
  destruct (ok_interall _ _ Hok k Hk) as (H0 & _ & H2 & _ & H4 & _ & H6 & _). unfold val', val. cbn [fst snd string_sign carried_string map fold_right]. rewrite !car_s, !sig_s by assumption. rewrite Rmult_1_r. reflexivity.
Qed.
Lemma files_applied : applied V (carried_observable V g (hamiltonian V H)) f (conf u) = applied V (hamiltonian V H) f (conf u).
Proof.
  unfold applied, carried_observable. rewrite csum_map. fold val. change (csum (hamiltonian V H) val' = csum (hamiltonian V H) val). unfold hamiltonian, diagonal, hopping. rewrite !csum_app, !csum_flat_map.
  rewrite intra_ok, inter_ok, hund_ok, transfer_ok, pair_ok, exchange_ok, interall_ok. reflexivity.
Qed.
End Files.
Theorem files_invariant V g H : wf_wave V -> symmetry V g -> sites_ok V H -> symmetric_files V g H -> invariant V g (hamiltonian V H).
Proof. intros HV HS Hok Hf f u Hu. exact (files_applied V g H HV HS Hok Hf f u Hu). Qed.
