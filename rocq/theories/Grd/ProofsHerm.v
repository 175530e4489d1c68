(** Files whose rows come with their adjoints give a self-adjoint Hamiltonian. *)
From Coq Require Import ZArith List Bool Lia Reals Lra Permutation.
From Coquelicot Require Import Complex.
From Verif Require Import Base.ZLoop Base.RSum Slater.Model Slater.Spec Green.Model Green.Spec Green.Anti Ham.Model Ham.Spec Grd.Model Grd.Spec Grd.ProofsSum.
From Verif Require Uhf.Spec.
Import ListNotations.
Local Open Scope Z_scope.

Section Herm.
Variable V : wave.
Notation N := (sites V).
Notation Ne := (Slater.Model.Ne (vS V)).
Notation X := (configurations V).
Hypothesis HN : 0 < N.
Hypothesis HNe : 0 < Ne.
Variable H : terms.
Hypothesis Hok : sites_ok V H.
Hypothesis Hsp : spins_kept H.
Hypothesis Hh : Uhf.Spec.files_hermitian N H.

Lemma div_up i : site V i -> i / N = 0. Proof. unfold site. intros. now apply Z.div_small. Qed.
Lemma div_dn i : site V i -> (i + N) / N = 1. Proof. unfold site. intros. replace (i + N) with (i + 1 * N) by lia. rewrite Z.div_add, Z.div_small; lia. Qed.
Lemma div_s i s : site V i -> (i + s * N) / N = s. Proof. unfold site. intros. rewrite Z.div_add, Z.div_small; lia. Qed.
Lemma numbers_one_spin a b : one_spin V [number a; number b].
Proof. intros o [<-|[<-|[]]]; reflexivity. Qed.
Lemma all_one_spin t : In t (hamiltonian V H) -> one_spin V (snd t).
Proof.
  unfold hamiltonian, diagonal, hopping. rewrite !in_app_iff, !in_flat_map.
  intros [[(k & Hk & Ht)|[(k & Hk & Ht)|(k & Hk & Ht)]]|[(k & Hk & Ht)|[(k & Hk & Ht)|[(k & Hk & Ht)|(k & Hk & Ht)]]]]; apply zrange_in in Hk.
  - destruct Ht as [<-|[]]. apply numbers_one_spin.
  - unfold h_inter in Ht. apply in_map_iff in Ht. destruct Ht as (st & <- & _). apply numbers_one_spin.
  - unfold h_hund in Ht. apply in_map_iff in Ht. destruct Ht as (st & <- & _). apply numbers_one_spin.
  - destruct Ht as [<-|[]]. destruct (ok_transfer V H Hok k Hk) as (A & _ & B & _). intros o [<-|[]]. cbn [fst snd]. rewrite !div_s by assumption. now apply (proj1 Hsp).
  - destruct Ht as [<-|[]]. destruct (ok_pair V H Hok k Hk) as (A & B). intros o [<-|[<-|[]]]; cbn [fst snd]; [rewrite !div_up by assumption|rewrite !div_dn by assumption]; reflexivity.
  - destruct (ok_exchange V H Hok k Hk) as (A & B).
    destruct Ht as [<-|[<-|[]]]; intros o [<-|[<-|[]]]; cbn [fst snd]; first [rewrite !div_dn by assumption|rewrite !div_up by assumption]; reflexivity.
  - destruct Ht as [<-|[]]. destruct (ok_interall V H Hok k Hk) as (A & _ & B & _ & C & _ & D & _). destruct (proj2 Hsp k Hk) as (S1 & S2).
    intros o [<-|[<-|[]]]; cbn [fst snd]; rewrite !div_s by assumption; assumption.
Qed.

Variables f g : (Z -> Z) -> C.
Definition val (t : C * list (Z * Z)) : C := Cmult (fst t) (bracket V (string V (snd t) f) g).
Definition val' (t : C * list (Z * Z)) : C := Cmult (Cconj (fst t)) (bracket V (string V (adj (snd t)) f) g).
Lemma number_terms r a b : val (RtoC r, [number a; number b]) = val' (RtoC r, [number a; number b]).
Proof. unfold val, val', number, adj, swap; cbn [fst snd map rev app]. rewrite conj_R. f_equal. apply bracket_ext. intros u Hu. now apply (numbers_commute V HN HNe). Qed.
Lemma hund_term r a b : val (Copp (RtoC r), [number a; number b]) = val' (Copp (RtoC r), [number a; number b]).
Proof. rewrite <- RtoC_opp. apply number_terms. Qed.
Lemma rows_equal (h : Z -> observable) n : (forall k, 0 <= k < n -> csum (h k) val = csum (h k) val') -> csum (flat_map h (zrange 0 n)) val = csum (flat_map h (zrange 0 n)) val'.
Proof. intros E. rewrite !csum_flat_map. apply csum_ext. intros k Hk. apply E. now apply zrange_in. Qed.
Lemma rows_paired {A} (h : Z -> observable) n (row : Z -> A) (flip : A -> A) (w : A -> C) :
  Permutation (map flip (map row (zrange 0 n))) (map row (zrange 0 n)) ->
  (forall k, 0 <= k < n -> csum (h k) val = w (row k)) -> (forall k, 0 <= k < n -> csum (h k) val' = w (flip (row k))) ->
  csum (flat_map h (zrange 0 n)) val = csum (flat_map h (zrange 0 n)) val'.
Proof.
  intros HP E E'. rewrite !csum_flat_map. transitivity (csum (map row (zrange 0 n)) w).
  - rewrite csum_map. apply csum_ext. intros k Hk. apply E. now apply zrange_in.
  - rewrite <- (csum_perm _ _ w HP). rewrite !csum_map. apply csum_ext. intros k Hk. symmetry. apply E'. now apply zrange_in.
Qed.

Lemma terms_self_adjoint : csum (hamiltonian V H) val = csum (hamiltonian V H) val'.
Proof.
  unfold hamiltonian, diagonal, hopping. rewrite !csum_app.
  assert (T : csum (flat_map (h_transfer V H) (zrange 0 (NTransfer H))) val = csum (flat_map (h_transfer V H) (zrange 0 (NTransfer H))) val').
  { apply (rows_paired _ _ (fun k => (Transfer H k 0, Transfer H k 1, Transfer H k 2, Transfer H k 3, ParaTransfer H k)) (fun r => let '(i, s, j, t, v) := r in (j, t, i, s, Cconj v))
      (fun r => let '(i, s, j, t, v) := r in val (Copp v, [(i + s * N, j + t * N)]))).
    - exact (proj1 Hh).
    - intros k Hk. unfold h_transfer. cbn [csum]. ring.
    - intros k Hk. unfold h_transfer. cbn [csum]. unfold val, val'. unfold adj, swap; cbn [fst snd map rev app]. replace (Cconj (Copp (ParaTransfer H k))) with (Copp (Cconj (ParaTransfer H k))) by (unfold Cconj, Copp; cbn; f_equal). ring. }
  assert (P : csum (flat_map (h_pair V H) (zrange 0 (NPair H))) val = csum (flat_map (h_pair V H) (zrange 0 (NPair H))) val').
  { apply (rows_paired _ _ (fun k => (Pair H k 0, Pair H k 1, ParaPair H k)) (fun r => let '(i, j, v) := r in (j, i, v))
      (fun r => let '(i, j, v) := r in val (RtoC v, [(i, j); (i + N, j + N)]))).
    - exact (proj2 (proj2 Hh)).
    - intros k Hk. unfold h_pair. cbn [csum]. ring.
    - intros k Hk. unfold h_pair. cbn [csum]. unfold val, val'. unfold adj, swap; cbn [fst snd map rev app]. rewrite conj_R.
      destruct (ok_pair V H Hok k Hk) as (A & B). pose proof A as A'. pose proof B as B'. unfold site in A', B'.
      rewrite (bracket_ext V (string V [(Pair H k 1 + N, Pair H k 0 + N); (Pair H k 1, Pair H k 0)] f) (string V [(Pair H k 1, Pair H k 0); (Pair H k 1 + N, Pair H k 0 + N)] f)); [ring|].
      intros u Hu. cbn [string]. apply (disjoint_commute V HN HNe); try exact Hu; try lia.
      + split; [|split]; cbn [fst snd]; try lia. now rewrite !div_up.
      + split; [|split]; cbn [fst snd]; try lia. now rewrite !div_dn. }
  assert (I : csum (flat_map (h_interall V H) (zrange 0 (NInterAll H))) val = csum (flat_map (h_interall V H) (zrange 0 (NInterAll H))) val').
  { apply (rows_paired _ _ (fun k => let c := InterAll H k in (c 0 + c 1 * N, c 2 + c 3 * N, c 4 + c 5 * N, c 6 + c 7 * N, ParaInterAll H k)) (fun r => let '(a, b, c, d, v) := r in (d, c, b, a, Cconj v))
      (fun r => let '(a, b, c, d, v) := r in val (v, [(a, b); (c, d)]))).
    - exact (proj1 (proj2 Hh)).
    - intros k Hk. unfold h_interall. cbn [csum]. ring.
    - intros k Hk. unfold h_interall. cbn [csum]. unfold val, val'. unfold adj, swap; cbn [fst snd map rev app]. ring. }
  rewrite T, P, I.
  rewrite (rows_equal (h_intra V H)), (rows_equal (h_inter V H)), (rows_equal (h_hund V H)), (rows_equal (h_exchange V H)); [reflexivity| | | |]; intros k Hk.
  - unfold h_exchange. cbn [csum]. unfold val, val'. unfold adj, swap; cbn [fst snd map rev app]. rewrite !conj_R. ring.
  - unfold h_hund. cbn [map csum]. now rewrite !hund_term.
  - unfold h_inter. cbn [map csum]. now rewrite !number_terms.
  - unfold h_intra. cbn [csum]. now rewrite number_terms.
Qed.
End Herm.
Lemma files_self_adjoint V H : 0 < sites V -> 0 < Slater.Model.Ne (vS V) -> sites_ok V H -> spins_kept H -> Uhf.Spec.files_hermitian (sites V) H -> self_adjoint V (hamiltonian V H).
Proof.
  intros HN HNe Hok Hsp Hh f g. rewrite (element_conj V HN HNe) by (intros t Ht; now apply (all_one_spin V HN H Hok Hsp)). rewrite element_bracket.
  exact (terms_self_adjoint V HN HNe H Hok Hh f g).
Qed.
