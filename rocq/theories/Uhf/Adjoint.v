(** Files in which every term comes with its adjoint have real energies. *)
From Coq Require Import ZArith List Bool Lia Reals Lra Permutation.
From Coquelicot Require Import Complex.
From Verif Require Import Base.ZLoop Base.RSum Pf.Pfaffian Pf.Spec Green.Spec Ham.Model Ham.Spec Uhf.Model Uhf.Spec Uhf.Rows Uhf.Proofs.
Import ListNotations.
Local Open Scope Z_scope.
Section Adjoint.
Variables (V : wave) (H : terms).
Notation N := (sites V).
Notation n := (2 * N).
Notation O := (hamiltonian V H).
Hypothesis HN : 0 < N.
Hypothesis HS : sites_ok V H.
Variable G : matrix.
Hypothesis HG : hermitian n G.
Lemma conj_one a b : 0 <= a < n -> 0 <= b < n -> Cconj (wick G [(a, b)]) = wick G [(b, a)].
Proof. intros Ha Hb. cbn [wick]. symmetry. now apply HG. Qed.
Lemma conj_two a b c d : 0 <= a < n -> 0 <= b < n -> 0 <= c < n -> 0 <= d < n -> Cconj (wick G [(a, b); (c, d)]) = wick G [(d, c); (b, a)].
Proof.
  intros Ha Hb Hc Hd. cbn [wick]. rewrite Cconj_plus, !Cconj_mult, Cconj_minus, kron_conj, <- !HG by assumption. rewrite (kron_swap b c). ring.
Qed.
Lemma far a b : 0 <= a < N -> 0 <= b < N -> kron (a + N) b = RtoC 0 /\ kron a (b + N) = RtoC 0.
Proof. intros Ha Hb. unfold kron. destruct (Z.eqb_spec (a + N) b), (Z.eqb_spec a (b + N)); try lia. now split. Qed.
Lemma real_rows (o : Z -> observable) m : (forall k, 0 <= k < m -> Cconj (mean_energy (o k) G) = mean_energy (o k) G) ->
  Cconj (mean_energy (flat_map o (zrange 0 m)) G) = mean_energy (flat_map o (zrange 0 m)) G.
Proof. intros E. unfold mean_energy. rewrite csum_flat, csum_conj. apply csum_ext. intros k Hk. apply zrange_in in Hk. now apply E. Qed.
(** a file with the rows [rows], closed under [adj] up to order *)
Lemma paired_rows {T} (o : Z -> observable) (row : Z -> T) (adj : T -> T) (F : T -> C) m :
  (forall k, 0 <= k < m -> mean_energy (o k) G = F (row k)) -> (forall k, 0 <= k < m -> Cconj (F (row k)) = F (adj (row k))) ->
  Permutation (map adj (map row (zrange 0 m))) (map row (zrange 0 m)) ->
  Cconj (mean_energy (flat_map o (zrange 0 m)) G) = mean_energy (flat_map o (zrange 0 m)) G.
Proof.
  intros E1 E2 HP. assert (EF : mean_energy (flat_map o (zrange 0 m)) G = csum (map row (zrange 0 m)) F).
  { unfold mean_energy. rewrite csum_flat, csum_mapped. apply csum_ext. intros k Hk. apply zrange_in in Hk. now rewrite <- E1. }
  rewrite EF. rewrite <- (csum_perm _ _ F HP) at 2. rewrite csum_conj, !csum_mapped. apply csum_ext. intros k Hk. apply zrange_in in Hk. now apply E2.
Qed.
Lemma number_real a b : 0 <= a < n -> 0 <= b < n -> Cconj (wick G [number a; number b]) = wick G [number a; number b].
Proof.
  intros Ha Hb. unfold number. rewrite conj_two by assumption. cbn [wick]. destruct (Z.eq_dec a b) as [->|D]; [reflexivity|]. unfold kron. destruct (Z.eqb_spec a b), (Z.eqb_spec b a); try lia. ring.
Qed.
Lemma cell i s : 0 <= i < N -> 0 <= s <= 1 -> 0 <= i + s * N < n. Proof. intros. nia. Qed.
Lemma real_mean : files_hermitian N H -> Cconj (mean_energy O G) = mean_energy O G.
Proof.
  intros (P1 & P2 & P3). unfold hamiltonian, diagonal, hopping. rewrite !mean_app, !Cconj_plus. repeat f_equal.
  - apply real_rows. intros k Hk. pose proof (ok_intra V H HS k Hk) as A. unfold site in A. unfold h_intra, mean_energy. cbn [csum fst snd]. rewrite Cconj_plus, Cconj_mult, !Cconj_real, number_real by lia. reflexivity.
  - apply real_rows. intros k Hk. destruct (ok_inter V H HS k Hk) as (A & A'). unfold site in *. unfold h_inter, mean_energy. cbn [map csum fst snd]. rewrite !Cconj_plus, !Cconj_mult, !Cconj_real, !number_real by lia. reflexivity.
  - apply real_rows. intros k Hk. destruct (ok_hund V H HS k Hk) as (A & A'). unfold site in *. unfold h_hund, mean_energy. cbn [map csum fst snd]. rewrite !Cconj_plus, !Cconj_mult, !number_real by lia. rewrite <- RtoC_opp, !Cconj_real. reflexivity.
  - apply (paired_rows (h_transfer V H) (fun k => (Transfer H k 0, Transfer H k 1, Transfer H k 2, Transfer H k 3, ParaTransfer H k)) (fun r => let '(i, s, j, t, v) := r in (j, t, i, s, Cconj v))
      (fun r => let '(i, s, j, t, v) := r in Copp (Cmult v (wick G [(i + s * N, j + t * N)])))); [| |exact P1].
    + intros k _. unfold h_transfer, mean_energy. cbn [csum fst snd]. ring.
    + intros k Hk. destruct (ok_transfer V H HS k Hk) as (A & B & A' & B'). unfold site, spin in *. cbv beta iota. rewrite <- (conj_one (Transfer H k 0 + Transfer H k 1 * N)) by (apply cell; lia). rewrite <- Cconj_mult. complex.
  - apply (paired_rows (h_pair V H) (fun k => (Pair H k 0, Pair H k 1, ParaPair H k)) (fun r => let '(i, j, v) := r in (j, i, v))
      (fun r => let '(i, j, v) := r in Cmult (RtoC v) (wick G [(i, j); (i + N, j + N)]))); [| |exact P3].
    + intros k _. unfold h_pair, mean_energy. cbn [csum fst snd]. ring.
    + intros k Hk. destruct (ok_pair V H HS k Hk) as (A & A'). unfold site in *. cbv beta iota. rewrite Cconj_mult, Cconj_real, conj_two by lia. f_equal. cbn [wick].
      destruct (far (Pair H k 0) (Pair H k 1)) as (-> & ->); [assumption..|]. ring.
  - apply real_rows. intros k Hk. destruct (ok_exchange V H HS k Hk) as (A & A'). unfold site in *. unfold h_exchange, mean_energy. cbn [csum fst snd]. rewrite !Cconj_plus, !Cconj_mult, !Cconj_real, !conj_two by lia. ring.
  - apply (paired_rows (h_interall V H) (fun k => let c := InterAll H k in (c 0 + c 1 * N, c 2 + c 3 * N, c 4 + c 5 * N, c 6 + c 7 * N, ParaInterAll H k)) (fun r => let '(a, b, c, d, v) := r in (d, c, b, a, Cconj v))
      (fun r => let '(a, b, c, d, v) := r in Cmult v (wick G [(a, b); (c, d)]))); [| |exact P2].
    + intros k _. unfold h_interall, mean_energy. cbn [csum fst snd]. cbv zeta. ring.
    + intros k Hk. destruct (ok_interall V H HS k Hk) as (A1 & B1 & A2 & B2 & A3 & B3 & A4 & B4). unfold site, spin in *. cbv zeta beta iota. rewrite Cconj_mult, conj_two by (apply cell; lia). reflexivity.
Qed.
End Adjoint.
Lemma files_real V H : 0 < sites V -> sites_ok V H -> files_hermitian (sites V) H -> real_energies (2 * sites V) (hamiltonian V H).
Proof. intros HN HS HF G HG. apply real_conj. now apply real_mean. Qed.
