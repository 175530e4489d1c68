(** The operators of Gfz/Spec.v obey the algebra of fermion bilinears. *)
From Coq Require Import ZArith List Bool Lia Reals Lra FunctionalExtensionality.
From Coquelicot Require Import Complex.
From Verif Require Import Base.ZLoop Base.Checked Base.RSum Pf.Pfaffian Pf.Spec Slater.Model Slater.Spec Green.Model Green.Spec Green.Proofs Samp.Model Samp.Spec Fsz.Model Fsz.Spec Gfz.Model Gfz.Spec Gfz.Anti Gfz.Proofs.
From Verif Require Green.ProofsAlg.
Import ListNotations.
Local Open Scope Z_scope.

Section Alg.
Variable L : list Z.
Hypothesis HL : NoDup L.
Definition foff (a b c d : Z) (f : (Z -> Z) -> C) (x : Z -> Z) : C :=
  csum L (fun m => csum L (fun m' => if m =? m' then RtoC 0 else if (x m =? d) && (x m' =? b) then f (upd (upd x m c) m' a) else RtoC 0)).
Lemma fproduct a b c d f x : fstring L [(a, b); (c, d)] f x = Cplus (if b =? c then fact L (a, d) f x else RtoC 0) (foff a b c d f x).
Proof.
  cbn [fstring]. unfold fact at 1. cbn [fst snd].
  assert (E : forall m, In m L -> (if x m =? d then fact L (a, b) f (upd x m c) else RtoC 0) =
    Cplus (if x m =? d then (if b =? c then f (upd x m a) else RtoC 0) else RtoC 0)
      (csum L (fun m' => if m =? m' then RtoC 0 else if (x m =? d) && (x m' =? b) then f (upd (upd x m c) m' a) else RtoC 0))).
  { intros m Hm. destruct (Z.eqb_spec (x m) d) as [Ed|_].
    2:{ rewrite csum_zero; [ring|]. intros m' _. destruct (m =? m'); reflexivity. }
    cbn [andb]. unfold fact. cbn [fst snd].
    rewrite <- (Green.ProofsAlg.csum_if L m (fun m' => if b =? c then f (upd x m' a) else RtoC 0)) by assumption.
    rewrite <- csum_add. apply csum_ext. intros m' _. rewrite upd_get. destruct (Z.eqb_spec m m') as [<-|Hne].
    - rewrite Z.eqb_refl, (Z.eqb_sym c b). rewrite upd_twice. destruct (b =? c); ring.
    - replace (m' =? m) with false by lia. destruct (x m' =? b); ring. }
  rewrite (csum_ext _ _ _ E), csum_add. f_equal. destruct (b =? c).
  - unfold fact. cbn [fst snd]. reflexivity.
  - apply csum_zero. intros m _. destruct (x m =? d); reflexivity.
Qed.
Lemma foff_sym a b c d f x : foff a b c d f x = foff c d a b f x.
Proof.
  unfold foff. rewrite csum_swap. apply csum_ext. intros m _. apply csum_ext. intros m' _. rewrite (Z.eqb_sym m' m). destruct (Z.eqb_spec m m') as [|Hne]; [reflexivity|].
  rewrite andb_comm. destruct (_ && _); [|reflexivity]. now rewrite upd_comm by congruence.
Qed.
Lemma fcommutator a b c d f x : Cminus (fstring L [(a, b); (c, d)] f x) (fstring L [(c, d); (a, b)] f x) =
  Cminus (if b =? c then fstring L [(a, d)] f x else RtoC 0) (if a =? d then fstring L [(c, b)] f x else RtoC 0).
Proof. rewrite !fproduct. rewrite (foff_sym c d a b), (Z.eqb_sym d a). cbn [fstring]. ring. Qed.
End Alg.

Lemma fcommutator_V V a b c d f x : Cminus (fstring (flabels V) [(a, b); (c, d)] f x) (fstring (flabels V) [(c, d); (a, b)] f x) =
  Cminus (if b =? c then fstring (flabels V) [(a, d)] f x else RtoC 0) (if a =? d then fstring (flabels V) [(c, b)] f x else RtoC 0).
Proof. apply fcommutator. unfold flabels. apply zrange_NoDup. Qed.
Lemma fexchange V m1 m2 x : In m1 (flabels V) -> In m2 (flabels V) -> m1 <> m2 ->
  fpsi V (fun i => x (if i =? m1 then m2 else if i =? m2 then m1 else i)) = Copp (fpsi V x).
Proof. exact (fpsi_anti V m1 m2 x). Qed.
