(** Concrete files for two sites: hopping both ways for both spins, every kind of interaction. *)
From Coq Require Import ZArith List Bool Reals Lia Lra.
From Coquelicot Require Import Complex.
From Verif Require Import Base.ZLoop Base.Checked Pf.Spec Slater.Model Green.Spec Ham.Model Ham.Spec Green.Cases Trm.Model Trm.Spec.
Import ListNotations.
Local Open Scope Z_scope.

Definition rows_trans : list row := [([0; 0; 1; 0], [1%R; 0%R]); ([1; 0; 0; 0], [1%R; 0%R]); ([0; 1; 1; 1], [(/ 2)%R; 2%R]); ([1; 1; 0; 1], [(/ 2)%R; (-2)%R])].
Definition rows_intra : list row := [([0], [4%R]); ([1], [(/ 2)%R])].
Definition rows_inter : list row := [([0; 1], [2%R])].
Definition rows_hund : list row := [([1; 0], [(/ 2)%R])].
Definition rows_pair : list row := [([0; 1], [3%R])].
Definition rows_exch : list row := [([0; 1], [5%R])].
Definition rows_all : list row := [([0; 0; 1; 0; 1; 1; 0; 1], [1%R; 2%R])].
Definition X2 : contents := Contents rows_trans rows_intra rows_inter rows_hund rows_pair rows_exch rows_all.
(** whole numbers are written without a point *)
Definition write (r : row) : list num := map Int (fst r) ++ map Flt (snd r).
Definition F2 : files := Files 4 [[Int 0; Int 0; Int 1; Int 0; Int 1; Int 0]; [Int 1; Int 0; Int 0; Int 0; Int 1; Int 0]; [Int 0; Int 1; Int 1; Int 1; Flt (/ 2); Int 2]; [Int 1; Int 1; Int 0; Int 1; Flt (/ 2); Int (-2)]]
  2 (map write rows_intra) 1 (map write rows_inter) 1 (map write rows_hund) 1 (map write rows_pair) 1 (map write rows_exch) 1 (map write rows_all).
Definition B2 : before := Before (fun _ _ => 7, fun _ => Ci) (fun _ _ => 7, fun _ => 9%R) 9%R (8%R, 8%R).
Lemma map_value_flt ds : map value (map Flt ds) = ds. Proof. induction ds as [|a ds IH]; [reflexivity|]. cbn. now rewrite IH. Qed.
Lemma write_is n m r : length (fst r) = n -> length (snd r) = m -> line_is n m (write r) r.
Proof. intros H1 H2. split; [exact H1|]. split; [exact H2|]. exists (map Flt (snd r)). split; [reflexivity|apply map_value_flt]. Qed.
Lemma map_complete n m rows : (forall r, In r rows -> length (fst r) = n /\ length (snd r) = m) -> complete n m (map write rows) rows.
Proof.
  induction rows as [|r rows IH]; intros H; [constructor|]. cbn. constructor; [|apply IH; intros r' I; apply H; now right]. destruct (H r (or_introl eq_refl)). now apply write_is.
Qed.
Ltac in_rows := let r := fresh in let I := fresh in intros r I; cbn in I; repeat (destruct I as [<-|I]; [try reflexivity; try (split; reflexivity)|]); try now elim I.
Lemma X2_complete : all_complete F2 X2.
Proof.
  split; [|repeat split; apply map_complete; in_rows].
  unfold F2, X2. cbn [l_trans r_trans]. unfold rows_trans. repeat (apply Forall2_cons; [split; [reflexivity|split; [reflexivity|]]|]); try apply Forall2_nil.
  - exists [Int 1; Int 0]. now split.
  - exists [Int 1; Int 0]. now split.
  - exists [Flt (/ 2); Int 2]. now split.
  - exists [Flt (/ 2); Int (-2)]. now split.
Qed.
Lemma F2_counts : counts_ok F2. Proof. repeat split; cbn; lia. Qed.
Lemma X2_effect : in_effect F2 X2 = X2. Proof. reflexivity. Qed.
Lemma X2_counted : counted F2 X2. Proof. repeat split. Qed.
Lemma X2_good : good 0 (sites V2) X2.
Proof. change (sites V2) with 2. split; [in_rows|]. split; [in_rows|]. split; in_rows. Qed.
Lemma X2_spins : spins_good X2.
Proof. split; intros r I; cbn in I; repeat (destruct I as [<-|I]; [intros c J; cbn in J; repeat (destruct J as [<-|J]; [cbn; tauto|]); now elim J|]); now elim I. Qed.

(** ** wrong files *)
(** a spin that does not exist *)
Definition no_rows : contents := Contents [] [] [] [] [] [] [].
Definition X_spin : contents := Contents [([0; 0; 1; 5], [1%R; 0%R])] [] [] [] [] [] [].
Definition F_spin : files := Files 1 (map write [([0; 0; 1; 5], [1%R; 0%R])]) 0 [] 0 [] 0 [] 0 [] 0 [] 0 [].
Lemma X_spin_complete : all_complete F_spin X_spin.
Proof. split; [apply map_complete; in_rows|]. repeat split; constructor. Qed.
(** the second line ends after the real part *)
Definition short : list (list num) := [[Int 0; Int 0; Int 1; Int 0; Int 1; Flt (/ 2)]; [Int 1; Int 0; Int 0; Int 0; Int 1]].
(** a header that announces nothing *)
Definition F_zero : files := Files 0 (l_trans F2) 0 [] 0 [] 0 [] 0 [] 0 [] 0 [].
Definition X_zero : contents := Contents rows_trans [] [] [] [] [] [].
Lemma X_zero_complete : all_complete F_zero X_zero.
Proof. split; [exact (proj1 X2_complete)|]. repeat split; constructor. Qed.
