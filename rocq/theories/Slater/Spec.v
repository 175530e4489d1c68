(** What the projected pair wave function is.  Independent of the tables the program builds from it. *)
From Coq Require Import ZArith List Bool Reals.
From Coquelicot Require Import Complex.
From Verif Require Import Base.ZLoop Base.RSum Pf.Pfaffian Pf.Spec Slater.Model.
Import ListNotations.
Local Open Scope Z_scope.

(** ** one transformed pair function *)
(** transform o followed by translation m: where site r goes, and the sign collected on the way *)
Definition image (T : qptables) (o m r : Z) : Z := QPTrans T m (QPOptTrans T o r).
Definition sign (T : qptables) (o m r : Z) : Z := QPOptTransSgn T o r * QPTransSgn T m (QPOptTrans T o r).
(** the pair function f(r,r') (first argument spin up, second spin down) seen through both *)
Definition pair (T : qptables) (sl : Z -> C) (o m r r' : Z) : C :=
  Cmult (RtoC (IZR (sign T o m r * sign T o m r' * OrbitalSgn T (image T o m r) (image T o m r')))) (sl (OrbitalIdx T (image T o m r) (image T o m r'))).
(** spin-up and spin-down states rotated by the angle 2h: their components on up (0) and down (1) *)
Definition up (h : R) (s : Z) : R := if s =? 0 then cos h else sin h.
Definition down (h : R) (s : Z) : R := if s =? 0 then (- sin h)%R else cos h.
(** spin-orbital x = site + spin*Nsite; the antisymmetrised amplitude of the pair *)
Definition element (Nsite : Z) (T : qptables) (sl : Z -> C) (o m : Z) (h : R) (x y : Z) : C :=
  let r := x mod Nsite in let s := x / Nsite in let r' := y mod Nsite in let s' := y / Nsite in
  Cminus (Cmult (RtoC (up h s * down h s')%R) (pair T sl o m r r')) (Cmult (RtoC (up h s' * down h s)%R) (pair T sl o m r' r)).

(** ** projections: transform o, translation m, angle s *)
Definition projection (S : sizes) (o m s : Z) : Z := (o * NMPTrans S + m) * NSPGaussLeg S + s.
Definition in_range (S : sizes) (o m s : Z) : Prop := 0 <= o < NQPOptTrans S /\ 0 <= m < NMPTrans S /\ 0 <= s < NSPGaussLeg S.
(** Legendre polynomials: P_0 = 1, P_1 = x, (n+2) P_(n+2) = (2n+3) x P_(n+1) - (n+1) P_n *)
Fixpoint legendre (n : nat) (x : R) {struct n} : R :=
  match n with
  | O => 1
  | S n' => match n' with
            | O => x
            | S n'' => ((2 * INR n'' + 3) * x * legendre n' x - (INR n'' + 1) * legendre n'' x) / (INR n'' + 2)
            end
  end%R.
(** half the rotation angle and the quadrature weight of node s; a single node means no spin projection *)
Definition half (S : sizes) (beta : Z -> R) (s : Z) : R := if NSPGaussLeg S =? 1 then 0%R else (beta s / 2)%R.
Definition spin_weight (S : sizes) (stot : Z) (beta weight : Z -> R) (s : Z) : R :=
  if NSPGaussLeg S =? 1 then 1%R else (sin (beta s) / 2 * weight s * legendre (Z.to_nat stot) (cos (beta s)))%R.
Definition opt_weight (flag : bool) (OptTrans : Z -> C) (o : Z) : C := if flag then OptTrans o else RtoC 1.

(** the amplitude of a configuration: sum over all projections of weight times Pfaffian *)
Definition pfaffian (S : sizes) (T : qptables) (beta : Z -> R) (sl : Z -> C) (eleIdx : Z -> Z) (o m s : Z) : C :=
  pf (fun i j => element (Nsite S) T sl o m (half S beta s) (orbital (Nsite S) (Ne S) eleIdx i) (orbital (Nsite S) (Ne S) eleIdx j)) (zrange 0 (2 * Ne S)).
Definition amplitude (S : sizes) (T : qptables) (stot : Z) (beta weight : Z -> R) (para : Z -> C) (opt : Z -> C) (sl : Z -> C) (eleIdx : Z -> Z) : C :=
  csum (zrange 0 (NQPOptTrans S)) (fun o => csum (zrange 0 (NMPTrans S)) (fun m => csum (zrange 0 (NSPGaussLeg S)) (fun s =>
    Cmult (Cmult (opt o) (Cmult (RtoC (spin_weight S stot beta weight s)) (para m))) (pfaffian S T beta sl eleIdx o m s)))).

(** ** hypotheses on the input *)
Definition valid (S : sizes) (T : qptables) (flag : bool) : Prop :=
  0 < Nsite S /\ 0 < Ne S /\ 0 < NSPGaussLeg S /\ 0 < NMPTrans S /\ 0 < NQPOptTrans S /\ 0 <= NSlater S /\
  (flag = false -> NQPOptTrans S = 1) /\
  (forall o r, 0 <= o < NQPOptTrans S -> 0 <= r < Nsite S -> 0 <= QPOptTrans T o r < Nsite S) /\
  (forall m r, 0 <= m < NMPTrans S -> 0 <= r < Nsite S -> 0 <= QPTrans T m r < Nsite S) /\
  (forall a b, 0 <= a < Nsite S -> 0 <= b < Nsite S -> 0 <= OrbitalIdx T a b < NSlater S).

(** d is the derivative at 0 of a complex function of a real variable *)
Definition derivative (F : R -> C) (d : C) : Prop :=
  derivable_pt_lim (fun t => fst (F t)) 0 (fst d) /\ derivable_pt_lim (fun t => snd (F t)) 0 (snd d).
(** x is the logarithmic derivative: dF = x F(0) *)
Definition log_derivative (F : R -> C) (x : C) : Prop := derivative F (Cmult x (F 0%R)).
(** v with the real (imaginary) part of component k shifted by t *)
Definition shift_re (v : Z -> C) (k : Z) (t : R) : Z -> C := upd v k (Cplus (v k) (t, 0%R)).
Definition shift_im (v : Z -> C) (k : Z) (t : R) : Z -> C := upd v k (Cplus (v k) (0%R, t)).
