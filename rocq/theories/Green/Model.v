(** Local Green functions (locgrn.c: GreenFunc1, GreenFunc2, GreenFuncN, calculateNewPfMN_child; projection.c: ProjRatio).
    Arrays are functions; accesses to the configuration tables are checked (None = outside the array).  The buffers of new
    Pfaffians and the pointers to old and new counters never overlap (they are carved out of different workspaces by the callers). *)
From Coq Require Import ZArith List Bool Reals.
From Coquelicot Require Import Complex.
From Verif Require Import Base.ZLoop Base.Checked Base.RSum Proj.Model Pf.Model Slater.Model Rbm.Model.
Import ListNotations.
Local Open Scope Z_scope.

(** the global variables these functions read *)
Record env := Env {
  gNsite : Z; gNe : Z; gNQPFull : Z;
  gT : tables; gProj : Z -> C;                                     (* correlation factors *)
  gFlagRBM : bool; gM : machine; gRBM : Z -> C;                     (* restricted Boltzmann machine *)
  gclog : C -> C; gNB : Z; gThreads : Z; gjunk : Z -> Z -> C;       (* see Rbm/Model.v *)
  gA : angles; gSl : Z -> C; gInvM : Z -> C; gPfM : Z -> C          (* weights, pair amplitudes, inverses, Pfaffians *)
}.
(** what they write: two configuration tables (restored on return), new counters, buffer of new Pfaffians *)
Record work := Work { eleIdx : Z -> Z; eleNum : Z -> Z; projNew : Z -> Z; rbmNew : Z -> C; pfBuf : Z -> C }.

Section Green.
Variable G : env.
Let N := gNsite G.
Let n2 := 2 * gNsite G.
Let Ne := gNe G.

(** projection.c:50-57 ProjRatio *)
Definition proj_ratio (cnew cold : Z -> Z) : R :=
  exp (loop 0 (NProj (gT G)) (fun k z => (z + fst (gProj G k) * IZR (cnew k - cold k))%R) 0%R).

(** locgrn.c:52-60, 109-113: electron m (label in the list) leaves rsOld and goes to site rNew (rsNew with its spin) *)
Definition put (m rNew rsOld rsNew : Z) (w : work) : option work :=
  x <- wr (2 * Ne) (eleIdx w) m rNew;;
  e <- wr n2 (eleNum w) rsOld 0;;
  e <- wr n2 e rsNew 1;;
  Some (Work x e (projNew w) (rbmNew w) (pfBuf w)).

(** locgrn.c:41-82 GreenFunc1.  [cnt], [rcnt] are the counters of the unmoved configuration. *)
Definition green1 (ri rj s : Z) (ip : C) (eleCfg : Z -> Z) (cnt : Z -> Z) (rcnt : Z -> C) (w : work) : option (C * work) :=
  let rsi := ri + s * N in let rsj := rj + s * N in
  ni <- rd n2 (eleNum w) rsi;; nj <- rd n2 (eleNum w) rsj;;
  if ri =? rj then Some (RtoC (IZR ni), w)
  else if (ni =? 1) || (nj =? 0) then Some (RtoC 0, w)
  else
    mj <- rd n2 eleCfg rsj;;
    let msj := mj + s * Ne in
    w1 <- put msj ri rsj rsi w;;
    p <- update_proj_cnt (gT G) rj ri s false (projNew w1) cnt (eleNum w1);;
    pr <- (if gFlagRBM G then
             r <- update_rbm_cnt (gM G) (gRBM G) rj ri s false (rbmNew w1) rcnt (eleNum w1);; Some (p, r)
           else
             p <- update_proj_cnt (gT G) rj ri s false p cnt (eleNum w1);; Some (p, rbmNew w1));;
    let '(p, r) := pr in
    let z := RtoC (proj_ratio p cnt) in
    let z := if gFlagRBM G then Cmult z (rbm_ratio (gM G) (gclog G) (gRBM G) (gNB G) (gThreads G) (gjunk G) r rcnt) else z in
    let pf := calculate_new_pfm N Ne (2 * Ne) (gSl G) mj s (eleIdx w1) 0 (gNQPFull G) (gInvM G) (gPfM G) (pfBuf w1) in
    let z := Cmult z (calculate_ip (gA G) 0 (gNQPFull G) pf) in
    w2 <- put msj rj rsi rsj (Work (eleIdx w1) (eleNum w1) p r pf);;
    Some (Cconj (Cdiv z ip), w2).

(** locgrn.c:86-179 GreenFunc2 *)
Definition green2 (ri rj rk rl s t : Z) (ip : C) (eleCfg : Z -> Z) (cnt : Z -> Z) (rcnt : Z -> C) (w : work) : option (C * work) :=
  let rsi := ri + s * N in let rsj := rj + s * N in let rtk := rk + t * N in let rtl := rl + t * N in
  let zero := Some (RtoC 0, w) in
  let one a b s := green1 a b s ip eleCfg cnt rcnt w in
  let num v := Some (RtoC (IZR v), w) in
  ni <- rd n2 (eleNum w) rsi;; nj <- rd n2 (eleNum w) rsj;; nk <- rd n2 (eleNum w) rtk;; nl <- rd n2 (eleNum w) rtl;;
  let rest :=
    if (ni =? 1) || (nj =? 0) || (nk =? 1) || (nl =? 0) then zero
    else
      mj <- rd n2 eleCfg rsj;; ml <- rd n2 eleCfg rtl;;
      let msj := mj + s * Ne in let mtl := ml + t * Ne in
      w1 <- put mtl rk rtl rtk w;;
      p <- update_proj_cnt (gT G) rl rk t false (projNew w1) cnt (eleNum w1);;
      r <- (if gFlagRBM G then update_rbm_cnt (gM G) (gRBM G) rl rk t false (rbmNew w1) rcnt (eleNum w1) else Some (rbmNew w1));;
      w2 <- put msj ri rsj rsi (Work (eleIdx w1) (eleNum w1) p r (pfBuf w1));;
      p <- update_proj_cnt (gT G) rj ri s true p p (eleNum w2);;
      r <- (if gFlagRBM G then update_rbm_cnt (gM G) (gRBM G) rj ri s true r r (eleNum w2) else Some r);;
      let z := RtoC (proj_ratio p cnt) in
      let z := if gFlagRBM G then Cmult z (rbm_ratio (gM G) (gclog G) (gRBM G) (gNB G) (gThreads G) (gjunk G) r rcnt) else z in
      let pf := calculate_new_pfm_two N Ne (2 * Ne) (gSl G) ml t mj s (eleIdx w2) 0 (gNQPFull G) (gInvM G) (gPfM G) (pfBuf w2) in
      let z := Cmult z (calculate_ip (gA G) 0 (gNQPFull G) pf) in
      w3 <- put mtl rl rtk rtl (Work (eleIdx w2) (eleNum w2) p r pf);;
      w4 <- put msj rj rsi rsj w3;;
      Some (Cconj (Cdiv z ip), w4) in
  if s =? t then
    if rk =? rl then (if nk =? 0 then zero else one ri rj s)
    else if rj =? rl then zero
    else if ri =? rl then (if ni =? 0 then zero else if rj =? rk then num (1 - nj) else r <- one rk rj s;; Some (Copp (fst r), snd r))
    else if rj =? rk then (if nj =? 1 then zero else if ri =? rl then num ni else one ri rl s)
    else if ri =? rk then zero
    else if ri =? rj then (if ni =? 0 then zero else one rk rl s)
    else rest
  else
    if rk =? rl then (if nk =? 0 then zero else if ri =? rj then num ni else one ri rj s)
    else if ri =? rj then (if ni =? 0 then zero else one rk rl t)
    else rest.

(** ** GreenFuncN *)
(** for (l=lo; l<hi; l++) with a return in the body *)
Definition first {D : Type} (lo hi : Z) (f : Z -> option D) : option D :=
  fold_right (fun l r => match f l with Some d => Some d | None => r end) None (zrange lo hi).
(** locgrn.c:235-238: cells l+1..n-1 move down by one *)
Definition shift (l n : Z) (a : Z -> Z) : Z -> Z := loop l (n - 1) (fun m a => upd a m (a (m + 1))) a.
(** what the checks at operator k decide: value 0, or a shorter string with a sign; None: go on *)
Inductive reduced := Zero | Shorter (neg : bool) (a b : Z -> Z).
(** locgrn.c:227-275: the body of the loop over k *)
Definition reduce (n : Z) (a b e : Z -> Z) (k : Z) : option reduced :=
  match first (k + 1) n (fun l =>
          if b k =? a l then Some (Shorter false (shift l n a) (shift l n (upd b k (b l))))
          else if b k =? b l then Some Zero else None) with
  | Some d => Some d
  | None =>
    if e (b k) =? 0 then Some Zero
    else if a k =? b k then Some (Shorter false (shift k n a) (shift k n b))
    else match first (k + 1) n (fun l =>
          if a k =? a l then Some Zero
          else if a k =? b l then Some (Shorter true (shift l n (upd a k (a l))) (shift l n b)) else None) with
         | Some d => Some d
         | None => if e (a k) =? 1 then Some Zero else None
         end
  end.
(** for (k=n-1; k>=0; k--) *)
Definition reduce_all (n : Z) (a b e : Z -> Z) : option reduced := first 0 n (fun i => reduce n a b e (n - 1 - i)).

(** [kernel] is calculateNewPfMN_child(qpidx,n,msj,rsj,eleIdx,.) *)
Variable kernel : Z -> Z -> (Z -> Z) -> (Z -> Z) -> (Z -> Z) -> C.
(** locgrn.c:278-315: all moves, counters from scratch, back *)
Definition all_moves (n : Z) (a b : Z -> Z) (ip : C) (eleCfg : Z -> Z) (cnt : Z -> Z) (rcnt : Z -> C) (w : work) : option (C * work) :=
  st <- loopM 0 n (fun k (st : (Z -> Z) * work) =>
    mj <- rd n2 eleCfg (b k);;
    let m := mj + (b k / N) * Ne in
    w <- put m (a k mod N) (b k) (a k) (snd st);;
    Some (upd (fst st) k m, w)) ((fun _ => 0), w);;
  let '(msj, w1) := st in
  p <- make_proj_cnt (gT G) (projNew w1) (eleNum w1);;
  let x := RtoC (proj_ratio p cnt) in
  xr <- (if gFlagRBM G then
           r <- make_rbm_cnt (gM G) (gRBM G) (rbmNew w1) (eleNum w1);;
           Some (Cmult x (rbm_ratio (gM G) (gclog G) (gRBM G) (gNB G) (gThreads G) (gjunk G) r rcnt), r)
         else Some (x, rbmNew w1));;
  let '(x, r) := xr in
  let pf := loop 0 (gNQPFull G) (fun q pf => upd pf q (kernel q n msj b (eleIdx w1))) (pfBuf w1) in
  let z := calculate_ip (gA G) 0 (gNQPFull G) pf in
  w2 <- loopM 0 n (fun k w => put (msj k) (b k mod N) (a k) (b k) w) (Work (eleIdx w1) (eleNum w1) p r pf);;
  Some (Cconj (Cdiv (Cmult x z) ip), w2).

(** locgrn.c:192-312 GreenFuncN; [fuel] bounds the depth of the recursion (None when used up) *)
Fixpoint green_n (fuel : nat) (n : Z) (a b : Z -> Z) (ip : C) (eleCfg : Z -> Z) (cnt : Z -> Z) (rcnt : Z -> C) (w : work) {struct fuel} : option (C * work) :=
  match fuel with
  | O => None
  | S fuel =>
    if existsb (fun k => negb (a k / N =? b k / N)) (zrange 0 n) then Some (RtoC 0, w)
    else if n <=? 0 then Some (RtoC 0, w)
    else if n =? 1 then green1 (a 0 mod N) (b 0 mod N) (a 0 / N) ip eleCfg cnt rcnt w
    else if n =? 2 then green2 (a 0 mod N) (b 0 mod N) (a 1 mod N) (b 1 mod N) (a 0 / N) (a 1 / N) ip eleCfg cnt rcnt w
    else match reduce_all n a b (eleNum w) with
         | Some Zero => Some (RtoC 0, w)
         | Some (Shorter neg a b) =>
             r <- green_n fuel (n - 1) a b ip eleCfg cnt rcnt w;;
             Some (if neg then (Copp (fst r), snd r) else r)
         | None => all_moves n a b ip eleCfg cnt rcnt w
         end
  end.

(** locgrn.c:317-424 calculateNewPfMN_child.  [skpfa m lda A] is the library routine ZSKPFA on an m*m matrix stored with
    leading dimension lda; the code passes n for the order 2n and never sets [lda]. *)
Definition new_pfmn (skpfa : Z -> Z -> (Z -> C) -> C) (lda : Z) (q n : Z) (msa rsa x : Z -> Z) : C :=
  let nsize := 2 * Ne in
  let sltE := fun i => gSl G (q * (2 * N) * (2 * N) + i) in
  let invM := fun i => gInvM G (q * nsize * nsize + i) in
  let rs := fun m => x m + (m / Ne) * N in
  let vec := loop 0 n (fun k v => loop 0 nsize (fun i v => upd v (k * nsize + i) (sltE (rs (msa k) * (2 * N) + rs i))) v) (fun _ => RtoC 0) in
  let mat := loop 0 n (fun k mat => loop (k + 1) n (fun l mat =>
      let val := loop 0 nsize (fun i val =>
        Cplus val (Cmult (loop 0 nsize (fun j tmp => Cplus tmp (Cmult (invM (i * nsize + j)) (vec (l * nsize + j)))) (RtoC 0)) (vec (k * nsize + i)))) (RtoC 0) in
      upd mat (2 * n * k + l) (Cplus val (vec (k * nsize + msa l)))) mat) (fun _ => RtoC 0) in
  let mat := loop 0 n (fun k mat => loop 0 n (fun l mat =>
      upd mat (2 * n * k + n + l) (loop 0 nsize (fun i val => Cplus val (Cmult (vec (k * nsize + i)) (invM (msa l * nsize + i)))) (RtoC 0))) mat) mat in
  let mat := loop 0 n (fun k mat => loop (k + 1) n (fun l mat => upd mat (2 * n * (k + n) + n + l) (invM (msa k * nsize + msa l))) mat) mat in
  let mat := loop 0 (2 * n) (fun k mat =>
      upd (loop 0 k (fun l mat => upd mat (2 * n * k + l) (Copp (mat (2 * n * l + k)))) mat) (2 * n * k + k) (RtoC 0)) mat in
  let sgn := if (n * (n - 1) / 2) mod 2 =? 0 then RtoC 1 else Copp (RtoC 1) in
  Cmult (Cmult sgn (skpfa n lda mat)) (gPfM G q).
End Green.
