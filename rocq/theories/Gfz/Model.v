(** Local Green functions with general spins (locgrn_fsz.c).  Same conventions as Green/Model.v: arrays are functions, accesses to
    the configuration tables are checked (None = outside the array), buffers and counters do not overlap.  The record of global
    variables is that of Green/Model.v; with general spins the restricted Boltzmann machine is not used even if one is given. *)
From Coq Require Import ZArith List Bool Reals.
From Coquelicot Require Import Complex.
From Verif Require Import Base.ZLoop Base.Checked Base.RSum Proj.Model Pf.Model Slater.Model Green.Model Fsz.Model.
Import ListNotations.
Local Open Scope Z_scope.

(** what these functions write: three configuration tables (restored on return), new counters, buffer of new Pfaffians *)
Record fwork := FWork { fIdx : Z -> Z; fSpn : Z -> Z; fNum : Z -> Z; fProjNew : Z -> Z; fPfBuf : Z -> C }.

Section Green.
Variable G : env.
Let N := gNsite G.
Let n2 := 2 * gNsite G.
Let Ne := gNe G.

(** locgrn_fsz.c:66-70, 81-84: electron m leaves the spin-orbital xOld and goes to site r with spin s, spin-orbital xNew *)
Definition put_fsz (m r s xOld xNew : Z) (w : fwork) : option fwork :=
  x <- wr (2 * Ne) (fIdx w) m r;;
  y <- wr (2 * Ne) (fSpn w) m s;;
  e <- wr n2 (fNum w) xOld 0;;
  e <- wr n2 e xNew 1;;
  Some (FWork x y e (fProjNew w) (fPfBuf w)).
(** the overlap of the configuration in w with new counters p, after CalculateNewPfM_fsz(m,s,..), over ip
    (locgrn_fsz.c:72-76, 120-124) *)
Definition ratio_one (m s : Z) (ip : C) (cnt p : Z -> Z) (w : fwork) : C * (Z -> C) :=
  let pf := calculate_new_pfm_fsz N (2 * Ne) (gSl G) m s (fIdx w) (fSpn w) 0 (gNQPFull G) (gInvM G) (gPfM G) (fPfBuf w) in
  (Cconj (Cdiv (Cmult (RtoC (proj_ratio G p cnt)) (calculate_ip (gA G) 0 (gNQPFull G) pf)) ip), pf).

(** locgrn_fsz.c:51-87 GreenFunc1_fsz *)
Definition green1_fsz (ri rj s : Z) (ip : C) (eleCfg cnt : Z -> Z) (w : fwork) : option (C * fwork) :=
  let rsi := ri + s * N in let rsj := rj + s * N in
  ni <- rd n2 (fNum w) rsi;; nj <- rd n2 (fNum w) rsj;;
  if ri =? rj then Some (RtoC (IZR ni), w)
  else if (ni =? 1) || (nj =? 0) then Some (RtoC 0, w)
  else
    mj <- rd n2 eleCfg rsj;;
    w1 <- put_fsz mj ri s rsj rsi w;;
    p <- update_proj_cnt (gT G) rj ri s false (fProjNew w1) cnt (fNum w1);;
    let '(z, pf) := ratio_one mj s ip cnt p w1 in
    w2 <- put_fsz mj rj s rsi rsj (FWork (fIdx w1) (fSpn w1) (fNum w1) p pf);;
    Some (z, w2).

(** locgrn_fsz.c:88-123 GreenFunc1_fsz2: creation at (ri,s), annihilation at (rj,t) *)
Definition green1_fsz2 (ri rj s t : Z) (ip : C) (eleCfg cnt : Z -> Z) (w : fwork) : option (C * fwork) :=
  let rsi := ri + s * N in let rtj := rj + t * N in
  ni <- rd n2 (fNum w) rsi;; nj <- rd n2 (fNum w) rtj;;
  if (ni =? 1) || (nj =? 0) then Some (RtoC 0, w)
  else
    mj <- rd n2 eleCfg rtj;;
    w1 <- put_fsz mj ri s rtj rsi w;;
    p <- update_proj_cnt_fsz (gT G) rj ri t s false (fProjNew w1) cnt (fNum w1);;
    let '(z, pf) := ratio_one mj s ip cnt p w1 in
    w2 <- put_fsz mj rj t rsi rtj (FWork (fIdx w1) (fSpn w1) (fNum w1) p pf);;
    Some (z, w2).

(** locgrn_fsz.c:195-199, 314-316 *)
Definition ratio_two (ml u mj s : Z) (ip : C) (cnt p : Z -> Z) (w : fwork) : C * (Z -> C) :=
  let pf := calculate_new_pfm_two_fsz N (2 * Ne) (gSl G) ml u mj s (fIdx w) (fSpn w) 0 (gNQPFull G) (gInvM G) (gPfM G) (fPfBuf w) in
  (Cconj (Cdiv (Cmult (RtoC (proj_ratio G p cnt)) (calculate_ip (gA G) 0 (gNQPFull G) pf)) ip), pf).

(** locgrn_fsz.c:128-216 GreenFunc2_fsz *)
Definition green2_fsz (ri rj rk rl s t : Z) (ip : C) (eleCfg cnt : Z -> Z) (w : fwork) : option (C * fwork) :=
  let rsi := ri + s * N in let rsj := rj + s * N in let rtk := rk + t * N in let rtl := rl + t * N in
  let zero := Some (RtoC 0, w) in
  let one a b s := green1_fsz a b s ip eleCfg cnt w in
  let num v := Some (RtoC (IZR v), w) in
  ni <- rd n2 (fNum w) rsi;; nj <- rd n2 (fNum w) rsj;; nk <- rd n2 (fNum w) rtk;; nl <- rd n2 (fNum w) rtl;;
  let rest :=
    if (ni =? 1) || (nj =? 0) || (nk =? 1) || (nl =? 0) then zero
    else
      mj <- rd n2 eleCfg rsj;; ml <- rd n2 eleCfg rtl;;
      w1 <- put_fsz ml rk t rtl rtk w;;
      p <- update_proj_cnt (gT G) rl rk t false (fProjNew w1) cnt (fNum w1);;
      w2 <- put_fsz mj ri s rsj rsi w1;;
      p <- update_proj_cnt (gT G) rj ri s true p p (fNum w2);;
      let '(z, pf) := ratio_two ml t mj s ip cnt p w2 in
      w3 <- put_fsz ml rl t rtk rtl (FWork (fIdx w2) (fSpn w2) (fNum w2) p pf);;
      w4 <- put_fsz mj rj s rsi rsj w3;;
      Some (z, w4) in
  if s =? t then
    if rk =? rl then (if nk =? 0 then zero else one ri rj s)
    else if rj =? rl then zero
    else if ri =? rl then (if ni =? 0 then zero else if rj =? rk then num (1 - nj) else r <- one rk rj s;; Some (Copp (fst r), snd r))
    else if rj =? rk then (if nj =? 1 then zero else if ri =? rl then num ni else one ri rl s)
    else if ri =? rk then zero
    else if ri =? rj then (if ni =? 0 then zero else one rk rl s)
    else rest
  else
    if rk =? rl then (if nk =? 0 then zero else if ri =? rj then num ni else one ri rj s)
    else if ri =? rj then (if ni =? 0 then zero else one rk rl t)
    else rest.

(** locgrn_fsz.c:218-332 GreenFunc2_fsz2: creation at (ri,s), annihilation at (rj,t), creation at (rk,u), annihilation at (rl,v) *)
Definition green2_fsz2 (ri rj rk rl s t u v : Z) (ip : C) (eleCfg cnt : Z -> Z) (w : fwork) : option (C * fwork) :=
  let XI := ri + s * N in let XJ := rj + t * N in let XK := rk + u * N in let XL := rl + v * N in
  let zero := Some (RtoC 0, w) in
  let one a b s t := green1_fsz2 a b s t ip eleCfg cnt w in
  let num v := Some (RtoC (IZR v), w) in
  ni <- rd n2 (fNum w) XI;; nj <- rd n2 (fNum w) XJ;; nk <- rd n2 (fNum w) XK;; nl <- rd n2 (fNum w) XL;;
  if XI =? XJ then
    if XJ =? XK then
      if XK =? XL then num ni
      else (if ni =? 1 then zero else one rk rl u v)
    else if XJ =? XL then zero
    else if XK =? XL then num (ni * nk)
    else (if ni =? 0 then zero else one rk rl u v)
  else if XI =? XK then
    zero
  else if XI =? XL then
    if XJ =? XK then num (ni * (1 - nj))
    else (if ni =? 0 then zero else r <- one rk rj u t;; Some (Cmult (RtoC (-1)) (fst r), snd r))
  else if XJ =? XK then
    if XK =? XL then (if nj =? 0 then zero else one ri rj s t)
    else (if nj =? 1 then zero else one ri rl s v)
  else if XJ =? XL then zero
  else if XK =? XL then (if nk =? 0 then zero else one ri rj s t)
  else if (ni =? 1) || (nj =? 0) || (nk =? 1) || (nl =? 0) then zero
  else
    mj <- rd n2 eleCfg XJ;; ml <- rd n2 eleCfg XL;;
    w1 <- put_fsz ml rk u XL XK w;;
    p <- update_proj_cnt_fsz (gT G) rl rk v u false (fProjNew w1) cnt (fNum w1);;
    w2 <- put_fsz mj ri s XJ XI w1;;
    p <- update_proj_cnt_fsz (gT G) rj ri t s true p p (fNum w2);;
    let '(z, pf) := ratio_two ml u mj s ip cnt p w2 in
    w3 <- put_fsz ml rl v XK XL (FWork (fIdx w2) (fSpn w2) (fNum w2) p pf);;
    w4 <- put_fsz mj rj t XI XJ w3;;
    Some (z, w4).
End Green.
