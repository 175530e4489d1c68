(** One step of the Markov chain: the proposal drawn by the sampler and the weight it is accepted with
    (vmcmake.c:147-305, vmcmake_fsz.c:157-378; projection.c:40-47).  The proposals are those of Samp/Model.v; here they are
    evaluated for a given stream of random words, and the numerical part that Samp/Model.v leaves open is filled in from
    Proj/Model.v, Rbm/Model.v, Pf/Model.v and Fsz/Model.v.  One process holds all quantum projections (qpStart=0,
    qpEnd=NQPFull; Samp proves that the processes of a group act alike).  Real numbers instead of doubles; the logarithm of
    a vanishing overlap is -infinity, so exp(2*Re ..) is 0.  The variant _pf_block_update is not modelled. *)
From Coq Require Import ZArith List Bool Reals.
From Coquelicot Require Import Complex.
From Verif Require Import Base.ZLoop Base.Checked Base.RSum Proj.Model Pf.Model Slater.Model Rbm.Model Green.Model Fsz.Model Samp.Prog Samp.Model.
Import ListNotations.
Local Open Scope Z_scope.

(** the value of a program that neither communicates nor stops *)
Definition eval {K E A : Type} (p : Prog.prog K E A) : option A := match p with Ret a => Some a | _ => None end.

(** ** proposals *)
(** what rejectFlag, mi, ri, rj, s, t and the updated tables say; [w1], [w2] after the first and the second updateEleConfig *)
Inductive proposal :=
| Rejected
| OneStep (mi ri rj s t : Z) (w1 : walker)
| TwoStep (mi mj ri rj s : Z) (w1 w2 : walker).
Definition proposed (r : proposal) : option walker :=
  match r with Rejected => None | OneStep _ _ _ _ _ w1 => Some w1 | TwoStep _ _ _ _ _ _ w2 => Some w2 end.

Section Propose.
Variables (I : input) (Orc : oracles).
Let N := Proj.Model.Nsite (T I).
(** vmcmake.c:154-164 *)
Definition propose_hop (w : walker) (p : Z) : option (Z * proposal) :=
  c <- eval (make_candidate_hopping I Orc w p);;
  let '(p, (mi, ri, rj, s), flag) := c in
  if flag =? 1 then Some (p, Rejected)
  else w1 <- eval (update_ele_config I Orc mi ri rj s w);; Some (p, OneStep mi ri rj s s w1).
(** vmcmake.c:227-249 *)
Definition propose_exchange (w : walker) (p : Z) : option (Z * proposal) :=
  c <- eval (make_candidate_exchange I Orc w p);;
  let '(p, r) := c in
  match r with
  | None => Some (p, Rejected)
  | Some (mi, ri, rj, s) =>
    let t := 1 - s in
    mj <- rd (2 * N) (eleCfg w) (rj + t * N);;
    w1 <- eval (update_ele_config I Orc mi ri rj s w);;
    w2 <- eval (update_ele_config I Orc mj rj ri t w1);;
    Some (p, TwoStep mi mj ri rj s w1 w2)
  end.
(** vmcmake.c:147-249; no branch for other update types *)
Definition propose (w : walker) (p : Z) : option (Z * proposal) :=
  let (p, ut) := get_update_type I Orc p in
  match ut with HOPPING => propose_hop w p | EXCHANGE => propose_exchange w p | _ => Some (p, Rejected) end.

(** vmcmake_fsz.c:183-186, 320-325 *)
Definition one_fsz (w : walker) (c : Z * (Z * Z * Z * Z * Z) * Z) : option (Z * proposal) :=
  let '(p, (mi, ri, rj, s, t), flag) := c in
  if flag =? 1 then Some (p, Rejected)
  else w1 <- eval (update_ele_config_fsz I Orc mi ri rj s t w);; Some (p, OneStep mi ri rj s t w1).
(** vmcmake_fsz.c:159-186 *)
Definition propose_hop_fsz (w : walker) (p : Z) : option (Z * proposal) :=
  c <- eval (if TwoSz I =? -1 then
               if coin (rnd Orc p) =? 0 then make_candidate_hopping_fsz I Orc w (p + 1)
               else make_candidate_flip_conduction I Orc w (p + 1)
             else make_candidate_hopping_csz I Orc w p);;
  one_fsz w c.
(** vmcmake_fsz.c:312-325 *)
Definition propose_flip_fsz (w : walker) (p : Z) : option (Z * proposal) :=
  c <- eval (make_candidate_flip_localspin I Orc w p);; one_fsz w c.
(** vmcmake_fsz.c:241-262 *)
Definition propose_exchange_fsz (w : walker) (p : Z) : option (Z * proposal) :=
  c <- eval (make_candidate_exchange_fsz I Orc w p);;
  let '(p, r) := c in
  match r with
  | None => Some (p, Rejected)
  | Some (mi, ri, rj, s) =>
    let t := 1 - s in
    mj <- rd (2 * N) (eleCfg w) (rj + t * N);;
    w1 <- eval (update_ele_config_fsz I Orc mi ri rj s s w);;
    w2 <- eval (update_ele_config_fsz I Orc mj rj ri t t w1);;
    Some (p, TwoStep mi mj ri rj s w1 w2)
  end.
(** vmcmake_fsz.c:157-325 *)
Definition propose_fsz (w : walker) (p : Z) : option (Z * proposal) :=
  let (p, ut) := get_update_type I Orc p in
  match ut with
  | HOPPING => propose_hop_fsz w p | EXCHANGE => propose_exchange_fsz w p | LOCALSPINFLIP => propose_flip_fsz w p
  | NONE => Some (p, Rejected)
  end.
End Propose.

(** ** weights *)
(** content of the local arrays projCntNew, rbmCntNew, pfMNew before they are written *)
Record scratch := Scratch { cntBuf : Z -> Z; rbmBuf : Z -> C; pfBuf : Z -> C }.
Section Weight.
Variable G : env.
Let N := gNsite G.
Let Ne := gNe G.

(** projection.c:40-47 LogProjRatio *)
Definition log_proj_ratio (cnew cold : Z -> Z) : R :=
  loop 0 (NProj (gT G)) (fun k z => (z + fst (gProj G k) * IZR (cnew k - cold k))%R) 0%R.
(** vmcmake.c:189-190: w = exp(2.0*(creal(x+logIpNew-logIpOld))), logIpNew = clog(ip) *)
Definition metropolis_weight (x ip logIpOld : C) : R :=
  if Ceq_dec ip (RtoC 0) then 0%R else exp (2 * fst (Cminus (Cplus x (gclog G ip)) logIpOld)).
(** vmcmake.c:185-188 *)
Definition log_ratio (p cnt : Z -> Z) (r rcnt : Z -> C) : C :=
  let x := RtoC (log_proj_ratio p cnt) in
  if gFlagRBM G then Cplus x (log_rbm_ratio (gM G) (gclog G) (gRBM G) (gNB G) (gThreads G) (gjunk G) r rcnt) else x.
(** vmcmake.c:163-190; [rcnt] = TmpRBMCnt *)
Definition one_weight (b : scratch) (w : walker) (rcnt : Z -> C) (logIpOld : C) (mi ri rj s : Z) (w1 : walker) : option R :=
  p <- update_proj_cnt (gT G) ri rj s false (cntBuf b) (eleProjCnt w) (eleNum w1);;
  r <- (if gFlagRBM G then update_rbm_cnt (gM G) (gRBM G) ri rj s false (rbmBuf b) rcnt (eleNum w1) else Some (rbmBuf b));;
  let pf := calculate_new_pfm N Ne (2 * Ne) (gSl G) mi s (eleIdx w1) 0 (gNQPFull G) (gInvM G) (gPfM G) (pfBuf b) in
  Some (metropolis_weight (log_ratio p (eleProjCnt w) r rcnt) (calculate_ip (gA G) 0 (gNQPFull G) pf) logIpOld).
(** vmcmake.c:241-280 *)
Definition two_weight (b : scratch) (w : walker) (rcnt : Z -> C) (logIpOld : C) (mi mj ri rj s : Z) (w1 w2 : walker) : option R :=
  let t := 1 - s in
  p <- update_proj_cnt (gT G) ri rj s false (cntBuf b) (eleProjCnt w) (eleNum w1);;
  r <- (if gFlagRBM G then update_rbm_cnt (gM G) (gRBM G) ri rj s false (rbmBuf b) rcnt (eleNum w1) else Some (rbmBuf b));;
  p <- update_proj_cnt (gT G) rj ri t true p p (eleNum w2);;
  r <- (if gFlagRBM G then update_rbm_cnt (gM G) (gRBM G) rj ri t true r r (eleNum w2) else Some r);;
  let pf := calculate_new_pfm_two N Ne (2 * Ne) (gSl G) mi s mj t (eleIdx w2) 0 (gNQPFull G) (gInvM G) (gPfM G) (pfBuf b) in
  Some (metropolis_weight (log_ratio p (eleProjCnt w) r rcnt) (calculate_ip (gA G) 0 (gNQPFull G) pf) logIpOld).
Definition weight (b : scratch) (w : walker) (rcnt : Z -> C) (logIpOld : C) (r : proposal) : option R :=
  match r with
  | Rejected => None
  | OneStep mi ri rj s _ w1 => one_weight b w rcnt logIpOld mi ri rj s w1
  | TwoStep mi mj ri rj s w1 w2 => two_weight b w rcnt logIpOld mi mj ri rj s w1 w2
  end.

(** vmcmake_fsz.c:186-214, 325-350: no RBM factor.  The branch for local spins always calls UpdateProjCnt_fsz; its s and t
    differ. *)
Definition one_weight_fsz (b : scratch) (w : walker) (logIpOld : C) (mi ri rj s t : Z) (w1 : walker) : option R :=
  p <- (if s =? t then update_proj_cnt (gT G) ri rj s false (cntBuf b) (eleProjCnt w) (eleNum w1)
        else update_proj_cnt_fsz (gT G) ri rj s t false (cntBuf b) (eleProjCnt w) (eleNum w1));;
  let pf := calculate_new_pfm_fsz N (2 * Ne) (gSl G) mi t (eleIdx w1) (eleSpn w1) 0 (gNQPFull G) (gInvM G) (gPfM G) (pfBuf b) in
  Some (metropolis_weight (RtoC (log_proj_ratio p (eleProjCnt w))) (calculate_ip (gA G) 0 (gNQPFull G) pf) logIpOld).
(** vmcmake_fsz.c:256-287 *)
Definition two_weight_fsz (b : scratch) (w : walker) (logIpOld : C) (mi mj ri rj s : Z) (w1 w2 : walker) : option R :=
  let t := 1 - s in
  p <- update_proj_cnt (gT G) ri rj s false (cntBuf b) (eleProjCnt w) (eleNum w1);;
  p <- update_proj_cnt (gT G) rj ri t true p p (eleNum w2);;
  let pf := calculate_new_pfm_two_fsz N (2 * Ne) (gSl G) mi s mj t (eleIdx w2) (eleSpn w2) 0 (gNQPFull G) (gInvM G) (gPfM G) (pfBuf b) in
  Some (metropolis_weight (RtoC (log_proj_ratio p (eleProjCnt w))) (calculate_ip (gA G) 0 (gNQPFull G) pf) logIpOld).
Definition weight_fsz (b : scratch) (w : walker) (logIpOld : C) (r : proposal) : option R :=
  match r with
  | Rejected => None
  | OneStep mi ri rj s t w1 => one_weight_fsz b w logIpOld mi ri rj s t w1
  | TwoStep mi mj ri rj s w1 w2 => two_weight_fsz b w logIpOld mi mj ri rj s w1 w2
  end.
End Weight.
