(** Block updates of the Pfaffian and the inverse (src/pfupdates, the code behind `_pf_block_update`): one object [tdi] per projection
    keeps the inverse of a base configuration and up to mmax pending hops.
    double and double complex are C.  Matrices are column-major arrays with a leading dimension, as in Ltl.Model; the std::vectors
    from_idx and to_site are functions with the common length tK.  Only BLIS_UPPER, the one the program uses, is written out.
    BLAS dot, axpy, trmv, gemm, gemmt by their documented meaning; PFAPACK sktrf and skpfa and LAPACK trtri are parameters.
    Fresh memory has arbitrary contents [junk].  Outcome None: access beyond an allocated block, an exception of vector::at, or a
    division by zero. *)
From Coq Require Import ZArith List Bool Reals.
From Coquelicot Require Import Complex.
From Verif Require Import Base.ZLoop Base.Checked Base.RSum Ltl.Model.
Import ListNotations.
Local Open Scope Z_scope.

(** updated_tdi.tcc:20-53; P (line 119) is the part of Q from column mmax on *)
Record tdi := Tdi { tM : Z -> C; tU : Z -> C; tQ : Z -> C; tW : Z -> C; tUMU : Z -> C; tUMV : Z -> C; tVMV : Z -> C; tCp : Z -> C;
  tPfa : C; tRatio : C; tCfg : Z -> Z; tFrom : Z -> Z; tTo : Z -> Z; tK : Z; tNq : Z }.

(** skslc.tcc:11-33: column i of the skew matrix whose upper triangle is A, to the n cells at x of Q *)
Definition skslc (n i : Z) (x : Z) (A : Z -> C) (ldA : Z) (Q : Z -> C) : Z -> C :=
  let Q := upd Q (x + i) (RtoC 0) in
  let Q := loop 0 i (fun j Q => upd Q (x + j) (at_ A ldA j i)) Q in
  loop (i + 1) n (fun j Q => upd Q (x + j) (Copp (at_ A ldA i j))) Q.
(** skmv.tcc:12-34, alpha = 1: triangular product minus transposed triangular product, of the vector at u of U to the cells at y of Q *)
Definition skmv (n : Z) (A : Z -> C) (ldA : Z) (U : Z -> C) (u : Z) (Q : Z -> C) (y : Z) : Z -> C :=
  loop 0 n (fun i Q => upd Q (y + i) (Cminus (csum (zrange i n) (fun j => Cmult (at_ A ldA i j) (U (u + j))))
                                             (csum (zrange 0 (i + 1)) (fun j => Cmult (at_ A ldA j i) (U (u + j)))))) Q.
(** BLAS dot of the n cells at x and at y *)
Definition dot (n : Z) (U : Z -> C) (x : Z) (Q : Z -> C) (y : Z) : C := csum (zrange 0 n) (fun i => Cmult (U (x + i)) (Q (y + i))).
(** gemmt, upper: the upper triangle, diagonal included, of M becomes M + alpha A B', A and B with k columns *)
Definition gemmt (n k : Z) (alpha : C) (A : Z -> C) (a lda : Z) (B : Z -> C) (b ldb : Z) (M : Z -> C) (ldM : Z) : Z -> C :=
  loop 0 n (fun j M => loop 0 (j + 1) (fun i M =>
    put M ldM i j (Cplus (at_ M ldM i j) (Cmult alpha (csum (zrange 0 k) (fun l => Cmult (A (a + i + l * lda)) (B (b + j + l * ldb))))))) M) M.
(** gemm: the n x c matrix ABC becomes AB C *)
Definition gemm (n c k : Z) (AB : Z -> C) (ldab : Z) (Cm : Z -> C) (ldc : Z) (ABC : Z -> C) (ld : Z) : Z -> C :=
  loop 0 c (fun j X => loop 0 n (fun i X => put X ld i j (csum (zrange 0 k) (fun l => Cmult (at_ AB ldab i l) (at_ Cm ldc l j)))) X) ABC.
(** pow(-1.0, k * (k + 1) / 2) times z *)
Definition alternate (k : Z) (z : C) : C := if Z.even (k * (k + 1) / 2) then z else Copp z.

Section Updater.
(** orbitals, electrons, block size; the orbital matrix, column-major (orbital_mat.tcc:15-26) *)
Variables (norbs n mmax : Z) (X : Z -> C) (junk : Z -> C).
Variable sktrf : Z -> Z -> (Z -> C) -> (Z -> C) * (Z -> Z).
Variable skpfa : Z -> Z -> (Z -> C) -> C * (Z -> C).
Variables (trtri : bool -> Z -> Z -> (Z -> C) -> Z -> C) (npanel : Z).

(** orbital_mat.tcc:44-65 *)
Definition xij (osi osj : Z) : C :=
  if osi =? osj then RtoC 0 else if osi <? osj then at_ X norbs osi osj else Copp (at_ X norbs osj osi).

(** updated_tdi.tcc:55-96 initialize, with the constructor 140-150; M0 are the contents of the matrix the caller provides *)
Definition initialize (M0 : Z -> C) (cfg : Z -> Z) : option tdi :=
  let M := loop 0 n (fun j M => put (loop 0 j (fun i M => put M n i j (xij (cfg i) (cfg j))) M) n j j (RtoC 0)) M0 in
  let '(M, iPiv) := sktrf n n M in
  let pfa := utu2pfa n M n iPiv in
  bind (utu2inv trtri npanel n M n iPiv junk n) (fun M =>
  Some (Tdi M junk junk junk junk junk junk junk pfa (RtoC 1) cfg (fun _ => 0) (fun _ => 0) 0 0)).

(** updated_tdi.tcc:153 *)
Definition get_pfa (s : tdi) : C := Cmult (tPfa s) (tRatio s).

(** updated_tdi.tcc:155-182 *)
Definition assemble (s : tdi) : tdi :=
  let k := tK s in let ld := 2 * mmax in
  let Cp := loop 0 k (fun j Cp => loop 0 j (fun i Cp => put Cp ld i j (Cplus (at_ (tW s) mmax i j) (at_ (tUMU s) mmax i j))) Cp) (tCp s) in
  let Cp := loop 0 k (fun j Cp =>
    let Cp := loop 0 k (fun i Cp => put Cp ld i (j + k) (at_ (tUMV s) mmax i j)) Cp in
    put Cp ld j (j + k) (Cminus (at_ Cp ld j (j + k)) (RtoC 1))) Cp in
  let Cp := loop 0 k (fun j Cp => loop 0 j (fun i Cp => put Cp ld (i + k) (j + k) (at_ (tVMV s) mmax i j)) Cp) Cp in
  Tdi (tM s) (tU s) (tQ s) (tW s) (tUMU s) (tUMV s) (tVMV s) Cp (tPfa s) (tRatio s) (tCfg s) (tFrom s) (tTo s) (tK s) (tNq s).
(** updated_tdi.tcc:185-215 *)
Definition require_q (all : bool) (s : tdi) : tdi :=
  let kcal := if all then tK s else tK s - 1 in
  if kcal <=? tNq s then s else
  let Q := loop (tNq s) kcal (fun c Q => skmv n (tM s) n (tU s) (c * n) Q (c * n)) (tQ s) in
  Tdi (tM s) (tU s) Q (tW s) (tUMU s) (tUMV s) (tVMV s) (tCp s) (tPfa s) (tRatio s) (tCfg s) (tFrom s) (tTo s) (tK s) kcal.
(** updated_tdi.tcc:219-237 *)
Definition require_umu (s : tdi) : tdi :=
  let V := loop 0 (tK s) (fun o V => loop 0 o (fun l V => put V mmax l o (Copp (dot n (tU s) (o * n) (tQ s) (l * n)))) V) (tUMU s) in
  Tdi (tM s) (tU s) (tQ s) (tW s) V (tUMV s) (tVMV s) (tCp s) (tPfa s) (tRatio s) (tCfg s) (tFrom s) (tTo s) (tK s) (tNq s).
(** the Pfaffian of the central matrix: updated_tdi.tcc:344-350 and 424-425; skpfa overwrites Cp *)
Definition central_pfaffian (s : tdi) : tdi :=
  let '(pfa, Cp) := skpfa (2 * tK s) (2 * mmax) (tCp s) in
  Tdi (tM s) (tU s) (tQ s) (tW s) (tUMU s) (tUMV s) (tVMV s) Cp (tPfa s) (alternate (tK s) pfa) (tCfg s) (tFrom s) (tTo s) (tK s) (tNq s).
Definition with_ratio (z : C) (s : tdi) : tdi :=
  Tdi (tM s) (tU s) (tQ s) (tW s) (tUMU s) (tUMV s) (tVMV s) (tCp s) (tPfa s) z (tCfg s) (tFrom s) (tTo s) (tK s) (tNq s).

(** updated_tdi.tcc:240-258 config_to_site on a vector filled with -1 *)
Definition config_to_site (cfg : Z -> Z) : Z -> Z := loop 0 n (fun i site => upd site (cfg i) i) (fun _ => -1).

(** updated_tdi.tcc:293-306: the rows of earlier hops l; P(i,o) is at i + (mmax + o) * n of Q.  The three arrays are U, Q, UMV;
    hop number k is of electron msj, and v is the new entry U(msj,l). *)
Definition touch (k msj : Z) (l : Z) (v : C) (a : (Z -> C) * (Z -> C) * (Z -> C)) : (Z -> C) * (Z -> C) * (Z -> C) :=
  let '(U, Q, UMV) := a in
  let old := at_ U n msj l in
  let U := put U n msj l v in
  let d := Cminus (at_ U n msj l) old in
  let Q := loop 0 n (fun i Q => upd Q (l * n + i) (Cplus (Q (l * n + i)) (Cmult d (at_ Q n i (mmax + k))))) Q in
  let UMV := loop 0 k (fun o UMV => put UMV mmax l o (Cplus (at_ UMV mmax l o) (Cmult d (at_ Q n msj (mmax + o))))) UMV in
  (U, Q, UMV).

(** updated_tdi.tcc:262-357 push_update; a column k >= mmax does not exist *)
Definition push_update (osi msj : Z) (compute : bool) (s : tdi) : option tdi :=
  let k := tK s in
  if mmax <=? k then None else
  let osj := tCfg s msj in
  let fr := upd (tFrom s) k msj in
  let to := upd (tTo s) k osi in
  let site := config_to_site (tCfg s) in
  let U := loop 0 norbs (fun i U => if 0 <=? site i then put U n (site i) k (Cminus (at_ X norbs i osi) (at_ X norbs i osj)) else U) (tU s) in
  let Q := skslc n msj ((mmax + k) * n) (tM s) n (tQ s) in
  let '(U, Q, UMV) := loop 0 k (fun l a => let '(U, Q, UMV) := a in
      let U := put U n (fr l) k (Cminus (xij (to l) osi) (xij (tCfg s (fr l)) osj)) in
      touch k msj l (Cminus (xij osi (to l)) (xij osj (tCfg s (fr l)))) (U, Q, UMV)) (U, Q, tUMV s) in
  let W := loop 0 k (fun l W => put W mmax l k (Cplus (Copp (xij (to l) osi)) (xij (tCfg s (fr l)) osj))) (tW s) in
  let UMV := loop 0 k (fun l UMV =>
      let UMV := put UMV mmax l k (dot n U (l * n) Q ((mmax + k) * n)) in
      put UMV mmax k l (dot n U (k * n) Q ((mmax + l) * n))) UMV in
  let UMV := put UMV mmax k k (dot n U (k * n) Q ((mmax + k) * n)) in
  let VMV := loop 0 k (fun l VMV => put VMV mmax l k (Copp (at_ Q n msj (mmax + l)))) (tVMV s) in
  let s := Tdi (tM s) U Q W (tUMU s) UMV VMV (tCp s) (tPfa s) (tRatio s) (tCfg s) fr to (k + 1) (tNq s) in
  Some (if compute then
    let s := assemble (require_umu (require_q false s)) in
    if k + 1 =? 1 then with_ratio (Cplus (Copp (at_ (tUMV s) mmax 0 0)) (RtoC 1)) s
    else central_pfaffian s
  else with_ratio (RtoC 0) s).

(** updated_tdi.tcc:381-431 pop_update; the column of M written out there is that of skslc *)
Definition pop_update (compute : bool) (s : tdi) : option tdi :=
  if tK s <=? 0 then None else
  let k := tK s - 1 in
  let msj := tFrom s k in
  let osj := tCfg s msj in
  let '(U, Q, UMV) := loop 0 k (fun l a => let '(U, Q, UMV) := a in
      let old := at_ U n msj l in
      let U := put U n msj l (Cminus (xij osj (tTo s l)) (xij osj (tCfg s (tFrom s l)))) in
      let d := Cminus (at_ U n msj l) old in
      let Q := loop 0 msj (fun i Q => put Q n i l (Cplus (at_ Q n i l) (Cmult (at_ (tM s) n i msj) d))) Q in
      let Q := loop (msj + 1) n (fun i Q => put Q n i l (Cminus (at_ Q n i l) (Cmult (at_ (tM s) n msj i) d))) Q in
      let UMV := loop 0 k (fun o UMV => put UMV mmax l o (Cplus (at_ UMV mmax l o) (Cmult d (at_ Q n msj (mmax + o))))) UMV in
      (U, Q, UMV)) (tU s, tQ s, tUMV s) in
  let s := Tdi (tM s) U Q (tW s) (tUMU s) UMV (tVMV s) (tCp s) (tPfa s) (tRatio s) (tCfg s) (tFrom s) (tTo s) k (if k <? tNq s then k else tNq s) in
  Some (if k =? 0 then with_ratio (RtoC 1) s
  else if compute then central_pfaffian (assemble (require_umu (require_q false s)))
  else with_ratio (RtoC 0) s).

(** updated_tdi.tcc:477-531 inv_update; U receives the product, columns k.. of Q the moved P *)
Definition inv_update (k : Z) (Cm : Z -> C) (s : tdi) : tdi :=
  if k =? 1 then
    let M := gemmt n 1 (at_ Cm (2 * mmax) 0 1) (tQ s) 0 n (tQ s) (mmax * n) n (tM s) n in
    let M := gemmt n 1 (Copp (at_ Cm (2 * mmax) 0 1)) (tQ s) (mmax * n) n (tQ s) 0 n M n in
    Tdi M (tU s) (tQ s) (tW s) (tUMU s) (tUMV s) (tVMV s) Cm (tPfa s) (tRatio s) (tCfg s) (tFrom s) (tTo s) (tK s) (tNq s)
  else
    let Q := if k =? mmax then tQ s else loop 0 k (fun j Q => loop 0 n (fun i Q => put Q n i (k + j) (at_ Q n i (mmax + j))) Q) (tQ s) in
    let U := gemm n (2 * k) (2 * k) Q n Cm (2 * mmax) (tU s) n in
    let M := gemmt n (2 * k) (RtoC 1) U 0 n Q 0 n (tM s) n in
    Tdi M U Q (tW s) (tUMU s) (tUMV s) (tVMV s) Cm (tPfa s) (tRatio s) (tCfg s) (tFrom s) (tTo s) (tK s) (tNq s).

(** updated_tdi.tcc:433-475 merge_updates.  The cell Cp(1,0), which line 454 also inverts, is never read and left out. *)
Definition merge_updates (s : tdi) : option tdi :=
  let k := tK s in
  if k =? 0 then Some s else
  let s := require_q true s in
  bind (if k =? 1 then
      let s := if Ceq_dec (tRatio s) (RtoC 0) then let s := assemble (require_umu s) in with_ratio (Copp (at_ (tCp s) (2 * mmax) 0 1)) s else s in
      bind (quotient (RtoC (-1)) (at_ (tCp s) (2 * mmax) 0 1)) (fun v => Some (put (tCp s) (2 * mmax) 0 1 v, s))
    else
      let s := assemble (require_umu s) in
      let '(R, cPov) := sktrf (2 * k) (2 * mmax) (tCp s) in
      let s := if Ceq_dec (tRatio s) (RtoC 0) then with_ratio (alternate k (utu2pfa (2 * k) R (2 * mmax) cPov)) s else s in
      bind (utu2inv trtri npanel (2 * k) R (2 * mmax) cPov junk (2 * mmax)) (fun Cm => Some (Cm, s))) (fun cs => let '(Cm, s) := cs in
  let s := inv_update k Cm s in
  let cfg := loop 0 k (fun j cfg => upd cfg (tFrom s j) (tTo s j)) (tCfg s) in
  Some (Tdi (tM s) (tU s) (tQ s) (tW s) (tUMU s) (tUMV s) (tVMV s) (tCp s) (Cmult (tPfa s) (tRatio s)) (RtoC 1) cfg (tFrom s) (tTo s) 0 0)).

(** updated_tdi.tcc:362-375 push_update_safe *)
Definition pending (s : tdi) (m : Z) : bool := existsb (fun l => tFrom s l =? m) (zrange 0 (tK s)).
Definition push_update_safe (osi msj : Z) (compute : bool) (s : tdi) : option tdi :=
  bind (if mmax <=? tK s then merge_updates s else Some s) (fun s =>
  bind (if pending s msj then merge_updates s else Some s) (fun s => push_update osi msj compute s)).
(** pf_interface.cc:120-136 updated_tdi_v_push_pair for one projection; from_i.size() > mmax - 2 is a comparison of unsigned 64-bit numbers *)
Definition push_pair (osi msj osk msl : Z) (compute : bool) (s : tdi) : option tdi :=
  bind (if (mmax - 2) mod 2 ^ 64 <? tK s then merge_updates s else if pending s msj || pending s msl then merge_updates s else Some s) (fun s =>
  bind (push_update osi msj false s) (fun s => push_update osk msl compute s)).

(** the calls of one Monte Carlo trial, vmcmake.c:173-218 and 256-302 (likewise vmcmake_fsz.c, vmcmake_real.c, vmcmake_fsz_real.c):
    push with the Pfaffian, read it, and pop what was pushed if the move is rejected.  pf_interface.cc:83-85 returns the negative. *)
Inductive trial := Hop (osi msj : Z) | Pair (osi msj osk msl : Z).
Definition try (t : trial) (accept : bool) (s : tdi) : option (C * tdi) :=
  bind (match t with Hop osi msj => push_update_safe osi msj true s | Pair osi msj osk msl => push_pair osi msj osk msl true s end) (fun s =>
  let pfm := Copp (get_pfa s) in
  bind (if accept then Some s else match t with Hop _ _ => pop_update false s | Pair _ _ _ _ => bind (pop_update false s) (pop_update false) end) (fun s =>
  Some (pfm, s))).
Fixpoint trials (l : list (trial * bool)) (s : tdi) : option (list C * tdi) :=
  match l with
  | [] => Some ([], s)
  | (t, accept) :: l => bind (try t accept s) (fun r => bind (trials l (snd r)) (fun r' => Some (fst r :: fst r', snd r')))
  end.
End Updater.

(** vmcmake.c:88-96: the block size from the environment (0 when it is not set or not a number) *)
Definition block_size (env : Z) (NExUpdatePath : Z) : Z :=
  if (env <? 1) || (100 <? env) then if NExUpdatePath =? 0 then 4 else 20 else env.
(** vmcmake.c:98-100: the spins of the list of electrons *)
Definition universal_spins (Ne m : Z) : Z := if m <? Ne then 0 else 1.
(** what the sampler asks of the updaters for its two kinds of moves: vmcmake.c:174 electron mi of spin s to site rj, and vmcmake.c:257-260
    its exchange with electron mj of the other spin, from ri and rj *)
Inductive smove := SHop (mi s rj : Z) | SExchange (mi s ri rj mj : Z).
Definition trial_of (Nsite Ne : Z) (mv : smove) : trial :=
  match mv with
  | SHop mi s rj => Hop (rj + s * Nsite) (mi + s * Ne)
  | SExchange mi s ri rj mj => let t := 1 - s in Pair (rj + s * Nsite) (mi + s * Ne) (ri + t * Nsite) (mj + t * Ne)
  end.
(** vmcmake.c:101-107: elements of the configuration (pf_interface.cc:49-50), one orbital matrix per projection *)
Definition elements (Nsite : Z) (eleIdx eleSpn : Z -> Z) (m : Z) : Z := eleIdx m + eleSpn m * Nsite.
Definition orbital_matrix (Nsite : Z) (Sl : Z -> C) (qp : Z) : Z -> C := fun p => Sl (qp * (2 * Nsite * (2 * Nsite)) + p).
(** qp.c:86-104 CalculateLogIP_fcmp, the argument of the logarithm: the process with [qpStart, qpEnd) adds weights from qpStart on to
    Pfaffians from 0 on, and the sums of the processes are added *)
Definition group_ip (weight : Z -> C) (parts : list (Z * Z)) (pfM : Z -> C) : C :=
  csum parts (fun p => csum (zrange 0 (snd p - fst p)) (fun q => Cmult (weight (q + fst p)) (pfM q))).
