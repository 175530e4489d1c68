(** Every place of src/mVMC that uses a scratch pool: reserved size and the blocks taken. *)
From Coq Require Import ZArith List Bool String.
From Verif Require Import Mem.Model.
Import ListNotations.
Local Open Scope Z_scope.

(** Sizes not in [sizes]: LapackLWork (query result of the LAPACK routine), Nneuron, NRBM_PhysLayerIdx,
    Nrange, message lengths n, local ScaLAPACK block sizes. *)
Record extra := Extra {
  LapackLWork : Z; Nneuron : Z; xNRBM_PhysLayerIdx : Z;
  avg_n : Z; sSize : Z; gSize : Z; zSize : Z; xSize : Z; wSize : Z; mlocr : Z; mlocc : Z; vlocr : Z;
  cg_use_imag : Z; cg_n : Z; cg_ns : Z
}.
Record caller := Caller { place : string; reserved : Z; taken : list Z }.

Section Callers.
Variables (S : sizes) (X : extra).
Let NQ := NQPFull S. Let n := Nsize S. Let n2 := Nsite2 S. Let np := NProj S. Let L := LapackLWork X.
Let rbm := xNRBM_PhysLayerIdx X + Nneuron X.
Let flag := FlagRBM S.
(** "if (FlagRBM) ... = GetWorkSpace...(NRBM_PhysLayerIdx+Nneuron)" *)
Let opt_rbm : list Z := if flag =? 0 then [] else [rbm].
Let nTrans := NMPTrans S * NQPOptTrans S.
Let bf := 16 * Nsite S * Nrange S.

Definition callers_avg : list caller :=
  [Caller "average.c:94 Complex" (avg_n X) [avg_n X]; Caller "average.c:131 Double" (avg_n X) [avg_n X];
   Caller "average.c:176 Double" (avg_n X) [avg_n X]; Caller "average.c:256 Double" (avg_n X) [avg_n X];
   Caller "average.c:285 Complex" (avg_n X) [avg_n X]; Caller "average.c:314 Double" (avg_n X) [avg_n X]].
Definition callers_grn : list caller :=
  [Caller "calgrn.c:42 ThreadInt" (n + n2 + np) [n; n2; np];
   Caller "calgrn.c:43 ThreadComplex" (NQ + 2 * n + flag * xNRBM_PhysLayerIdx X + Nneuron X) [NQ + 2 * n; rbm];
   Caller "calgrn.c:133 ThreadInt" (n + 2 * n2 + np + bf) [n; n2; n2; np; bf];
   Caller "calgrn.c:134 ThreadComplex" (NQ + 2 * n + NQ * n2 * n2) [NQ + 2 * n; NQ * n2 * n2];
   Caller "calgrn_fsz.c:42 ThreadInt" (n + n + n2 + np) [n; n; n2; np];
   Caller "calgrn_fsz.c:43 ThreadComplex" (NQ + 2 * n) [NQ + 2 * n]].
Definition callers_ham : list caller :=
  [Caller "calham.c:71 ThreadInt" (n + n2 + np) [n; n2; np];
   Caller "calham.c:72 ThreadComplex" (NQ + 2 * n + flag * rbm) (opt_rbm ++ [NQ + 2 * n]);
   Caller "calham.c:256 ThreadInt" (n + n2 + np) [n; n2; np];
   Caller "calham.c:257 ThreadComplex" NQ [NQ];
   Caller "calham.c:311 ThreadInt" (n + n2 + np) [n; n2; np];
   Caller "calham.c:312 ThreadComplex" (NQ + 2 * n) [NQ + 2 * n];
   Caller "calham.c:392 ThreadInt" (n + 2 * n2 + np + bf) [n; n2; n2; np; bf];
   Caller "calham.c:393 ThreadComplex" (NQ + 2 * n + NQ * n2 * n2) [NQ + 2 * n; NQ * n2 * n2];
   Caller "calham_fsz.c:60 ThreadInt" (n + n + n2 + np) [n; n; n2; np];
   Caller "calham_fsz.c:61 ThreadComplex" (NQ + 2 * n) [NQ + 2 * n];
   Caller "calham_fsz.c:257 ThreadInt" (n + n + n2 + np) [n; n; n2; np];
   Caller "calham_fsz.c:258 ThreadComplex" NQ [NQ];
   Caller "calham_fsz.c:312 ThreadInt" (n + n + n2 + np) [n; n; n2; np];
   Caller "calham_fsz.c:313 ThreadComplex" (NQ + 2 * n) [NQ + 2 * n];
   Caller "calham_fsz_real.c:43 ThreadInt" (n + n + n2 + np) [n; n; n2; np];
   Caller "calham_fsz_real.c:44 ThreadDouble" (NQ + 2 * n) [NQ + 2 * n];
   Caller "calham_real.c:54 ThreadInt" (n + n2 + np) [n; n2; np];
   Caller "calham_real.c:55 ThreadDouble" (NQ + 2 * n) [NQ + 2 * n];
   Caller "calham_real.c:225 ThreadInt" (n + 2 * n2 + np + bf) [n; n2; n2; np; bf];
   Caller "calham_real.c:226 ThreadDouble" (NQ + 2 * n + NQ * n2 * n2) [NQ + 2 * n; NQ * n2 * n2]].
Definition callers_lanczos : list caller :=
  [Caller "lslocgrn.c:249 Int" np [np];
   Caller "lslocgrn.c:250 Complex" (NQ * (n * n + 1) + flag * rbm) ([NQ * n * n; NQ] ++ opt_rbm);
   Caller "lslocgrn.c:324 Int" np [np];
   Caller "lslocgrn.c:325 Complex" (NQ + flag * rbm) ([NQ] ++ opt_rbm);
   Caller "lslocgrn.c:326 ThreadInt" (n + n2 + np + 6) [n; n2; np; 3; 3];
   Caller "lslocgrn.c:327 ThreadComplex" (NQ + 3 * n + flag * rbm) ([NQ + 3 * n] ++ opt_rbm);
   Caller "lslocgrn.c:509 Complex" (NQ + 2 * n) [NQ; 2 * n];
   Caller "lslocgrn.c:564 Int" np [np];
   Caller "lslocgrn.c:565 Complex" (NQ * (n * n + 1) + flag * rbm) ([NQ * n * n; NQ] ++ opt_rbm);
   Caller "lslocgrn.c:661 Int" np [np];
   Caller "lslocgrn.c:662 Complex" (NQ + 2 * n + flag * rbm) ([NQ + 2 * n] ++ opt_rbm);
   Caller "lslocgrn.c:663 ThreadInt" (n + n2 + np + 8) [n; n2; np; 4; 4];
   Caller "lslocgrn_real.c:192 Int" np [np];
   Caller "lslocgrn_real.c:193 Double" (NQ * (n * n + 1)) [NQ * n * n; NQ];
   Caller "lslocgrn_real.c:261 Int" np [np];
   Caller "lslocgrn_real.c:262 Double" NQ [NQ];
   Caller "lslocgrn_real.c:263 ThreadInt" (n + n2 + np + 6) [n; n2; np; 3; 3];
   Caller "lslocgrn_real.c:264 ThreadDouble" (NQ + 3 * n) [NQ + 3 * n];
   Caller "lslocgrn_real.c:497 Double" (NQ + 2 * n) [NQ; 2 * n];
   Caller "lslocgrn_real.c:551 Int" np [np];
   Caller "lslocgrn_real.c:552 Double" (NQ * (n * n + 1)) [NQ * n * n; NQ];
   Caller "lslocgrn_real.c:633 Int" np [np];
   Caller "lslocgrn_real.c:634 Double" (NQ + 2 * n) [NQ + 2 * n];
   Caller "lslocgrn_real.c:635 ThreadInt" (n + n2 + np + 8) [n; n2; np; 4; 4]].
Definition callers_matrix : list caller :=
  flat_map (fun pl => [Caller (pl ++ " ThreadInt") n [n];
                       Caller (pl ++ " ThreadComplex") (n * n + L) [n * n; L];
                       Caller (pl ++ " ThreadDouble") L [L]])
           ["matrix.c:90"; "matrix.c:297"; "matrix.c:401"]%string
  ++ flat_map (fun pl => [Caller (pl ++ " ThreadInt") n [n];
                          Caller (pl ++ " ThreadDouble") (n * n + L) [n * n; L]])
           ["matrix.c:194"; "matrix.c:527"; "matrix.c:627"]%string.
Definition callers_update : list caller :=
  map (fun pl => Caller pl (2 * n) [n; n])
      ["pfupdate.c:125"; "pfupdate_fsz.c:120"; "pfupdate_fsz_real.c:110"; "pfupdate_real.c:129";
       "pfupdate_two_fcmp.c:87"; "pfupdate_two_fsz.c:92"; "pfupdate_two_fsz_real.c:78"; "pfupdate_two_real.c:89"]%string
  ++ map (fun pl => Caller pl (4 * n) [n; n; n; n])
      ["pfupdate_two_fcmp.c:196"; "pfupdate_two_fsz.c:201"; "pfupdate_two_fsz_real.c:187"; "pfupdate_two_real.c:196"]%string.
Definition callers_slater : list caller :=
  [Caller "qp.c:44 Double" (2 * NSPGaussLeg S) [NSPGaussLeg S; NSPGaussLeg S];
   Caller "slater.c:124 Int" (2 * nTrans * n * n) [nTrans * n * n; nTrans * n * n];
   Caller "slater.c:125 Complex" (NQ * NSlater S) [NQ * NSlater S];
   Caller "slater.c:293 Int" (2 * nTrans * n * n) [nTrans * n * n];
   Caller "slater.c:294 Complex" (NQ * NSlater S) [NQ * NSlater S];
   Caller "slater.c:559 Int" (2 * nTrans * n * n) [nTrans * n * n];
   Caller "slater.c:561 Complex" (16 * NQ * n * n) [16 * NQ * n * n];
   Caller "slater_fsz.c:143 Int" (2 * nTrans * n * n) [nTrans * n * n; nTrans * n * n];
   Caller "slater_fsz.c:144 Complex" (NQ * NSlater S) [NQ * NSlater S]].
Definition callers_sr : list caller :=
  [Caller "stcopt_cg_impl.c:172 Double" (veccg_size (cg_use_imag X) (cg_n X) (cg_ns X))
          [veccg_size (cg_use_imag X) (cg_n X) (cg_ns X)];
   Caller "stcopt_pdposv.c:113 Double" (sSize X + gSize X + wSize X) [sSize X; gSize X; wSize X];
   Caller "stcopt_pdposv.c:119 Int" (2 * mlocr X + mlocc X) [mlocr X; mlocr X; mlocc X];
   Caller "stcopt_pdposv.c:421 Double" (sSize X + zSize X + gSize X + xSize X + wSize X)
          [sSize X; zSize X; gSize X; xSize X; wSize X];
   Caller "stcopt_pdposv.c:430 Int" (vlocr X + 2 * mlocr X + mlocc X) [vlocr X; mlocr X; mlocr X; mlocc X]].

Definition callers : list caller :=
  callers_avg ++ callers_grn ++ callers_ham ++ callers_lanczos ++ callers_matrix ++ callers_update
  ++ callers_slater ++ callers_sr.

(** The two places that take more than they reserve (Lanczos with two-body Green functions). *)
Definition calHCACA2_thread_complex : caller :=
  Caller "lslocgrn.c:664 ThreadComplex" (NQ + 3 * n + flag * rbm) ([NQ + 4 * n] ++ opt_rbm).
Definition calHCACA2_thread_double : caller :=
  Caller "lslocgrn_real.c:636 ThreadDouble" (NQ + 3 * n) [NQ + 4 * n].
(** locgrn.c:342 calculateNewPfMN_child takes LapackLWork doubles of the thread pool at each call,
    without reservation and without release. *)
Definition pfMN_child_calls (k : nat) : list op := repeat (Get L) k.

End Callers.
