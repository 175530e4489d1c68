(** Memory layout: definition arrays, parameter vector, scratch allocator. *)
From Coq Require Import ZArith List Bool String.
From Verif Require Import Base.ZLoop.
Import ListNotations.
Local Open Scope Z_scope.

(** * Sizes (src/mVMC/include/global.h), set in readdef.c:680-780 ReadDefFileNInt *)
Record sizes := Sizes {
  Nsite : Z; Ne : Z;
  NTransfer : Z; NCoulombIntra : Z; NCoulombInter : Z; NHundCoupling : Z; NPairHopping : Z;
  NExchangeCoupling : Z;
  NGutzwillerIdx : Z; NJastrowIdx : Z; NDoublonHolon2siteIdx : Z; NDoublonHolon4siteIdx : Z;
  FlagRBM : Z; NneuronCharge : Z; NneuronSpin : Z; NneuronGeneral : Z;
  NChargeRBM_PhysLayerIdx : Z; NSpinRBM_PhysLayerIdx : Z; NGeneralRBM_PhysLayerIdx : Z;
  NChargeRBM_HiddenLayerIdx : Z; NSpinRBM_HiddenLayerIdx : Z; NGeneralRBM_HiddenLayerIdx : Z;
  NChargeRBM_PhysHiddenIdx : Z; NSpinRBM_PhysHiddenIdx : Z; NGeneralRBM_PhysHiddenIdx : Z;
  NBackFlowIdx : Z; Nrange : Z; NProjBF : Z;
  iFlgOrbitalGeneral : Z; iNOrbitalAntiParallel : Z; iNOrbitalParallel : Z; NOrbitalIdx : Z;
  NQPTrans : Z; NCisAjs : Z; NCisAjsCktAlt : Z; NCisAjsCktAltDC : Z; NInterAll : Z; NQPOptTrans : Z;
  FlagOptTrans : Z; NSPGaussLeg : Z; NMPTrans : Z
}.

Section WithSizes.
Variable S : sizes.

(** readdef.c:757-763 *)
Definition Nsize : Z := 2 * Ne S.
Definition Nsite2 : Z := 2 * Nsite S.
Definition NSlater : Z := NOrbitalIdx S.
Definition NProj : Z :=
  NGutzwillerIdx S + NJastrowIdx S + 2 * 3 * NDoublonHolon2siteIdx S + 2 * 5 * NDoublonHolon4siteIdx S.
Definition NOptTrans : Z := if 0 <? FlagOptTrans S then NQPOptTrans S else 0.
(** readdef.c:737-740; Nneuron (724) is modelled without the extra "Nneuron" of modpara *)
Definition NRBM_PhysLayerIdx : Z :=
  NChargeRBM_PhysLayerIdx S + NSpinRBM_PhysLayerIdx S + NGeneralRBM_PhysLayerIdx S.
Definition NRBM_HiddenLayerIdx : Z :=
  NChargeRBM_HiddenLayerIdx S + NSpinRBM_HiddenLayerIdx S + NGeneralRBM_HiddenLayerIdx S.
Definition NRBM_PhysHiddenIdx : Z :=
  NChargeRBM_PhysHiddenIdx S + NSpinRBM_PhysHiddenIdx S + NGeneralRBM_PhysHiddenIdx S.
Definition NRBM : Z := NRBM_HiddenLayerIdx + NRBM_PhysLayerIdx + NRBM_PhysHiddenIdx.
(** readdef.c:777-780 *)
Definition NPara : Z := NProj + NSlater + NOptTrans + NProjBF S + NRBM * FlagRBM S.
Definition NQPFix : Z := NSPGaussLeg S * NMPTrans S.
Definition NQPFull : Z := NQPFix * NQPOptTrans S.
Definition SROptSize : Z := NPara + 1.

(** readdef.c:782-832 *)
Definition NTotalDefInt : Z :=
  let n :=
  Nsite S + 4 * NTransfer S + NCoulombIntra S + 2 * NCoulombInter S + 2 * NHundCoupling S
  + 2 * NPairHopping S + 2 * NExchangeCoupling S + Nsite S + Nsite S * Nsite S
  + 2 * Nsite S * NDoublonHolon2siteIdx S + 4 * Nsite S * NDoublonHolon4siteIdx S
  + Nsite S * NQPTrans S + Nsite S * NQPTrans S + Nsite S * NQPTrans S
  + 4 * NCisAjs S + 2 * NCisAjsCktAlt S + 8 * NCisAjsCktAltDC S + 8 * NInterAll S
  + Nsite S * NQPOptTrans S + Nsite S * NQPOptTrans S
  + FlagRBM S * (NneuronCharge S + Nsite S + Nsite S * NneuronCharge S
               + NneuronSpin S + Nsite S + Nsite S * NneuronSpin S
               + NneuronGeneral S + Nsite2 + Nsite2 * NneuronGeneral S)
  + 2 * NPara in
  let n := if iFlgOrbitalGeneral S =? 0 then n + Nsite S * Nsite S + Nsite S * Nsite S
           else if iFlgOrbitalGeneral S =? 1
                then n + (2 * Nsite S) * (2 * Nsite S) + (2 * Nsite S) * (2 * Nsite S) else n in
  if 0 <? NBackFlowIdx S then n + Nsite S * Nsite S * Nsite S * Nsite S else n.

(** * Carving one allocation into slices *)
(** a slice: table name, row, offset from the start of the allocation, length *)
Record slice := Slice { tab : string; row : Z; off : Z; len : Z }.
Definition carve_state : Type := Z * list slice.

(** "X = pInt; pInt += n;" *)
Definition one (name : string) (n : Z) (st : carve_state) : carve_state :=
  (fst st + n, snd st ++ [Slice name 0 (fst st) n]).
(** "for(i=0;i<n;i++) { X[i] = pInt; pInt += k; }" *)
Definition rows (name : string) (n k : Z) (st : carve_state) : carve_state :=
  loop 0 n (fun i st => (fst st + k, snd st ++ [Slice name i (fst st) k])) st.

(** setmemory.c:37-227 SetMemoryDef, integer part: every pointer set, in program order.  The last
    pointer (OptFlag) is used with 2*NPara entries by readdef.c. *)
Definition set_memory_def : carve_state :=
  let st := one "LocSpn" (Nsite S) (0, []) in
  let st := rows "Transfer" (NTransfer S) 4 st in
  let st := one "CoulombIntra" (NCoulombIntra S) st in
  let st := rows "CoulombInter" (NCoulombInter S) 2 st in
  let st := rows "HundCoupling" (NHundCoupling S) 2 st in
  let st := rows "PairHopping" (NPairHopping S) 2 st in
  let st := rows "ExchangeCoupling" (NExchangeCoupling S) 2 st in
  let st := one "GutzwillerIdx" (Nsite S) st in
  let st := rows "JastrowIdx" (Nsite S) (Nsite S) st in
  let st := rows "DoublonHolon2siteIdx" (NDoublonHolon2siteIdx S) (2 * Nsite S) st in
  let st := rows "DoublonHolon4siteIdx" (NDoublonHolon4siteIdx S) (4 * Nsite S) st in
  let st := if FlagRBM S =? 0 then st else
    let st := one "ChargeRBM_PhysLayerIdx" (Nsite S) st in
    let st := one "SpinRBM_PhysLayerIdx" (Nsite S) st in
    let st := one "GeneralRBM_PhysLayerIdx" Nsite2 st in
    let st := one "ChargeRBM_HiddenLayerIdx" (NneuronCharge S) st in
    let st := one "SpinRBM_HiddenLayerIdx" (NneuronSpin S) st in
    let st := one "GeneralRBM_HiddenLayerIdx" (NneuronGeneral S) st in
    let st := rows "ChargeRBM_PhysHiddenIdx" (Nsite S) (NneuronCharge S) st in
    let st := rows "SpinRBM_PhysHiddenIdx" (Nsite S) (NneuronSpin S) st in
    rows "GeneralRBM_PhysHiddenIdx" Nsite2 (NneuronGeneral S) st in
  let st := if 0 <? NBackFlowIdx S then
    let st := rows "PosBF" (Nsite S) (Nrange S) st in
    let st := rows "RangeIdx" (Nsite S) (Nsite S) st in
    rows "BackFlowIdx" (Nsite S * Nsite S) (Nsite S * Nsite S) st else st in
  let NOrbit := if iFlgOrbitalGeneral S =? 0 then Nsite S else 2 * Nsite S in
  let st := rows "OrbitalIdx" NOrbit NOrbit st in
  let st := rows "OrbitalSgn" NOrbit NOrbit st in
  let st := rows "QPTrans" (NQPTrans S) (Nsite S) st in
  let st := rows "QPTransInv" (NQPTrans S) (Nsite S) st in
  let st := rows "QPTransSgn" (NQPTrans S) (Nsite S) st in
  let st := rows "CisAjsIdx" (NCisAjs S) 4 st in
  let st := rows "CisAjsCktAltIdx" (NCisAjsCktAlt S) 2 st in
  let st := rows "CisAjsCktAltDCIdx" (NCisAjsCktAltDC S) 8 st in
  let st := rows "InterAll" (NInterAll S) 8 st in
  let st := rows "QPOptTrans" (NQPOptTrans S) (Nsite S) st in
  let st := rows "QPOptTransSgn" (NQPOptTrans S) (Nsite S) st in
  one "OptFlag" (2 * NPara) st.

(** readdef.c:834-842 and setmemory.c:232-251, double part *)
Definition NTotalDefDouble : Z :=
  NCoulombIntra S + NCoulombInter S + NHundCoupling S + NPairHopping S + NExchangeCoupling S
  + NQPOptTrans S.
Definition set_memory_def_double : carve_state :=
  let st := one "ParaCoulombIntra" (NCoulombIntra S) (0, []) in
  let st := one "ParaCoulombInter" (NCoulombInter S) st in
  let st := one "ParaHundCoupling" (NHundCoupling S) st in
  let st := one "ParaPairHopping" (NPairHopping S) st in
  let st := one "ParaExchangeCoupling" (NExchangeCoupling S) st in
  one "ParaQPOptTrans" (NQPOptTrans S) st.

(** * Sections of the parameter vector *)
(** setmemory.c:296-302: offsets of the pointers Proj, RBM, ProjBF, Slater, OptTrans into Para *)
Definition off_Proj : Z := 0.
Definition off_RBM : Z := NProj.
Definition off_ProjBF : Z := NProj + FlagRBM S * NRBM.
Definition off_Slater : Z := NProj + FlagRBM S * NRBM + NProjBF S.
Definition off_OptTrans : Z := NProj + FlagRBM S * NRBM + NProjBF S + NSlater.
Definition para_pointers : list slice :=
  [Slice "Proj" 0 off_Proj NProj; Slice "RBM" 0 off_RBM (FlagRBM S * NRBM);
   Slice "ProjBF" 0 off_ProjBF (NProjBF S); Slice "Slater" 0 off_Slater NSlater;
   Slice "OptTrans" 0 off_OptTrans NOptTrans].

(** readdef.c:906-1070: for every keyword the first index (fidx) of its block of OptFlag and the
    number of parameters of the block.  DH2/DH4 blocks have 6/10 flags per shape (GetInfoDH2/DH4);
    OrbitalParallel has two per index (up-up and down-down). *)
Definition orbital_flag_sections : list slice :=
  if iNOrbitalParallel S =? 0
  then [Slice "Orbital" 0 (NProj + FlagRBM S * NRBM) (NOrbitalIdx S)]
  else [Slice "OrbitalAntiParallel" 0 (NProj + FlagRBM S * NRBM) (iNOrbitalAntiParallel S);
        Slice "OrbitalParallel" 0 (NProj + FlagRBM S * NRBM + iNOrbitalAntiParallel S)
              (2 * iNOrbitalParallel S)].
Definition flag_sections : list slice :=
  [Slice "Gutzwiller" 0 0 (NGutzwillerIdx S);
   Slice "Jastrow" 0 (NGutzwillerIdx S) (NJastrowIdx S);
   Slice "DH2" 0 (NGutzwillerIdx S + NJastrowIdx S) (2 * 3 * NDoublonHolon2siteIdx S);
   Slice "DH4" 0 (NGutzwillerIdx S + NJastrowIdx S + 2 * 3 * NDoublonHolon2siteIdx S)
         (2 * 5 * NDoublonHolon4siteIdx S);
   Slice "ChargeRBM_PhysLayer" 0 NProj (NChargeRBM_PhysLayerIdx S);
   Slice "SpinRBM_PhysLayer" 0 (NProj + NChargeRBM_PhysLayerIdx S) (NSpinRBM_PhysLayerIdx S);
   Slice "GeneralRBM_PhysLayer" 0 (NProj + NChargeRBM_PhysLayerIdx S + NSpinRBM_PhysLayerIdx S)
         (NGeneralRBM_PhysLayerIdx S);
   Slice "ChargeRBM_HiddenLayer" 0 (NProj + NRBM_PhysLayerIdx) (NChargeRBM_HiddenLayerIdx S);
   Slice "SpinRBM_HiddenLayer" 0 (NProj + NRBM_PhysLayerIdx + NChargeRBM_HiddenLayerIdx S)
         (NSpinRBM_HiddenLayerIdx S);
   Slice "GeneralRBM_HiddenLayer" 0
         (NProj + NRBM_PhysLayerIdx + NChargeRBM_HiddenLayerIdx S + NSpinRBM_HiddenLayerIdx S)
         (NGeneralRBM_HiddenLayerIdx S);
   Slice "ChargeRBM_PhysHidden" 0 (NProj + NRBM_PhysLayerIdx + NRBM_HiddenLayerIdx)
         (NChargeRBM_PhysHiddenIdx S);
   Slice "SpinRBM_PhysHidden" 0
         (NProj + NRBM_PhysLayerIdx + NRBM_HiddenLayerIdx + NChargeRBM_PhysHiddenIdx S)
         (NSpinRBM_PhysHiddenIdx S);
   Slice "GeneralRBM_PhysHidden" 0
         (NProj + NRBM_PhysLayerIdx + NRBM_HiddenLayerIdx + NChargeRBM_PhysHiddenIdx S
          + NSpinRBM_PhysHiddenIdx S)
         (NGeneralRBM_PhysHiddenIdx S)]
  ++ orbital_flag_sections
  ++ [Slice "OptTrans" 0 (NProj + NOrbitalIdx S) NOptTrans].

(** readdef.c:1208-1455 ReadInputParameters: Proj/RBM/Slater/OptTrans + count *)
Definition orbital_input_sections : list slice :=
  if iNOrbitalParallel S =? 0
  then [Slice "Orbital" 0 off_Slater (NOrbitalIdx S)]
  else [Slice "OrbitalAntiParallel" 0 off_Slater (iNOrbitalAntiParallel S);
        Slice "OrbitalParallel" 0 (off_Slater + iNOrbitalAntiParallel S) (2 * iNOrbitalParallel S)].
Definition input_sections : list slice :=
  [Slice "Gutzwiller" 0 (off_Proj + 0) (NGutzwillerIdx S);
   Slice "Jastrow" 0 (off_Proj + NGutzwillerIdx S) (NJastrowIdx S);
   Slice "DH2" 0 (off_Proj + (NGutzwillerIdx S + NJastrowIdx S)) (2 * 3 * NDoublonHolon2siteIdx S);
   Slice "DH4" 0 (off_Proj + (NGutzwillerIdx S + NJastrowIdx S + 2 * 3 * NDoublonHolon2siteIdx S))
         (2 * 5 * NDoublonHolon4siteIdx S);
   Slice "ChargeRBM_PhysLayer" 0 (off_RBM + 0) (NChargeRBM_PhysLayerIdx S);
   Slice "SpinRBM_PhysLayer" 0 (off_RBM + NChargeRBM_PhysLayerIdx S) (NSpinRBM_PhysLayerIdx S);
   Slice "GeneralRBM_PhysLayer" 0 (off_RBM + (NChargeRBM_PhysLayerIdx S + NSpinRBM_PhysLayerIdx S))
         (NGeneralRBM_PhysLayerIdx S);
   Slice "ChargeRBM_HiddenLayer" 0 (off_RBM + NRBM_PhysLayerIdx) (NChargeRBM_HiddenLayerIdx S);
   Slice "SpinRBM_HiddenLayer" 0 (off_RBM + (NRBM_PhysLayerIdx + NChargeRBM_HiddenLayerIdx S))
         (NSpinRBM_HiddenLayerIdx S);
   Slice "GeneralRBM_HiddenLayer" 0
         (off_RBM + (NRBM_PhysLayerIdx + NChargeRBM_HiddenLayerIdx S + NSpinRBM_HiddenLayerIdx S))
         (NGeneralRBM_HiddenLayerIdx S);
   Slice "ChargeRBM_PhysHidden" 0 (off_RBM + (NRBM_PhysLayerIdx + NRBM_HiddenLayerIdx))
         (NChargeRBM_PhysHiddenIdx S);
   Slice "SpinRBM_PhysHidden" 0
         (off_RBM + (NRBM_PhysLayerIdx + NRBM_HiddenLayerIdx + NChargeRBM_PhysHiddenIdx S))
         (NSpinRBM_PhysHiddenIdx S);
   Slice "GeneralRBM_PhysHidden" 0
         (off_RBM + (NRBM_PhysLayerIdx + NRBM_HiddenLayerIdx + NChargeRBM_PhysHiddenIdx S
          + NSpinRBM_PhysHiddenIdx S))
         (NGeneralRBM_PhysHiddenIdx S)]
  ++ orbital_input_sections
  ++ [Slice "OptTrans" 0 off_OptTrans NOptTrans].

(** avevar.c:118-254 OutputOptData: "if(N != 0) { Child_OutputOptData(..., count_i, n); count_i += N; }";
    the written block is Para[count_i-2 ...]. *)
Definition emit (name : string) (n : Z) (st : carve_state) : carve_state :=
  if n =? 0 then st else (fst st + n, snd st ++ [Slice name 0 (fst st - 2) n]).
Definition output_sections : list slice :=
  let st := emit "Gutzwiller" (NGutzwillerIdx S) (2, []) in
  let st := emit "Jastrow" (NJastrowIdx S) st in
  let st := emit "DH2" (2 * 3 * NDoublonHolon2siteIdx S) st in
  let st := emit "DH4" (2 * 5 * NDoublonHolon4siteIdx S) st in
  let st := emit "ChargeRBM_PhysLayer" (NChargeRBM_PhysLayerIdx S) st in
  let st := emit "SpinRBM_PhysLayer" (NSpinRBM_PhysLayerIdx S) st in
  let st := emit "GeneralRBM_PhysLayer" (NGeneralRBM_PhysLayerIdx S) st in
  let st := emit "ChargeRBM_HiddenLayer" (NChargeRBM_HiddenLayerIdx S) st in
  let st := emit "SpinRBM_HiddenLayer" (NSpinRBM_HiddenLayerIdx S) st in
  let st := emit "GeneralRBM_HiddenLayer" (NGeneralRBM_HiddenLayerIdx S) st in
  let st := emit "ChargeRBM_PhysHidden" (NChargeRBM_PhysHiddenIdx S) st in
  let st := emit "SpinRBM_PhysHidden" (NSpinRBM_PhysHiddenIdx S) st in
  let st := emit "GeneralRBM_PhysHidden" (NGeneralRBM_PhysHiddenIdx S) st in
  let st := if NSlater =? 0 then st
            else if iFlgOrbitalGeneral S =? 0 then emit "Orbital" NSlater st
            else if iNOrbitalParallel S =? 0 then emit "Orbital" NSlater st
            else emit "OrbitalParallel" (2 * iNOrbitalParallel S)
                   (emit "OrbitalAntiParallel" (iNOrbitalAntiParallel S) st) in
  snd (emit "OptTrans" NOptTrans st).

(** parameter.c:106-129 ReadInitParameter: destination of the successive triples of the file *)
Definition init_file_sections : list slice :=
  [Slice "Proj" 0 off_Proj NProj]
  ++ (if FlagRBM S =? 0 then [] else [Slice "RBM" 0 off_RBM NRBM])
  ++ [Slice "Slater" 0 off_Slater NSlater; Slice "OptTrans" 0 off_OptTrans NOptTrans].

End WithSizes.

(** * Other blocks carved in setmemory.c *)
(** setmemory.c:334-347 Tmp*/Burn*: one allocation of 2*Ne+2*Nsite+2*Nsite+NProj+2*Ne ints *)
Definition walker_size (S : sizes) : Z := 2 * Ne S + 2 * Nsite S + 2 * Nsite S + NProj S + 2 * Ne S.
Definition walker_layout (S : sizes) : list slice :=
  let idx := 0 in
  let cfg := idx + 2 * Ne S in
  let num := cfg + 2 * Nsite S in
  let cnt := num + 2 * Nsite S in
  let spn := cnt + NProj S in
  [Slice "EleIdx" 0 idx (2 * Ne S); Slice "EleCfg" 0 cfg (2 * Nsite S); Slice "EleNum" 0 num (2 * Nsite S);
   Slice "EleProjCnt" 0 cnt (NProj S); Slice "EleSpn" 0 spn (2 * Ne S)].
(** setmemory.c:383-389 quantum projection block: NQPFull+NQPFix+5*NSPGaussLeg complex numbers *)
Definition qp_size (S : sizes) : Z := NQPFull S + NQPFix S + 5 * NSPGaussLeg S.
Definition qp_layout (S : sizes) : list slice :=
  let full := 0 in let fix_ := full + NQPFull S in let cos := full + NQPFull S + NQPFix S in
  [Slice "QPFullWeight" 0 full (NQPFull S); Slice "QPFixWeight" 0 fix_ (NQPFix S);
   Slice "SPGLCos" 0 cos (NSPGaussLeg S);
   Slice "SPGLSin" 0 (cos + NSPGaussLeg S) (NSPGaussLeg S);
   Slice "SPGLCosSin" 0 (cos + 2 * NSPGaussLeg S) (NSPGaussLeg S);
   Slice "SPGLCosCos" 0 (cos + 3 * NSPGaussLeg S) (NSPGaussLeg S);
   Slice "SPGLSinSin" 0 (cos + 4 * NSPGaussLeg S) (NSPGaussLeg S)].
(** setmemory.c:394-414 stochastic reconfiguration block; [k] = 2*SROptSize (complex) or SROptSize (real).
    SROptO has k entries, SROptHO k, SROptOO k*k (NSRCG = 0) or 2*k. *)
Definition sropt_size (nsrcg k : Z) : Z := if nsrcg =? 0 then k * (k + 2) else k * 4.
Definition sropt_layout (nsrcg k : Z) : list slice :=
  let oo := if nsrcg =? 0 then k * k else k * 2 in
  [Slice "SROptOO" 0 0 oo; Slice "SROptHO" 0 oo k; Slice "SROptO" 0 (oo + k) k].
(** setmemory.c:429-434 measured quantities *)
Definition phys_size (S : sizes) : Z :=
  NCisAjs S + NCisAjsCktAlt S + NCisAjsCktAltDC S + NCisAjs S + NCisAjsCktAltDC S.
Definition phys_layout (S : sizes) : list slice :=
  let a := 0 in let b := a + NCisAjs S in let c := b + NCisAjsCktAlt S in
  let d := c + NCisAjsCktAltDC S in let e := d + NCisAjs S in
  [Slice "PhysCisAjs" 0 a (NCisAjs S); Slice "PhysCisAjsCktAlt" 0 b (NCisAjsCktAlt S);
   Slice "PhysCisAjsCktAltDC" 0 c (NCisAjsCktAltDC S); Slice "LocalCisAjs" 0 d (NCisAjs S);
   Slice "LocalCisAjsCktAltDC" 0 e (NCisAjsCktAltDC S)].
(** setmemory.c:446-450 Lanczos correlation block, NLSHam = h *)
Definition lanczos_size (S : sizes) (h : Z) : Z :=
  h * h * NCisAjs S + h * h * (NCisAjsCktAltDC S + NCisAjsCktAlt S) + h * NCisAjs S.
Definition lanczos_layout (S : sizes) (h : Z) : list slice :=
  let a := 0 in let b := a + h * h * NCisAjs S in let c := b + h * h * NCisAjsCktAlt S in
  let d := c + h * h * NCisAjsCktAltDC S in
  [Slice "QCisAjsQ" 0 a (h * h * NCisAjs S); Slice "QCisAjsCktAltQ" 0 b (h * h * NCisAjsCktAlt S);
   Slice "QCisAjsCktAltQDC" 0 c (h * h * NCisAjsCktAltDC S); Slice "LSLCisAjs" 0 d (h * NCisAjs S)].
(** stcopt_cg_impl.c:35,48 SIZE_VecCG and 273-286 the pointers of fn_StochasticOptCG_Main;
    use_imag = USE_IMAG (0 real, 1 complex), ns = NVMCSample *)
Definition veccg_size (use_imag n ns : Z) : Z :=
  if use_imag =? 0 then n * 8 + ns * (n + 1) else n * 8 + 2 * ns * (n + 1).
Definition veccg_layout (use_imag n ns : Z) : list slice :=
  let x := 0 in let g := x + n in let sdiag := g + n in let stcO := sdiag + n in
  let re := stcO + n in let im := re + ns * n in let yre := im + use_imag * ns * n in
  let yim := yre + ns in let zl := yim + use_imag * ns in let q := zl + n in let d := q + n in
  let r := d + n in
  [Slice "x" 0 x n; Slice "g" 0 g n; Slice "sdiag" 0 sdiag n; Slice "stcO" 0 stcO n;
   Slice "stcOs_real" 0 re (ns * n); Slice "stcOs_imag" 0 im (use_imag * ns * n);
   Slice "y_real" 0 yre ns; Slice "y_imag" 0 yim (use_imag * ns); Slice "z_local" 0 zl n;
   Slice "q" 0 q n; Slice "d" 0 d n; Slice "r" 0 r n].

(** * Scratch allocator (src/mVMC/workspace.c) *)
(** One pool.  [num] = NumWorkSpaceX, [gen] = number of the current allocation (0 = the NULL pointer of
    initializeWorkSpaceAll), [now] = WorkSpaceXNow - WorkSpaceX.  The five other pools have the same
    code; a per-thread pool is one such pool per thread, driven by the same Request/Release calls
    (workspace.c:149-289). *)
Record ws := WS { num : Z; gen : Z; now : Z }.
(** workspace.c:34-66 *)
Definition ws_init : ws := WS 0 0 0.
(** workspace.c:85-94 *)
Definition ws_request (n : Z) (w : ws) : ws := if num w <? n then WS n (gen w + 1) 0 else w.
(** workspace.c:95-99; the block handed out is (allocation, offset, length) *)
Record block := Block { b_gen : Z; b_off : Z; b_len : Z }.
Definition ws_get (n : Z) (w : ws) : block * ws :=
  (Block (gen w) (now w) n, WS (num w) (gen w) (now w + n)).
(** workspace.c:100-103 *)
Definition ws_release (w : ws) : ws := WS (num w) (gen w) 0.

Inductive op := Request (n : Z) | Get (n : Z) | Release.
(** execution of a call history: final state and the blocks still in use (obtained since the last
    Release, oldest first) *)
Definition ws_step (st : ws * list block) (o : op) : ws * list block :=
  match o with
  | Request n => (ws_request n (fst st), snd st)
  | Get n => let (b, w) := ws_get n (fst st) in (w, snd st ++ [b])
  | Release => (ws_release (fst st), [])
  end.
Definition ws_run (h : list op) (st : ws * list block) : ws * list block := fold_left ws_step h st.

(** one use of a pool by a function: Request n; Get g1; ...; Get gk; Release *)
Definition session (n : Z) (gets : list Z) : list op := Request n :: map Get gets ++ [Release].
