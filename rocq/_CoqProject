-Q theories Verif
theories/Base/ZLoop.v
theories/Base/Checked.v
theories/Base/RSum.v
theories/Par/Model.v
theories/Par/Proofs.v
theories/Par/Properties.v
theories/Proj/Model.v
theories/Proj/Spec.v
theories/Proj/Proofs.v
theories/Proj/Properties.v
theories/Mem/Model.v
theories/Mem/Callers.v
theories/Mem/Spec.v
theories/Mem/Proofs.v
theories/Mem/Properties.v
theories/Samp/Prog.v
theories/Samp/Model.v
theories/Samp/Spec.v
theories/Samp/Hoare.v
theories/Samp/Config.v
theories/Samp/Proofs.v
theories/Samp/ProofsF.v
theories/Samp/ProofsI.v
theories/Samp/Trace.v
theories/Samp/Init.v
theories/Samp/Lock.v
theories/Samp/LockS.v
theories/Samp/LockT.v
theories/Samp/Exch.v
theories/Samp/Main.v
theories/Samp/Exec.v
theories/Samp/Properties.v
theories/Para/Model.v
theories/Para/Spec.v
theories/Para/Proofs.v
theories/Para/Properties.v
theories/SR/Model.v
theories/SR/Spec.v
theories/SR/Proofs.v
theories/SR/ProofsSel.v
theories/SR/ProofsMat.v
theories/SR/ProofsCG.v
theories/SR/ProofsConv.v
theories/SR/ProofsFin.v
theories/SR/ProofsEnd.v
theories/SR/Properties.v
theories/Pf/Pfaffian.v
theories/Pf/Algebra.v
theories/Pf/Model.v
theories/Pf/Spec.v
theories/Pf/Proofs.v
theories/Pf/ProofsTwo.v
theories/Pf/ProofsSeq.v
theories/Pf/Properties.v
theories/Slater/Model.v
theories/Slater/Derive.v
theories/Slater/Spec.v
theories/Slater/Proofs.v
theories/Slater/ProofsElm.v
theories/Slater/ProofsDiff.v
theories/Slater/ProofsDer.v
theories/Slater/ProofsProp.v
theories/Slater/Cases.v
theories/Slater/Properties.v
theories/Rbm/Model.v
theories/Rbm/Spec.v
theories/Rbm/Proofs.v
theories/Rbm/ProofsRatio.v
theories/Rbm/ProofsDiff.v
theories/Rbm/Cases.v
theories/Rbm/Properties.v
theories/Green/Model.v
theories/Green/Spec.v
theories/Green/Anti.v
theories/Green/Moves.v
theories/Green/Core.v
theories/Green/Proofs.v
theories/Green/ProofsN.v
theories/Green/ProofsAlg.v
theories/Green/Cases.v
theories/Green/Properties.v
theories/Lan/Model.v
theories/Lan/Spec.v
theories/Lan/Proofs.v
theories/Lan/ProofsSum.v
theories/Lan/Cases.v
theories/Lan/Properties.v
theories/Def/Model.v
theories/Def/Spec.v
theories/Def/ProofsNum.v
theories/Def/ProofsNames.v
theories/Def/Cases.v
theories/Def/Properties.v
theories/File/Model.v
theories/File/Spec.v
theories/File/ProofsOut.v
theories/File/ProofsIn.v
theories/File/Proofs.v
theories/File/ProofsRej.v
theories/File/Cases.v
theories/File/Properties.v
theories/Opt/Model.v
theories/Opt/Spec.v
theories/Opt/Proofs.v
theories/Opt/ProofsFlags.v
theories/Opt/ProofsTab.v
theories/Opt/ProofsIdx.v
theories/Opt/Cases.v
theories/Opt/Properties.v
theories/Rng/Model.v
theories/Rng/ModelReal.v
theories/Rng/Spec.v
theories/Rng/Proofs.v
theories/Rng/ProofsAll.v
theories/Rng/ProofsSse.v
theories/Rng/ProofsStream.v
theories/Rng/ProofsSeed.v
theories/Rng/ProofsReal.v
theories/Rng/Cases.v
theories/Rng/Properties.v
theories/Ham/Model.v
theories/Ham/Spec.v
theories/Ham/ProofsExt.v
theories/Ham/Proofs.v
theories/Ham/ProofsFlip.v
theories/Ham/ProofsTwo.v
theories/Ham/ProofsHop.v
theories/Ham/ProofsLs.v
theories/Ham/Cases.v
theories/Ham/CasesLs.v
theories/Ham/Properties.v
theories/Ham/PropertiesLs.v
theories/Fsz/Model.v
theories/Fsz/Spec.v
theories/Fsz/ProofsPf.v
theories/Fsz/ProofsElm.v
theories/Fsz/ProofsDiff.v
theories/Fsz/ProofsDer.v
theories/Fsz/Cases.v
theories/Fsz/Properties.v
theories/Gfz/Model.v
theories/Gfz/Spec.v
theories/Gfz/Anti.v
theories/Gfz/Proofs.v
theories/Gfz/ProofsAlg.v
theories/Gfz/Cases.v
theories/Gfz/Properties.v
theories/Hfz/Model.v
theories/Hfz/Spec.v
theories/Hfz/Proofs.v
theories/Hfz/Cases.v
theories/Hfz/Properties.v
theories/Cgr/Model.v
theories/Cgr/Spec.v
theories/Cgr/Proofs.v
theories/Cgr/Cases.v
theories/Cgr/Properties.v
theories/Rsr/Model.v
theories/Rsr/Spec.v
theories/Rsr/Proofs.v
theories/Rsr/ProofsSel.v
theories/Rsr/Properties.v
theories/Mark/Model.v
theories/Mark/Spec.v
theories/Mark/Words.v
theories/Mark/Reverse.v
theories/Mark/ReverseStd.v
theories/Mark/Weight.v
theories/Mark/Chain.v
theories/Mark/Balance.v
theories/Mark/ReverseFsz.v
theories/Mark/ReturnFsz.v
theories/Mark/WeightFsz.v
theories/Mark/BalanceFsz.v
theories/Mark/Link.v
theories/Mark/Cases.v
theories/Mark/Modulo.v
theories/Mark/CasesFsz.v
theories/Mark/Properties.v
theories/Rel/Model.v
theories/Rel/Spec.v
theories/Rel/Embed.v
theories/Rel/Sim.v
theories/Rel/Link.v
theories/Rel/Proofs.v
theories/Rel/Cases.v
theories/Rel/Properties.v
theories/Ltl/Model.v
theories/Ltl/Spec.v
theories/Ltl/Pfa.v
theories/Ltl/Arr.v
theories/Ltl/Solve.v
theories/Ltl/Proofs.v
theories/Ltl/Frame.v
theories/Ltl/Cases.v
theories/Ltl/Properties.v
theories/Blk/Model.v
theories/Blk/Spec.v
theories/Blk/Alg.v
theories/Blk/Kernel.v
theories/Blk/Arr.v
theories/Blk/State.v
theories/Blk/Ratio.v
theories/Blk/Proofs.v
theories/Blk/ProofsMerge.v
theories/Blk/ProofsRun.v
theories/Blk/Reference.v
theories/Blk/ProofsSampler.v
theories/Blk/Cases.v
theories/Blk/Properties.v
theories/Uhf/Model.v
theories/Uhf/Spec.v
theories/Uhf/Rows.v
theories/Uhf/Proofs.v
theories/Uhf/State.v
theories/Uhf/Pass.v
theories/Uhf/Adjoint.v
theories/Uhf/Cases.v
theories/Uhf/Final.v
theories/Uhf/Properties.v
theories/Orb/Model.v
theories/Orb/Spec.v
theories/Orb/Wedge.v
theories/Orb/Params.v
theories/Orb/Readers.v
theories/Orb/Final.v
theories/Orb/Modes.v
theories/Orb/Cases.v
theories/Orb/Properties.v
theories/Trm/Model.v
theories/Trm/Spec.v
theories/Trm/Proofs.v
theories/Trm/Files.v
theories/Trm/Final.v
theories/Trm/Cases.v
theories/Trm/Properties.v
theories/Grd/Model.v
theories/Grd/Spec.v
theories/Grd/ProofsDer.v
theories/Grd/ProofsSum.v
theories/Grd/ProofsHerm.v
theories/Grd/ProofsGrad.v
theories/Grd/ProofsEnd.v
theories/Grd/ProofsNode.v
theories/Grd/Cases.v
theories/Grd/CasesNode.v
theories/Grd/CasesStep.v
theories/Grd/CasesFsz.v
theories/Grd/Properties.v
theories/Sym/Model.v
theories/Sym/Spec.v
theories/Sym/ProofsPf.v
theories/Sym/ProofsOcc.v
theories/Sym/ProofsMean.v
theories/Sym/ProofsRead.v
theories/Sym/Cases.v
theories/Sym/Properties.v
theories/Inv/Spec.v
theories/Inv/Proofs.v
theories/Inv/ProofsHam.v
theories/Inv/ProofsRun.v
theories/Inv/Cases.v
theories/Inv/CasesRun.v
theories/Inv/Properties.v
theories/Ifz/Spec.v
theories/Ifz/Proofs.v
theories/Ifz/ProofsHam.v
theories/Ifz/ProofsRun.v
theories/Ifz/Cases.v
theories/Ifz/Properties.v
theories/Otr/Model.v
theories/Otr/Spec.v
theories/Otr/Proofs.v
theories/Otr/Properties.v
theories/Chk/Model.v
theories/Chk/Spec.v
theories/Chk/Proofs.v
theories/Chk/ProofsSpin.v
theories/Chk/Properties.v
