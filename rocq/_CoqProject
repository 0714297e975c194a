-Q theories Verif
theories/Num.v
theories/NumLemmas.v
theories/LimLemmas.v
theories/ModelBase.v
theories/ModelSample.v
theories/ModelTip.v
theories/NArr.v
theories/SpecArr.v
theories/NArrLemmas.v
theories/ModelObj.v
theories/ModelArr.v
theories/SpecObj.v
theories/ArrSample.v
theories/ProofsArr.v
theories/ProofsArr2.v
theories/ProofsObj.v
theories/ProofsObj2.v
theories/ProofsObj3.v
theories/ProofsObj4.v
theories/ModelArrTip.v
theories/ProofsArrTip.v
theories/ProofsArrTip2.v
theories/ProofsArrTip3.v
theories/ProofsArrTip4.v
theories/ProofsArrTip5.v
theories/ProofsArrTip6.v
theories/StackLemmas.v
theories/Spec.v
theories/ProofsStackQS.v
theories/ProofsStackQS2.v
theories/ProofsStackFF.v
theories/ProofsStackFF2.v
theories/ProofsBulkFF.v
theories/ProofsSym.v
theories/ProofsPassive.v
theories/DemodLemmas.v
theories/ProofsDemod.v
theories/ProofsTip.v
theories/ProofsTip2.v
theories/ProofsTip3.v
theories/ProofsTip4.v
theories/ProofsTip5.v
theories/ProofsPerm.v
theories/ProofsTaylor.v
theories/ProofsTaylor2.v
theories/SpecPoly.v
theories/SpecNear.v
theories/FTA.v
theories/ModelInv.v
theories/SpecInv.v
theories/InvLemmas.v
theories/ProofsInv.v
theories/ProofsInv2.v
theories/ProofsInv3.v
theories/ProofsInv4.v
theories/ProofsInv5.v
theories/ModelRange.v
theories/SpecRange.v
theories/RangeLemmas.v
theories/ProofsRange.v
theories/ProofsRange2.v
theories/ProofsRange3.v
theories/ProofsRange4.v
theories/ProofsEx.v
theories/SpecWave.v
theories/WaveLemmas.v
theories/WaveLemmas2.v
theories/ProofsWave.v
theories/ProofsWave2.v
theories/SpecQuad.v
theories/Laguerre.v
theories/Laguerre2.v
theories/Weierstrass.v
theories/QuadConv.v
theories/ProofsQuad.v
theories/ProofsQuad2.v
theories/ProofsNlag.v
theories/ProofsImage.v
theories/ProofsFilm.v
theories/ProofsAbsorb.v
theories/SpecTap.v
theories/ProofsSmall.v
theories/ProofsSmall2.v
theories/ProofsNear.v
theories/ProofsConsist.v
theories/ProofsConsist2.v
theories/ProofsConsist3.v
theories/ProofsConsist4.v
theories/ProofsRound.v
theories/ProofsOpaque.v
theories/ModelRangeFF.v
theories/SpecRangeFF.v
theories/ProofsRangeFF.v
theories/ProofsRangeFF2.v
theories/PosDef.v
theories/UniMod.v
theories/ProofsContrast.v
theories/ProofsContrast2.v
theories/ProofsContrast3.v
theories/SpecTip.v
theories/ProofsLoop.v
theories/SpecFresnel.v
theories/ProofsFresnel.v
theories/SpecMode.v
theories/ModeLemmas.v
theories/ProofsMode.v
theories/SpecRound.v
theories/ModelRound.v
theories/RoundLemmas.v
theories/RoundLemmas2.v
theories/ProofsRounding.v
theories/ModelRound2.v
theories/RoundTends.v
theories/RoundTends2.v
theories/SpecAccurate.v
theories/ProofsRounding2.v
theories/ProofsRounding3.v
theories/ModelRound3.v
theories/RoundTends3.v
theories/SpecLightLine.v
theories/ProofsRounding4.v
theories/ProofsDefault.v
theories/SpecSampling.v
theories/ProofsSampling.v
theories/ProofsSampling2.v
theories/ProofsSampling3.v
theories/PolyBall.v
theories/ChebLog.v
theories/ProofsSampling4.v
theories/ProofsSampling5.v
theories/ModelHeap.v
theories/SpecHeap.v
theories/ProofsHeap.v
theories/ModelSigned.v
theories/SpecSigned.v
theories/ProofsSigned.v
theories/SpecConv.v
theories/ProofsConv.v
theories/PosPoly.v
theories/SpecFirst.v
theories/ProofsFirst.v
theories/ProofsFirst2.v
theories/ProofsFirst3.v
theories/ProofsCompare.v
theories/ProofsCompare2.v
theories/SpecDual.v
theories/ProofsDual.v
theories/ModelSeq.v
theories/SpecSeq.v
theories/ProofsSeq.v
theories/ProofsSeq2.v
theories/ProofsSeq3.v
theories/ProofsSeq4.v
theories/ModelInt.v
theories/SpecInt.v
theories/ProofsInt.v
theories/ProofsInt2.v
theories/ProofsInt3.v
theories/ProofsInt4.v
theories/SpecSens.v
theories/ProofsSens.v
theories/ProofsSens2.v
theories/ProofsSens3.v
theories/ProofsSens4.v
theories/SpecReson.v
theories/ProofsReson.v
theories/ProofsReson2.v
theories/ProofsReson3.v
theories/SpecThin.v
theories/ProofsThin.v
theories/ProofsThin2.v
theories/ProofsThin3.v
theories/ProofsThin4.v
theories/ModelCache.v
theories/SpecCache.v
theories/ProofsCache.v
theories/ProofsCache2.v
theories/ModelThread.v
theories/SpecThread.v
theories/ProofsThread.v
theories/ProofsThread2.v
theories/ProofsThread3.v
theories/ModelThreadInv.v
theories/SpecThreadInv.v
theories/ProofsThread4.v
theories/SpecLattice.v
theories/ProofsLattice.v
theories/ProofsLattice2.v
theories/ProofsLattice3.v
theories/ModelScatter.v
theories/SpecScatter.v
theories/ProofsScatter.v
theories/ProofsScatter2.v
theories/SpecUniaxial.v
theories/ProofsUniaxial.v
theories/ProofsUniaxial2.v
theories/ProofsUniaxial3.v
theories/ProofsUniaxial4.v
theories/SpecMajor.v
theories/Majorant.v
theories/ProofsMajor.v
theories/ProofsMajor2.v
theories/ProofsHarm.v
theories/ProofsHarm2.v
theories/ProofsHarm3.v
theories/ProofsMajor3.v
theories/ProofsMajor4.v
theories/ProofsTotal.v
theories/ProofsTotal2.v
theories/ProofsTotal3.v
theories/ProofsTotal4.v
theories/SpecCoating.v
theories/ProofsCoating.v
theories/ProofsCoating2.v
theories/ProofsCoating3.v
theories/ProofsCoating4.v
theories/SpecSolver.v
theories/ModelRoundInv.v
theories/ProofsInvRound.v
theories/ProofsInvRound2.v
theories/ProofsInvRound3.v
theories/SpecLens.v
theories/ProofsLens.v
theories/ProofsLens2.v
theories/ProofsLens3.v
theories/ProofsOsc.v
theories/ProofsOsc2.v
theories/ProofsOsc3.v
theories/ModelFit.v
theories/ProofsFit.v
theories/ProofsFit2.v
theories/ProofsFit3.v
theories/SpecInf.v
theories/ModelInf.v
theories/ProofsInf.v
theories/ProofsInf2.v
theories/ProofsInf3.v
theories/PropAbsorb.v
theories/PropArr2.v
theories/PropArrTip5.v
theories/PropArrTip6.v
theories/PropBulkFF.v
theories/PropCache2.v
theories/PropCoating.v
theories/PropCoating2.v
theories/PropCoating3.v
theories/PropCoating4.v
theories/PropCompare.v
theories/PropCompare2.v
theories/PropConsist2.v
theories/PropConsist3.v
theories/PropConsist4.v
theories/PropContrast.v
theories/PropContrast2.v
theories/PropContrast3.v
theories/PropConv.v
theories/PropDefault.v
theories/PropDemod.v
theories/PropDual.v
theories/PropEx.v
theories/PropFilm.v
theories/PropFirst2.v
theories/PropFirst3.v
theories/PropFit2.v
theories/PropFit3.v
theories/PropFresnel.v
theories/PropHarm.v
theories/PropHarm2.v
theories/PropHarm3.v
theories/PropHeap.v
theories/PropImage.v
theories/PropInf.v
theories/PropInf2.v
theories/PropInf3.v
theories/PropInt.v
theories/PropInt2.v
theories/PropInt3.v
theories/PropInt4.v
theories/PropInv4.v
theories/PropInv5.v
theories/PropInvRound3.v
theories/PropLattice2.v
theories/PropLattice3.v
theories/PropLens.v
theories/PropLens2.v
theories/PropLens3.v
theories/PropLoop.v
theories/PropMajor.v
theories/PropMajor2.v
theories/PropMajor3.v
theories/PropMajor4.v
theories/PropMode.v
theories/PropNlag.v
theories/PropObj.v
theories/PropObj2.v
theories/PropObj3.v
theories/PropObj4.v
theories/PropOpaque.v
theories/PropOsc.v
theories/PropOsc2.v
theories/PropOsc3.v
theories/PropPassive.v
theories/PropPerm.v
theories/PropQuad.v
theories/PropQuad2.v
theories/PropRange.v
theories/PropRange2.v
theories/PropRange3.v
theories/PropRange4.v
theories/PropRangeFF.v
theories/PropRangeFF2.v
theories/PropReson.v
theories/PropReson2.v
theories/PropReson3.v
theories/PropRound.v
theories/PropRounding.v
theories/PropRounding2.v
theories/PropRounding3.v
theories/PropRounding4.v
theories/PropSampling.v
theories/PropSampling2.v
theories/PropSampling3.v
theories/PropSampling4.v
theories/PropSampling5.v
theories/PropScatter.v
theories/PropScatter2.v
theories/PropSens.v
theories/PropSens2.v
theories/PropSens3.v
theories/PropSens4.v
theories/PropSeq.v
theories/PropSeq2.v
theories/PropSeq3.v
theories/PropSeq4.v
theories/PropSigned.v
theories/PropSmall.v
theories/PropSmall2.v
theories/PropStackFF.v
theories/PropStackFF2.v
theories/PropStackQS.v
theories/PropStackQS2.v
theories/PropSym.v
theories/PropTaylor.v
theories/PropTaylor2.v
theories/PropThin2.v
theories/PropThin3.v
theories/PropThin4.v
theories/PropThread3.v
theories/PropThread4.v
theories/PropTip.v
theories/PropTip2.v
theories/PropTip3.v
theories/PropTip4.v
theories/PropTip5.v
theories/PropTotal.v
theories/PropTotal2.v
theories/PropTotal4.v
theories/PropUniaxial4.v
theories/PropWave.v
theories/PropWave2.v
