-Q theories Verif
theories/Py.v
theories/NumPy.v
theories/VGroup.v
theories/Factor.v
theories/FGroup.v
theories/FGraph.v
theories/BPState.v
theories/BP.v
theories/Lists.v
theories/SpecVGroup.v
theories/LemVGroup.v
theories/PropsVGroup.v
theories/SpecFGraph.v
theories/LemFGraph.v
theories/LemEvidence.v
theories/PropsEvidence.v
theories/SpecFactor.v
theories/LemFactor.v
theories/PropsFactor.v
theories/SpecAdd.v
theories/LemAdd.v
theories/PropsAdd.v
theories/SpecWiring.v
theories/LemWiring.v
theories/LemGraph.v
theories/PropsWiring.v
theories/SpecState.v
theories/LemState.v
theories/PropsState.v
theories/LemWorld.v
theories/PropsWorld.v
theories/SpecBP.v
theories/LemNum.v
theories/LemNorm.v
theories/LemVtoF.v
theories/LemEnum.v
theories/LemLogCode.v
theories/LemLogical.v
theories/LemBrute.v
theories/LemBruteSoft.v
theories/LemLogBP.v
theories/SpecText.v
theories/LemText.v
theories/LemRun.v
theories/LemPass.v
theories/ExBP.v
theories/PropsMsgs.v
theories/LemIter.v
theories/LemTransfer.v
theories/PropsRun.v
theories/SpecBeliefs.v
theories/LemBeliefs.v
theories/PropsBeliefs.v
theories/LemShift.v
theories/PropsShift.v
theories/SpecPerm.v
theories/LemPerm.v
theories/PropsPerm.v
theories/SpecTree.v
theories/LemTree.v
theories/LemExact.v
theories/LemSpread.v
theories/ExTree.v
theories/PropsTree.v
theories/SpecSum.v
theories/LemSum.v
theories/PropsSum.v
theories/FGraphFactors.v
theories/SpecFactors.v
theories/LemFactors.v
theories/PropsFactors.v
theories/Rounded.v
theories/SpecRounded.v
theories/LemRounded.v
theories/PropsRounded.v
theories/SpecStable.v
theories/LemStable.v
theories/PropsStable.v
theories/SpecAccept.v
theories/LemAccept.v
theories/PropsAccept.v
theories/Partial.v
theories/LemSplit.v
theories/LemPartial.v
theories/PropsPartial.v
theories/SpecRoundErr.v
theories/LemRoundErr.v
theories/LemRoundBel.v
theories/PropsRoundErr.v
theories/SpecDup.v
theories/LemDup.v
theories/PropsDup.v
theories/Jit.v
theories/SpecJit.v
theories/LemJit.v
theories/ExJit.v
theories/PropsJit.v
theories/LemFlatten.v
theories/PropsFlatten.v
theories/SpecTemp.v
theories/LemTemp.v
theories/PropsTemp.v
theories/SpecLocal.v
theories/LemLocal.v
theories/PropsLocal.v
theories/LemReorder.v
theories/PropsReorder.v
theories/SpecConv.v
theories/LemConv.v
theories/ExCycle.v
theories/PropsConv.v
theories/SpecFix.v
theories/LemFix.v
theories/ExFix.v
theories/PropsFix.v
theories/SpecDamp.v
theories/LemDamp.v
theories/PropsDamp.v
theories/SpecSep.v
theories/LemSep.v
theories/PropsSep.v
theories/SpecMerge.v
theories/LemMerge.v
theories/PropsMerge.v
theories/SpecDual.v
theories/LemDual.v
theories/PropsDual.v
theories/SpecClamp.v
theories/LemClamp.v
theories/PropsClamp.v
theories/SpecScale.v
theories/LemScale.v
theories/PropsScale.v
theories/SpecDepth.v
theories/LemDepth.v
theories/PropsDepth.v
theories/LemUnflatten.v
theories/PropsUnflatten.v
theories/SpecSymm.v
theories/LemSymm.v
theories/PropsSymm.v
theories/LemGetitem.v
theories/PropsGetitem.v
theories/SpecMono.v
theories/LemMono.v
theories/LemRising.v
theories/ExMono.v
theories/PropsMono.v
theories/SpecUnderflow.v
theories/LemUnderflow.v
theories/LemUnderGraph.v
theories/ExUnder.v
theories/PropsUnder.v
theories/SpecRoundSoft.v
theories/LemRoundSoft.v
theories/LemSoftBel.v
theories/PropsRoundSoft.v
theories/SpecClient.v
theories/LemClient.v
theories/PropsClient.v
theories/SpecIds.v
theories/LemIds.v
theories/PropsIds.v
theories/SpecBound.v
theories/LemBound.v
theories/ExBound.v
theories/PropsBound.v
theories/LemPartition.v
theories/ExPartition.v
theories/PropsPartition.v
theories/SpecJoint.v
theories/LemJoint.v
theories/PropsJoint.v
theories/SpecMaxJoint.v
theories/LemMaxJoint.v
theories/PropsMaxJoint.v
theories/LemUnique.v
theories/PropsUnique.v
