-Q theories Verif
theories/Base.v
theories/Num.v
theories/ArrayUtils.v
theories/Trait.v
theories/Naive.v
theories/Butterflies.v
theories/MixedRadix.v
theories/Nxn.v
theories/Radix4.v
theories/SplitRadix.v
theories/MathUtils.v
theories/Raders.v
theories/Lemmas.v
theories/Contract.v
theories/ButterfliesProof.v
theories/NxnProof.v
theories/NxnInst.v
theories/MixedRadixProof.v
theories/MixedContract.v
theories/SplitRadixProof.v
theories/Radix4Proof.v
theories/RadersProof.v
theories/NumTheory.v
theories/F32Sqrt.v
theories/Residues.v
theories/NumSpec.v
theories/MathProofs.v
theories/RootProofs.v
theories/RadersContract.v
theories/Spec.v
theories/RealDHT.v
theories/MixedReal.v
theories/ButterfliesReal.v
theories/NxnReal.v
theories/SplitReal.v
theories/DHTTheory.v
theories/RadersReal.v
theories/Radix4Real.v
theories/Api.v
theories/TreeProof.v
theories/TreeReal.v
theories/ApiProof.v
theories/ApiReal.v
theories/PropsExactProof.v
theories/PropsExact.v
theories/ConstSpec.v
theories/ConstProof.v
theories/PropsConstProof.v
theories/PropsConst.v
theories/Safety.v
theories/PropsSafetyProof.v
theories/PropsSafety.v
theories/PropsSameProof.v
theories/PropsSame.v
theories/NeedScratch.v
theories/PropsContractProof.v
theories/PropsContract.v
theories/PropsMathProof.v
theories/PropsMath.v
theories/FloatSpec.v
theories/FloatProof.v
theories/FloatButterflies.v
theories/FloatMixed.v
theories/FloatSplit.v
theories/FloatRaders.v
theories/FloatTree.v
theories/Ieee.v
theories/IeeeSpec.v
theories/IeeeProof.v
theories/PropsFloatProof.v
theories/PropsFloat.v
theories/ParamSpec.v
theories/Param.v
theories/ParamModel.v
theories/ParamTree.v
theories/ParamIeee.v
theories/PropsParamProof.v
theories/PropsParam.v
theories/New.v
theories/NewSpec.v
theories/NewProof.v
theories/NewAgree.v
theories/NewTree.v
theories/PropsNewProof.v
theories/PropsNew.v
theories/RootDebug.v
theories/PropsDebugProof.v
theories/PropsDebug.v
theories/Proc.v
theories/ProcProof.v
theories/Euclid.v
theories/ProcTree.v
theories/WordSpec.v
theories/WordProof.v
theories/WordSilent.v
theories/WordCas.v
theories/WordRelease.v
theories/PropsWordProof.v
theories/WordTree.v
theories/PropsWord.v
theories/PropsProcProof.v
theories/PropsProc.v
theories/TestUtils.v
theories/TestSpec.v
theories/TestProof.v
theories/TestSound.v
theories/TestPass.v
theories/TestSuite.v
theories/TestReverse.v
theories/TestNaive.v
theories/TestScratch.v
theories/PropsTestProof.v
theories/PropsTest.v
theories/Oblige.v
theories/Bench.v
theories/BenchProof.v
theories/PropsBenchProof.v
theories/PropsBench.v
theories/L2.v
theories/RmsSpec.v
theories/RmsProof.v
theories/RmsCols.v
theories/RmsSplit.v
theories/RmsRader.v
theories/RmsTree.v
theories/PropsRmsProof.v
theories/PropsRms.v
theories/StraightSpec.v
theories/Straight.v
theories/PropsStraightProof.v
theories/PropsStraight.v
theories/RoundSpec.v
theories/PropsRoundProof.v
theories/PropsRound.v
theories/SpectrumSpec.v
theories/PropsSpectrumProof.v
theories/PropsSpectrum.v
theories/ProfileSpec.v
theories/ProfileProof.v
theories/ProfileTree.v
theories/PropsProfileProof.v
theories/PropsProfile.v
theories/PropsCrossProof.v
theories/PropsCross.v
theories/PlanSpec.v
theories/PropsPlanProof.v
theories/PropsPlan.v
theories/KeepSpec.v
theories/PropsKeepProof.v
theories/PropsKeep.v
theories/CostSpec.v
theories/Cost.v
theories/CostTree.v
theories/PropsCostProof.v
theories/PropsCost.v
theories/Radix4Fix.v
theories/Radix4FixProof.v
theories/PropsRepair.v
theories/BorrowSpec.v
theories/Borrow.v
theories/PropsBorrowProof.v
theories/PropsBorrow.v
theories/PropsStableProof.v
theories/PropsStable.v
theories/ConvSpec.v
theories/PropsConvProof.v
theories/PropsConv.v
