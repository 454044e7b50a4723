-Q theories Verif
theories/Base.v
theories/NDArray.v
theories/Factor.v
theories/BaseFacts.v
theories/NDArrayFacts.v
theories/SumCalc.v
theories/FactorFacts.v
theories/Exact.v
theories/Spec.v
theories/SpecFacts.v
theories/VEProof.v
theories/FactorSpec.v
theories/FactorProofs.v
theories/Instances.v
theories/PropFactor.v
theories/Order.v
theories/OrderSpec.v
theories/OrderProof.v
theories/Checks.v
theories/VEProof2.v
theories/ExampleNets.v
theories/PropVE.v
theories/JoinTree.v
theories/HuginPure.v
theories/Hugin.v
theories/JTProof.v
theories/JTProof2.v
theories/JTBuild.v
theories/JTBuild2.v
theories/TreeSpec.v
theories/JTBuild3.v
theories/JTTop.v
theories/JTJunction.v
theories/JTHistory.v
theories/JTDefault.v
theories/PropTree.v
theories/Node.v
theories/Network.v
theories/NetSpec.v
theories/NetFacts.v
theories/NetInv.v
theories/NetOps.v
theories/NetOps2.v
theories/NetRename.v
theories/NetTop.v
theories/NetView.v
theories/NetTable.v
theories/NetFrame.v
theories/NetChecks.v
theories/PropNet.v
theories/Sampling.v
theories/MCSpec.v
theories/MCFacts.v
theories/MCProof.v
theories/MCTop.v
theories/MCChain.v
theories/MCForward.v
theories/MCMarginal.v
theories/MCChecks.v
theories/PropMCMC.v
theories/Decision.v
theories/DecVE.v
theories/DecSpec.v
theories/DecInv.v
theories/DecView.v
theories/DecNorm.v
theories/DecFacts.v
theories/DecOpt.v
theories/DecTable.v
theories/DecChecks.v
theories/PropDecision.v
theories/Dynamic.v
theories/DynSpec.v
theories/DynPure.v
theories/DynHeap.v
theories/DynPrior.v
theories/DynSoft.v
theories/DynState.v
theories/DynMore.v
theories/DynIndep.v
theories/DynChecks.v
theories/PropDynamic.v
theories/Xml.v
theories/IO.v
theories/IOText.v
theories/IOSpec.v
theories/IOProof.v
theories/Files.v
theories/FilesSpec.v
theories/FilesProof.v
theories/Fractions.v
theories/IOMore.v
theories/ParseSpec.v
theories/IOParse.v
theories/IOChecks.v
theories/PropIO.v
theories/FactorHeap.v
theories/FactorHeapSpec.v
theories/FactorHeapProof.v
theories/PropHeap.v
theories/JTPolytree.v
theories/JTAgain.v
theories/JTAgain2.v
theories/JTAgain3.v
theories/Suite.v
theories/Suite2.v
theories/LawSpec.v
theories/LawCount.v
theories/LawKernel.v
theories/LawOne.v
theories/LawChain.v
theories/LawPost.v
theories/LawMean.v
theories/LawErgodic.v
theories/LawForward.v
theories/LawMCMC.v
theories/PropLaw.v
theories/LawEstimate.v
theories/LawTop.v
theories/LawStuck.v
theories/LawLarge.v
theories/LawSpread.v
theories/FactorMismatch.v
theories/EvSpec.v
theories/EvForms.v
theories/PropEvidence.v
theories/DynProbs.v
theories/Topo.v
theories/TopoSpec.v
theories/TopoProof.v
theories/TopoSample.v
theories/Access.v
theories/AccessProof.v
theories/PropGraph.v
theories/LawLinked.v
theories/SepSpec.v
theories/SepRelevant.v
theories/SepTrail.v
theories/SepBall.v
theories/SepMarkov.v
theories/SepNet.v
theories/SepTop.v
theories/PropSep.v
theories/Rounded.v
theories/RoundedSpec.v
theories/RoundedProof.v
theories/RoundedTop.v
theories/RoundedDouble.v
theories/RoundedTables.v
theories/PropRounded.v
theories/RoundedTree.v
theories/RoundedTreeProof.v
theories/RoundedTreeSpec.v
theories/RoundedTreeTop.v
theories/PropRoundedTree.v
theories/LawClass.v
theories/LawClassTop.v
theories/LawSunk.v
theories/PropLawClass.v
theories/Tables.v
theories/TablesSpec.v
theories/TablesProof.v
theories/TablesTop.v
theories/PropTables.v
theories/PartGraph.v
theories/PartSpec.v
theories/PartTree.v
theories/PartOps.v
theories/PartBuild.v
theories/PartCreate.v
theories/PartMass.v
theories/PartTop.v
theories/PropParts.v
theories/RangedProof.v
theories/Ranged.v
theories/RangedSpec.v
theories/RangedDouble.v
theories/PropRanged.v
theories/RecLimit.v
theories/RecLimitSpec.v
theories/RecLimitProof.v
theories/RecLimitTop.v
theories/RecLimitChain.v
theories/PropLimit.v
theories/JTConnect.v
theories/PathProof.v
theories/ErrSpec.v
theories/ErrProof.v
theories/ErrProof2.v
theories/ErrProof3.v
theories/ErrProof4.v
theories/PropErrors.v
theories/DocSpec.v
theories/DocProof.v
theories/DocProof2.v
theories/DocProof3.v
theories/PropFiles.v
theories/TreeErrSpec.v
theories/TreeErrProof.v
theories/PropTreeErrors.v
theories/SampleErrSpec.v
theories/SampleErrProof.v
theories/SampleErrTop.v
theories/PropSampleErrors.v
theories/LeftSpec.v
theories/LeftProof.v
theories/PropLeft.v
theories/DynUseSpec.v
theories/DynUse.v
theories/DynUse2.v
theories/PropDynUse.v
theories/FactorErrSpec.v
theories/FactorErr.v
theories/PropFactorErr.v
theories/DecElim.v
theories/DecErrSpec.v
theories/DecErr.v
theories/DecErr2.v
theories/DecErr3.v
theories/PropDecErr.v
theories/RoundedSame.v
theories/Stream.v
theories/StreamProof.v
theories/RoundedDyn.v
theories/RoundedDynSpec.v
theories/RoundedDynPure.v
theories/RoundedDynProof.v
theories/RoundedDynTop.v
theories/PropRoundedDyn.v
theories/RoundedDec.v
theories/RoundedDecSpec.v
theories/RoundedDecPure.v
theories/RoundedDecProof.v
theories/RoundedDecTop.v
theories/PropRoundedDec.v
theories/RoundedSign.v
theories/RangedTree.v
theories/RangedTreeSpec.v
theories/RangedTreeFacts.v
theories/RangedTreeProof.v
theories/RangedTreeTop.v
theories/RangedTreeDouble.v
theories/PropRangedTree.v
theories/RoundedSoft.v
theories/RoundedSoftSpec.v
theories/RoundedSoftProof.v
theories/RoundedSoftTop.v
theories/PropRoundedSoft.v
theories/RoundedSoftDyn.v
theories/RoundedSoftDynSpec.v
theories/RoundedSoftDynPure.v
theories/RoundedSoftDynProof.v
theories/RoundedSoftDynTop.v
theories/PropRoundedSoftDyn.v
theories/RoundedSample.v
theories/RoundedSampleSpec.v
theories/RoundedSampleDraw.v
theories/RoundedSampleOne.v
theories/RoundedSampleChain.v
theories/RoundedSampleStay.v
theories/RoundedSampleMix.v
theories/RoundedSampleCount.v
theories/RoundedSampleForward.v
theories/RoundedSampleTop.v
theories/RoundedWhole.v
theories/RoundedSampleLimit.v
theories/PropRoundedSample.v
theories/RoundedSampleSpread.v
theories/RangedSample.v
theories/RangedSampleSpec.v
theories/RangedSampleProof.v
theories/RangedSampleTop.v
theories/PropRangedSample.v
theories/TreeTables.v
theories/TreeTablesSpec.v
theories/TreeTablesProof.v
theories/TreeTablesTop.v
theories/PropTreeTables.v
theories/DynTables.v
theories/DynTablesSpec.v
theories/DynTablesProof.v
theories/DynTablesTop.v
theories/PropDynTables.v
theories/SaveSpec.v
theories/SaveProof.v
theories/PropSave.v
theories/SameSpec.v
theories/SameProof.v
theories/PropSame.v
theories/CoherentSpec.v
theories/CoherentProof.v
theories/PropCoherent.v
theories/UnitSpec.v
theories/UnitProof.v
theories/PropUnit.v
theories/UserSampling.v
theories/UserSpec.v
theories/UserProof.v
theories/PropUser.v
theories/BlankProof.v
theories/UserBalance.v
theories/ChangeSpec.v
theories/ChangeProof.v
theories/PropChange.v
theories/UserMix.v
theories/MemSampling.v
theories/MemSpec.v
theories/MemProof.v
theories/PropMem.v
theories/UserEstimate.v
theories/PropUserMean.v
theories/UserLimit.v
theories/PropUserLimit.v
