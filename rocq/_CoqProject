-Q theories Verif
theories/CNum.v
theories/Base.v
theories/ScalarModel.v
theories/ScalarProofs.v
theories/GraphModel.v
theories/GraphSem.v
theories/SumLemmas.v
theories/GraphProofs.v
theories/GraphOps.v
theories/RulesModel.v
theories/RuleLemmas.v
theories/SpiderProofs.v
theories/IsoProofs.v
theories/IdProofs.v
theories/LcompProofs.v
theories/PivotProofs.v
theories/GrowProofs.v
theories/PivotMatch.v
theories/GadgetProofs.v
theories/SimpModel.v
theories/ColorProofs.v
theories/SimpProofs.v
theories/StoreProofs.v
theories/PiIrr.v
theories/PairProofs.v
theories/Decide.v
theories/RunEx.v
theories/TermProofs.v
theories/RuleShape.v
theories/InvProofs.v
theories/RoundProofs.v
theories/BfixProofs.v
theories/TotalProofs.v
theories/ZXFacts.v
theories/IsoExact.v
theories/GrowTotal.v
theories/FullTotal.v
theories/RedFacts.v
theories/PropsZX.v
theories/PropsRed.v
theories/LinModel.v
theories/LinProofs.v
theories/LinAlg.v
theories/LinRank.v
theories/LinUse.v
theories/LinFacts.v
theories/PermModel.v
theories/PermProofs.v
theories/PropsLin.v
theories/GreedyModel.v
theories/GreedyProofs.v
theories/GreedyFacts.v
theories/PropsGreedy.v
theories/GateModel.v
theories/CircSpec.v
theories/GateProofs.v
theories/GateDecomp.v
theories/GateAdj.v
theories/GateMask.v
theories/DepthProofs.v
theories/PropsCirc.v
theories/CircGraphModel.v
theories/AmpProofs.v
theories/CircGraphProofs.v
theories/CircGraphFacts.v
theories/VerifyModel.v
theories/VerifyProofs.v
theories/PropsConv.v
theories/GraphAlgModel.v
theories/GraphAlgProofs.v
theories/GraphAlgFacts.v
theories/ComposeProofs.v
theories/ComposeFacts.v
theories/ApplyProofs.v
theories/AlgUse.v
theories/PropsAlg.v
theories/TrackModel.v
theories/TrackProofs.v
theories/PropsTrack.v
theories/GflowModel.v
theories/GflowProofs.v
theories/PropsFlow.v
theories/ExtractModel.v
theories/ExtractSem.v
theories/ExtractMap.v
theories/ExtractClean.v
theories/ExtractCz.v
theories/ExtractFront.v
theories/ExtractNbrs.v
theories/ExtractCnot.v
theories/ExtractTake.v
theories/ExtractPivot.v
theories/ExtractRound.v
theories/ExtractFinish.v
theories/ExtractKeys.v
theories/ExtractFacts.v
theories/ExtractEx.v
theories/PropsExtract.v
theories/TidyModel.v
theories/TidySub.v
theories/TidyProofs.v
theories/TidyLoop.v
theories/TidyFacts.v
theories/UnfuseProofs.v
theories/NumProofs.v
theories/PropsTidy.v
theories/CopyProofs.v
theories/CopyFacts.v
theories/PropsCopy.v
theories/SuppProofs.v
theories/SuppFacts.v
theories/PropsSupp.v
theories/DiffModel.v
theories/DiffProofs.v
theories/PropsDiff.v
theories/SymModel.v
theories/SymProofs.v
theories/SymFacts.v
theories/PropsSym.v
theories/StrModel.v
theories/StrProofs.v
theories/PropsStr.v
theories/MultiModel.v
theories/MultiProofs.v
theories/MultiFacts.v
theories/MultiList.v
theories/MultiEx.v
theories/PropsMulti.v
theories/AliasModel.v
theories/AliasProofs.v
theories/AliasFacts.v
theories/AliasEx.v
theories/PropsAlias.v
theories/MagicModel.v
theories/MagicAlg.v
theories/MagicProofs.v
theories/MagicFacts.v
theories/MagicSum.v
theories/MagicEx.v
theories/PropsMagic.v
theories/TCount.v
theories/TCountRules.v
theories/SimuModel.v
theories/TCountFacts.v
theories/PropsTCount.v
theories/PgPsep.v
theories/ReduceScalar.v
theories/StabProofs.v
theories/StabEx.v
theories/PropsStab.v
theories/OptModel.v
theories/OptTrace.v
theories/OptSem.v
theories/OptInv.v
theories/OptStep.v
theories/OptParse.v
theories/OptSort.v
theories/OptProofs.v
theories/PropsOpt.v
theories/TensorModel.v
theories/TensorNp.v
theories/TensorSpider.v
theories/TensorPos.v
theories/TensorForm.v
theories/TensorStep.v
theories/TensorProofs.v
theories/TensorOps.v
theories/TensorUse.v
theories/CircTensorModel.v
theories/CircTensor.v
theories/PropsTensor.v
theories/BasicRulesModel.v
theories/BasicColor.v
theories/BasicFuse.v
theories/BasicPi.v
theories/StrongComp.v
theories/BasicCopy.v
theories/BasicEx.v
theories/PropsBasic.v
theories/ToddModel.v
theories/ToddSig.v
theories/ToddPoly.v
theories/ToddNet.v
theories/ToddSem.v
theories/ToddProofs.v
theories/ToddCases.v
theories/PropsTodd.v
theories/BlockModel.v
theories/BlockLane.v
theories/BlockTab.v
theories/BlockGreedy.v
theories/BlockLoop.v
theories/BlockProofs.v
theories/OptCount.v
theories/BlockOpt.v
theories/PropsBlock.v
theories/BackModel.v
theories/BackSem.v
theories/BackProofs.v
theories/BackRound.v
theories/BackNorm.v
theories/BackPhase.v
theories/PropsBack.v
theories/RouteModel.v
theories/RouteProofs.v
theories/RouteTree.v
theories/RouteEch.v
theories/RouteFW.v
theories/RouteTotal.v
theories/RouteExamples.v
theories/PropsRoute.v
theories/Bialg.v
theories/BialgLoop.v
theories/BialgEx.v
theories/PropsBialg.v
theories/CongModel.v
theories/CongProofs.v
theories/CongPivot.v
theories/CongEx.v
theories/PropsCong.v
theories/GadgetizeModel.v
theories/GadgetizeProofs.v
theories/MbqcModel.v
theories/MbqcProofs.v
theories/MbqcPauli.v
theories/MbqcEx.v
theories/PropsMbqc.v
theories/ClusterModel.v
theories/ClusterProofs.v
theories/ClusterEnd.v
theories/PropsCluster.v
