-Q theories Verif
theories/AStarFast.v
theories/AStarModel.v
theories/AStarProofs.v
theories/AStarProps.v
theories/AStarSearch.v
theories/AStarSpec.v
theories/AStarStandard.v
theories/AStarStandardProps.v
theories/AefModel.v
theories/AefProofs.v
theories/AefProps.v
theories/AefSpec.v
theories/AlphaBetaSwapModel.v
theories/AlphaBetaSwapProofs.v
theories/AlphaBetaSwapProps.v
theories/AlphaBetaSwapSpec.v
theories/AlphaExpansionModel.v
theories/AlphaExpansionProofs.v
theories/AlphaExpansionProps.v
theories/AlphaExpansionSpec.v
theories/Base.v
theories/BruteforceModel.v
theories/BruteforceProps.v
theories/CombiCycle.v
theories/CombiLoop.v
theories/CombiModel.v
theories/CombiProofs.v
theories/CombiProps.v
theories/CombiSpec.v
theories/ConstraintCounts.v
theories/ConstraintFuncs.v
theories/ConstraintLabels.v
theories/ConstraintModel.v
theories/ConstraintProofs.v
theories/ConstraintProps.v
theories/ConstraintRound.v
theories/ConstraintSpec.v
theories/DecompBuild.v
theories/DecompComplete.v
theories/DecompFinal.v
theories/DecompForest.v
theories/DecompModel.v
theories/DecompProofs.v
theories/DecompProps.v
theories/DecompReorder.v
theories/DecompSpec.v
theories/DecompTree.v
theories/DisjointSetModel.v
theories/DisjointSetProofs.v
theories/DisjointSetProps.v
theories/DmcModel.v
theories/DmcProofs.v
theories/DmcProps.v
theories/DmcRun.v
theories/DmcSpec.v
theories/DmcSub.v
theories/DpInfer.v
theories/DpModel.v
theories/DpNodeModel.v
theories/DpNodeProofs.v
theories/DpNodeProps.v
theories/DpNodeTree.v
theories/DpOrder.v
theories/DpProofs.v
theories/DpProps.v
theories/DpSpec.v
theories/DualDecompBounds.v
theories/DualDecompConv.v
theories/DualDecompInv.v
theories/DualDecompModel.v
theories/DualDecompProofs.v
theories/DualDecompProps.v
theories/DualDecompRun.v
theories/DualDecompSpec.v
theories/DualDecompStep.v
theories/FactorGraphAcyclic.v
theories/FactorGraphChain.v
theories/FactorGraphConnected.v
theories/FactorGraphModel.v
theories/FactorGraphProofs.v
theories/FactorGraphProps.v
theories/FactorGraphSpec.v
theories/FactorNormProps.v
theories/FactorOpsAcc.v
theories/FactorOpsIndep.v
theories/FactorOpsInplace.v
theories/FactorOpsModel.v
theories/FactorOpsProofs.v
theories/FactorOpsProps.v
theories/FactorOpsSpec.v
theories/FactorOpsTables.v
theories/FbiCyclic.v
theories/FbiModel.v
theories/FbiProofs.v
theories/FbiProps.v
theories/FbiSpec.v
theories/FmModel.v
theories/FmProofs.v
theories/FmProps.v
theories/FmSpec.v
theories/FunctionBaseModel.v
theories/FunctionBaseProofs.v
theories/FunctionBaseProps.v
theories/FunctionPredicateProps.v
theories/FunctionViewsModel.v
theories/FunctionViewsProps.v
theories/FunctionsModel.v
theories/FunctionsProofs.v
theories/FunctionsProps.v
theories/FunctionsSpec.v
theories/FuseModel.v
theories/FuseMoves.v
theories/FuseProofs.v
theories/FuseProps.v
theories/FuseSpec.v
theories/GgModel.v
theories/GgProofs.v
theories/GgProps.v
theories/GgSpec.v
theories/GibbsModel.v
theories/GibbsProofs.v
theories/GibbsProps.v
theories/GibbsSpec.v
theories/GmModel.v
theories/GmProofs.v
theories/GmProps.v
theories/GmSpec.v
theories/GmView.v
theories/GmViewProofs.v
theories/GmViewProps.v
theories/GmViewSpec.v
theories/GraphCutModel.v
theories/GraphCutProofs.v
theories/GraphCutProps.v
theories/GraphCutSpec.v
theories/Hdf5Model.v
theories/Hdf5Proofs.v
theories/Hdf5Props.v
theories/Hdf5Spec.v
theories/HoeElim.v
theories/HoeModel.v
theories/HoeProofs.v
theories/HoeProps.v
theories/HoeReduce.v
theories/HoeSpec.v
theories/HqpboModel.v
theories/IafModel.v
theories/IafProps.v
theories/IafSpec.v
theories/IcmModel.v
theories/IcmProofs.v
theories/IcmProps.v
theories/IcmSpec.v
theories/IndexingModel.v
theories/IndexingProofs.v
theories/IndexingProps.v
theories/LazyFlipperEnum.v
theories/LazyFlipperForest.v
theories/LazyFlipperLoops.v
theories/LazyFlipperModel.v
theories/LazyFlipperProofs.v
theories/LazyFlipperProps.v
theories/LazyFlipperSets.v
theories/LazyFlipperSpec.v
theories/LearnBuild.v
theories/LearnModel.v
theories/LearnProofs.v
theories/LearnProps.v
theories/LearnSpec.v
theories/LpbModel.v
theories/LpbProofs.v
theories/LpbProps.v
theories/LpbSpec.v
theories/LpcModel.v
theories/LpcPoint.v
theories/LpcProofs.v
theories/LpcProps.v
theories/LpcSpec.v
theories/LpcUse.v
theories/LprArc.v
theories/LprImm.v
theories/LprModel.v
theories/LprProofs.v
theories/LprProps.v
theories/LprSerial.v
theories/LprSpec.v
theories/ManipulatorExpand.v
theories/ManipulatorModel.v
theories/ManipulatorProofs.v
theories/ManipulatorProps.v
theories/ManipulatorRep.v
theories/ManipulatorSpec.v
theories/ManipulatorSubs.v
theories/MarrayIter.v
theories/MarrayMem.v
theories/MarrayModel.v
theories/MarrayOps.v
theories/MarrayProofs.v
theories/MarrayProps.v
theories/MarrayResize.v
theories/MarraySpec.v
theories/ModeLabel.v
theories/ModeModel.v
theories/ModeProofs.v
theories/ModeProps.v
theories/ModeRun.v
theories/ModeSelect.v
theories/ModeSpec.v
theories/ModeTree.v
theories/MovemakerModel.v
theories/MovemakerProofs.v
theories/MovemakerProps.v
theories/MovemakerSearch.v
theories/MovemakerSpec.v
theories/MpGraph.v
theories/MpInfer.v
theories/MpMessages.v
theories/MpModel.v
theories/MpProps.v
theories/MpRounds.v
theories/MpRoundsProps.v
theories/MpRoundsRun.v
theories/MpRun.v
theories/MpSchedule.v
theories/MpSend.v
theories/MpSpec.v
theories/MpState.v
theories/MpSum.v
theories/MpTables.v
theories/MtModel.v
theories/MtProofs.v
theories/MtProps.v
theories/MtSpec.v
theories/OperationsModel.v
theories/OperationsProps.v
theories/OperationsRealProps.v
theories/PartitionModel.v
theories/PartitionProofs.v
theories/PartitionProps.v
theories/PartitionsModel.v
theories/PartitionsProofs.v
theories/PartitionsProps.v
theories/PartitionsSpec.v
theories/PmGraph.v
theories/PmInit.v
theories/PmModel.v
theories/PmProofs.v
theories/PmProps.v
theories/PmRun.v
theories/PmSpec.v
theories/PottsGModel.v
theories/PottsGProofs.v
theories/PottsGProps.v
theories/QueuesModel.v
theories/QueuesProofs.v
theories/QueuesProps.v
theories/QueuesSpec.v
theories/RandomAccessSetModel.v
theories/RandomAccessSetProofs.v
theories/RandomAccessSetProps.v
theories/RandomAccessSetSpec.v
theories/RedInfer.v
theories/RedModel.v
theories/RedProofs.v
theories/RedProps.v
theories/RedSpec.v
theories/SatModel.v
theories/SatProofs.v
theories/SatProps.v
theories/SatSpec.v
theories/SequencesBuffer.v
theories/SequencesFast.v
theories/SequencesModel.v
theories/SequencesProofs.v
theories/SequencesProps.v
theories/SequencesSpec.v
theories/SfModel.v
theories/SfProofs.v
theories/SfProps.v
theories/SfSpec.v
theories/ShapeProofs.v
theories/ShapeSpec.v
theories/SoftConstraintProps.v
theories/SpacesModel.v
theories/SpacesProps.v
theories/SrModel.v
theories/SrProps.v
theories/StModel.v
theories/StProps.v
theories/SubmodelModel.v
theories/SubmodelProps.v
theories/SwEdge.v
theories/SwModel.v
theories/SwProofs.v
theories/SwProps.v
theories/SwShare.v
theories/SwSpec.v
theories/TdGrid.v
theories/TdModel.v
theories/TdProofs.v
theories/TdProps.v
theories/TdSpec.v
theories/TentacleComp.v
theories/TentacleElim.v
theories/TentacleGmt.v
theories/TentacleLock.v
theories/TentacleLoop.v
theories/TentacleModel.v
theories/TentaclePeel.v
theories/TentacleProps.v
theories/TentacleRun.v
theories/TentacleSim.v
theories/TentacleSpec.v
theories/TentacleTree.v
theories/TentacleUse.v
theories/TentacleUseSpec.v
theories/TsModel.v
theories/TsProofs.v
theories/TsProps.v
theories/TsSpec.v
theories/TsStore.v
theories/TvModel.v
theories/TvProofs.v
theories/TvProps.v
theories/TvSpec.v
theories/UnionFind.v
theories/UpModel.v
theories/UpProps.v
theories/UtilModel.v
theories/UtilProps.v
theories/Values.v
