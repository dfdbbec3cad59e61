-Q theories Verif
theories/Base.v
theories/BaseProofs.v
theories/QSpec.v
theories/PauliModel.v
theories/PauliSem.v
theories/PauliProofs.v
theories/PauliAlg.v
theories/TableauProofs.v
theories/MeasureProofs.v
theories/CircuitModel.v
theories/StateProofs.v
theories/StateSpec.v
theories/GateProofs.v
theories/Props_Pauli.v
theories/CircuitSpec.v
theories/CircuitProofs.v
theories/SimModel.v
theories/SimSpec.v
theories/SimProofs.v
theories/RunProofs.v
theories/CountProofs.v
theories/QasmModel.v
theories/QasmSpec.v
theories/QasmProofs.v
theories/Props_Circuit.v
theories/PauliTextModel.v
theories/PauliTextSpec.v
theories/PauliTextProofs.v
theories/TensorProofs.v
theories/StateTextProofs.v
theories/Props_PauliText.v
theories/StimModel.v
theories/StimSpec.v
theories/StimProofs.v
theories/StimSem.v
theories/StimSemProofs.v
theories/Props_Stim.v
theories/LatticeModel.v
theories/CodesModel.v
theories/LatticeSpec.v
theories/LatticeProofs.v
theories/LatticeEdit.v
theories/LatticeOps.v
theories/LatticeMerge.v
theories/LatticeFab.v
theories/LatticeRows.v
theories/Props_Lattice.v
theories/CodesSpec.v
theories/BuildProofs.v
theories/CodesProofs.v
theories/PlanarProofs.v
theories/ToricProofs.v
theories/RotatedProofs.v
theories/RepetitionProofs.v
theories/ScheduleProofs.v
theories/ScheduleToric.v
theories/ScheduleRotated.v
theories/Props_Codes.v
theories/GeneratorModel.v
theories/StabTrack.v
theories/RoundProofs.v
theories/MemoryProofs.v
theories/GeneratorProofs.v
theories/GeneratorSpec.v
theories/GeneratorSem.v
theories/UnpackProofs.v
theories/MemorySem.v
theories/UnpackLayout.v
theories/MemoryTotal.v
theories/ParallelProofs.v
theories/ExperimentProofs.v
theories/ExperimentCodes.v
theories/FromOperators.v
theories/Props_Generator.v
theories/GraphSpec.v
theories/GraphProofs.v
theories/GraphComponents.v
theories/ErasureModel.v
theories/ErasureProofs.v
theories/ErasurePeel.v
theories/ErasureForest.v
theories/Props_Erasure.v
theories/UnionFindModel.v
theories/UnionFindTree.v
theories/UnionFindInv.v
theories/UnionFindOps.v
theories/UnionFindInit.v
theories/UnionFindStep.v
theories/UnionFindFinal.v
theories/Props_UnionFind.v
theories/SyngraphModel.v
theories/SyngraphBuild.v
theories/SyngraphDup.v
theories/SyngraphComp.v
theories/SyngraphObjs.v
theories/SyngraphProofs.v
theories/SyngraphErrors.v
theories/SyngraphOps.v
theories/SyngraphFinal.v
theories/Props_Syngraph.v
theories/DecoderSpec.v
theories/DecoderModel.v
theories/DecoderProofs.v
theories/DecoderObjects.v
theories/DecoderHistory.v
theories/DecoderCheck.v
theories/GraphlikeCodes.v
theories/Props_Decoder.v
theories/WeightsModel.v
theories/WeightsSpec.v
theories/WeightsProofs.v
theories/LogWeights.v
theories/Props_Weights.v
theories/Props_CodeEq.v
theories/TablesModel.v
theories/TablesSpec.v
theories/TablesProofs.v
theories/TablesQubits.v
theories/TablesLattice.v
theories/Props_Tables.v
theories/Props_GateConfig.v
theories/UnionFindMetric.v
theories/UnionFindGrowth.v
theories/UnionFindDistance.v
theories/GraphCuts.v
theories/Props_UnionFindDistance.v
theories/FaultSpec.v
theories/DecoderDistance.v
theories/DecoderFaults.v
theories/DecoderEven.v
theories/Props_DecoderDistance.v
theories/CodeDistance.v
theories/CodeDistanceToric.v
theories/CodeDistanceRotated.v
theories/CodeDistanceSmall.v
theories/Props_CodeDistance.v
theories/MatchingModel.v
theories/MatchingSpec.v
theories/MatchingComp.v
theories/MatchingProofs.v
theories/MatchingGraph.v
theories/MatchingDecode.v
theories/MatchingMain.v
theories/MatchingBrute.v
theories/Props_Matching.v
theories/PtraceModel.v
theories/PtraceSpec.v
theories/DestabProofs.v
theories/PtraceProofs.v
theories/Props_Ptrace.v
theories/FrontendModel.v
theories/FrontendSpec.v
theories/FrontendProofs.v
theories/FrontendConf.v
theories/FrontendSchema.v
theories/Props_Frontend.v
theories/InstantiateModel.v
theories/InstantiateSpec.v
theories/InstantiateTable.v
theories/InstantiateGates.v
theories/InstantiateRun.v
theories/InstantiateBuild.v
theories/Props_Instantiate.v
theories/GroupSpec.v
theories/GroupAlg.v
theories/GroupCodes.v
theories/GroupLattices.v
theories/GroupSmall.v
theories/Props_Group.v
theories/DistSpec.v
theories/DistMean.v
theories/DistSim.v
theories/Props_Dist.v
theories/HistorySpec.v
theories/HistoryPaths.v
theories/HistorySums.v
theories/HistoryChain.v
theories/HistoryExp.v
theories/HistoryShow.v
theories/HistoryTotal.v
theories/Props_History.v
theories/RateSpec.v
theories/RateProofs.v
theories/Props_Rate.v
theories/StatsModel.v
theories/Props_Stats.v
theories/StepModel.v
theories/Props_Step.v
theories/CsvModel.v
theories/Props_Csv.v
theories/ApplyModel.v
theories/Props_Apply.v
theories/VisualModel.v
theories/Props_Visual.v
theories/FrameSpec.v
theories/FrameProofs.v
theories/FrameMemory.v
theories/FrameDetect.v
theories/Props_Frame.v
theories/GateRuns.v
theories/GateHistory.v
theories/Props_GateHistory.v
theories/SplitModel.v
theories/SplitProofs.v
theories/Props_Split.v
theories/GateShots.v
theories/GateBuild.v
theories/Props_GateShots.v
theories/AloneModel.v
theories/AloneSpec.v
theories/AloneProofs.v
theories/Props_Alone.v
theories/ChooseModel.v
theories/ChooseProofs.v
theories/GrowthFree.v
theories/ChooseWeights.v
theories/ChooseLeast.v
theories/Props_Choose.v
theories/ScaleModel.v
theories/ScaleProofs.v
theories/Props_Scale.v
theories/CacheModel.v
theories/CacheProofs.v
theories/Props_Cache.v
theories/QubitFileModel.v
theories/QubitFileProofs.v
theories/Props_QubitFile.v
theories/OverwriteModel.v
theories/OverwriteProofs.v
theories/Props_Overwrite.v
theories/SaveModel.v
theories/SaveProofs.v
theories/Props_Save.v
theories/EmptyFileModel.v
theories/Props_EmptyFile.v
