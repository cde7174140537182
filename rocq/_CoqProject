-Q theories Verif
theories/Base.v
theories/ListFacts.v
theories/IndexModel.v
theories/IndexSpec.v
theories/IndexProofs.v
theories/IndexProps.v
theories/GridModel.v
theories/GridSpec.v
theories/GridProofs.v
theories/GridProps.v
theories/HilbertModel.v
theories/HilbertSpec.v
theories/HilbertProofs.v
theories/HilbertProps.v
theories/MortonModel.v
theories/MortonProofs.v
theories/MortonProps.v
theories/PartitionModel.v
theories/PartitionSpec.v
theories/PartitionProofs.v
theories/DistributeProofs.v
theories/PartitionProps.v
theories/GroupModel.v
theories/GroupSpec.v
theories/GroupProofs.v
theories/GroupProps.v
theories/ChunkModel.v
theories/ChunkSpec.v
theories/ChunkProofs.v
theories/ChunkProps.v
theories/ForEachModel.v
theories/ForEachSpec.v
theories/ForEachProofs.v
theories/ForEachProps.v
theories/ArrayRefModel.v
theories/ArrayRefProps.v
theories/ReduceModel.v
theories/ReduceSpec.v
theories/ReduceProofs.v
theories/ReduceProps.v
theories/EdgeGroupModel.v
theories/EdgeGroupSpec.v
theories/EdgeGroupProofs.v
theories/EdgeGroupProps.v
theories/BufferModel.v
theories/BufferSpec.v
theories/BufferProofs.v
theories/BufferProps.v
theories/ViewSetModel.v
theories/ViewSetSpec.v
theories/ViewSetProofs.v
theories/ViewSetProps.v
theories/TreeModel.v
theories/TreeFacts.v
theories/LookupModel.v
theories/LookupSpec.v
theories/LookupProofs.v
theories/LookupProps.v
theories/RefineModel.v
theories/RefineSpec.v
theories/RefineProofs.v
theories/RefineProofs2.v
theories/RefineProps.v
theories/CompressModel.v
theories/CompressSpec.v
theories/CompressProofs.v
theories/ExtractProofs.v
theories/CompressProps.v
theories/PruneModel.v
theories/PruneProofs.v
theories/PruneProps.v
theories/ArrayModel.v
theories/ArraySpec.v
theories/ArrayProofs.v
theories/ArrayProps.v
theories/MergeModel.v
theories/MergeSpec.v
theories/MergeProofs.v
theories/MergeProps.v
theories/GateModel.v
theories/GateSpec.v
theories/GateProofs.v
theories/GateProps.v
theories/GeomModel.v
theories/GeomSpec.v
theories/GeomProofs.v
theories/GeomProps.v
theories/TraceModel.v
theories/TraceSpec.v
theories/TraceProofs.v
theories/TraceProps.v
theories/DagModel.v
theories/MethodModel.v
theories/DagSpec.v
theories/DagProofs.v
theories/DagPaths.v
theories/DagExec.v
theories/DagSound.v
theories/MethodProofs.v
theories/MethodTasks.v
theories/MethodSound.v
theories/DirectBHProofs.v
theories/FmmProofs.v
theories/Fmm97Proofs.v
theories/DagOrder.v
theories/MethodProps.v
theories/MergeShiftModel.v
theories/MergeShiftSpec.v
theories/MergeShiftProofs.v
theories/MergeShiftProps.v
theories/LinkModel.v
theories/LinkSpec.v
theories/LinkProofs.v
theories/LinkProps.v
theories/EvalModel.v
theories/EvalSpec.v
theories/EvalProofs.v
theories/EvalValues.v
theories/EvalProps.v
theories/MacModel.v
theories/MacSpec.v
theories/MacProofs.v
theories/MacProps.v
theories/ComModel.v
theories/ComSpec.v
theories/ComProofs.v
theories/ComTaylor.v
theories/ComProps.v
theories/DistroModel.v
theories/DistroSpec.v
theories/DistroChoose.v
theories/DistroProofs.v
theories/DistroRun.v
theories/DistroProps.v
theories/MessageModel.v
theories/MessageSpec.v
theories/MessageProofs.v
theories/MessageProps.v
theories/ExchangeModel.v
theories/ExchangeSpec.v
theories/ExchangeProofs.v
theories/ExchangeProps.v
theories/BuildModel.v
theories/BuildSpec.v
theories/BuildProofs.v
theories/BuildProps.v
theories/LifeModel.v
theories/LifeSpec.v
theories/LifeProofs.v
theories/LifeProps.v
theories/DoubleModel.v
theories/DoubleSpec.v
theories/DoubleProofs.v
theories/DoubleProps.v
theories/StopsProofs.v
theories/ListsSpec.v
theories/ListsProofs.v
theories/ListsCount.v
theories/ListsProps.v
theories/LegSpec.v
theories/LegProofs.v
theories/LegAdd.v
theories/LegGen.v
theories/LapModel.v
theories/LapSpec.v
theories/LapArrays.v
theories/LapProofs.v
theories/LapProps.v
theories/SolidProofs.v
theories/SolidAdd.v
theories/SolidPair.v
theories/SolidTrans.v
theories/SolidMtl.v
theories/TranModel.v
theories/TranArrays.v
theories/TranWigner.v
theories/TranDmat.v
theories/TranTable.v
theories/TranOps.v
theories/TranField.v
theories/TranMove.v
theories/TranMtl.v
theories/TranEval.v
theories/TranSpec.v
theories/TranProofs.v
theories/TranProps.v
theories/PotModel.v
theories/PotSpec.v
theories/PotFacts.v
theories/PotBoxes.v
theories/PotUp.v
theories/PotProofs.v
theories/PotOther.v
theories/PotProps.v
theories/WaveModel.v
theories/WaveSpec.v
theories/WaveAlg.v
theories/WaveTab.v
theories/WaveUp.v
theories/WaveFrom.v
theories/WaveShift.v
theories/WaveInto.v
theories/WaveChain.v
theories/WaveProps.v
theories/Pot97Model.v
theories/Pot97Spec.v
theories/Pot97Facts.v
theories/Pot97Waves.v
theories/Pot97Bound.v
theories/Pot97Proofs.v
theories/Pot97Props.v
theories/WholeModel.v
theories/WholeSpec.v
theories/WholeGrow.v
theories/WholeProofs.v
theories/WholeDone.v
theories/WholeProps.v
theories/RunModel.v
theories/RunSpec.v
theories/RunProofs.v
theories/RunTrees.v
theories/RunExist.v
theories/RunProps.v
theories/AccModel.v
theories/AccSpec.v
theories/AccProofs.v
theories/AccGradient.v
theories/AccProps.v
theories/BesselSpec.v
theories/BesselProofs.v
theories/BesselAdd.v
theories/YukModel.v
theories/YukSpec.v
theories/YukBessel.v
theories/YukProofs.v
theories/YukProps.v
theories/BhOwnProofs.v
theories/BhOwnProps.v
theories/OscSpec.v
theories/OscProofs.v
theories/OscAdd.v
theories/HelmModel.v
theories/HelmSpec.v
theories/HelmBessel.v
theories/HelmPair.v
theories/HelmProofs.v
theories/HelmExp.v
theories/HelmSmall.v
theories/HelmProps.v
theories/QuadBall.v
theories/QuadFun.v
theories/QuadCell.v
theories/QuadGrid.v
theories/QuadTab.v
theories/QuadRun.v
theories/QuadSum.v
theories/QuadPoint.v
theories/QuadProps.v
theories/QuadTail.v
theories/QuadCut.v
theories/QuadEps.v
theories/Quad97Props.v
theories/ReadModel.v
theories/ReadSpec.v
theories/ReadProofs.v
theories/ReadTrace.v
theories/ReadLoad.v
theories/ReadProps.v
theories/BesInModel.v
theories/BesInMath.v
theories/BesInStart.v
theories/BesInRecur.v
theories/BesInProofs.v
theories/BesInProps.v
theories/ComRunModel.v
theories/ComRunMath.v
theories/ComRunProofs.v
theories/ComRunProps.v
theories/FieldRunModel.v
theories/FieldRunSpec.v
theories/FieldRunProofs.v
theories/FieldRunProps.v
theories/AccMath.v
theories/AccRunProofs.v
theories/AccRunProps.v
theories/DbModel.v
theories/DbSpec.v
theories/DbProofs.v
theories/DbLoops.v
theories/DbContents.v
theories/DbLoaded.v
theories/DbProps.v
theories/PlotModel.v
theories/PlotSpec.v
theories/PlotTimes.v
theories/PlotProofs.v
theories/PlotPicture.v
theories/PlotProps.v
theories/StepModel.v
theories/StepSpec.v
theories/StepProofs.v
theories/StepProps.v
theories/CountModel.v
theories/CountSpec.v
theories/CountProofs.v
theories/CountProps.v
theories/RankwiseModel.v
theories/RankwiseSpec.v
theories/RankwiseProofs.v
theories/RankwiseProps.v
theories/TablesModel.v
theories/TablesSpec.v
theories/TablesProofs.v
theories/TablesProps.v
theories/ToolsModel.v
theories/ToolsSpec.v
theories/ToolsProofs.v
theories/ToolsProps.v
theories/BasicModel.v
theories/BasicSpec.v
theories/BasicProofs.v
theories/BasicProps.v
theories/HoldModel.v
theories/HoldSpec.v
theories/HoldProofs.v
theories/HoldProps.v
theories/LcoModel.v
theories/LcoSpec.v
theories/LcoProofs.v
theories/LcoProps.v
theories/MakeModel.v
theories/MakeSpec.v
theories/MakeProofs.v
theories/MakeProps.v
theories/FitModel.v
theories/FitSpec.v
theories/FitProofs.v
theories/FitProps.v
