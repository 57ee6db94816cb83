-Q theories Verif
theories/Model/Aggregate.v
theories/Model/ArrayFns.v
theories/Model/ArrayFns2.v
theories/Model/Backup.v
theories/Model/Batch.v
theories/Model/Benchmark.v
theories/Model/Checkpoint.v
theories/Model/CkFiles.v
theories/Model/Compact.v
theories/Model/Compression.v
theories/Model/Construct.v
theories/Model/Costs.v
theories/Model/Counting.v
theories/Model/Display.v
theories/Model/Elbow.v
theories/Model/EmpiricalRisk.v
theories/Model/Fed.v
theories/Model/Handlers.v
theories/Model/Heap.v
theories/Model/History.v
theories/Model/Indexing.v
theories/Model/InitGen.v
theories/Model/InitStates.v
theories/Model/Interop.v
theories/Model/LabelFlow.v
theories/Model/Lifecycle.v
theories/Model/LinearModel.v
theories/Model/Logging.v
theories/Model/Messages.v
theories/Model/Metrics.v
theories/Model/MetricsStore.v
theories/Model/Network.v
theories/Model/Noise.v
theories/Model/NovaObjects.v
theories/Model/Operators.v
theories/Model/P2P.v
theories/Model/P2PShared.v
theories/Model/P2PVR.v
theories/Model/Partition.v
theories/Model/PlotFiles.v
theories/Model/Plotter.v
theories/Model/Predict.v
theories/Model/Problems.v
theories/Model/Progress.v
theories/Model/PyDict.v
theories/Model/RandArrays.v
theories/Model/Rng.v
theories/Model/Runner.v
theories/Model/Runtime.v
theories/Model/Schemes.v
theories/Model/Solvers.v
theories/Model/TorchCost.v
theories/Model/Validate.v
theories/Model/Vec.v
theories/Model/Weights.v
theories/Proofs/AggregateFrames.v
theories/Proofs/AggregateProofs.v
theories/Proofs/AlgClient.v
theories/Proofs/BackupProofs.v
theories/Proofs/BatchProofs.v
theories/Proofs/BenchmarkProofs.v
theories/Proofs/BenchmarkResults.v
theories/Proofs/CheckpointExt.v
theories/Proofs/CheckpointFiles.v
theories/Proofs/CheckpointProofs.v
theories/Proofs/CheckpointRun.v
theories/Proofs/CkFilesProofs.v
theories/Proofs/CkFilesRefine.v
theories/Proofs/CompressionProofs.v
theories/Proofs/ConstructProofs.v
theories/Proofs/ConvADMM.v
theories/Proofs/ConvDGD.v
theories/Proofs/ConvDLM.v
theories/Proofs/ConvED.v
theories/Proofs/ConvEXTRA.v
theories/Proofs/ConvFed.v
theories/Proofs/ConvFed2.v
theories/Proofs/ConvGT.v
theories/Proofs/ConvMetropolis.v
theories/Proofs/ConvPS.v
theories/Proofs/ConvSolve.v
theories/Proofs/ConvStack.v
theories/Proofs/ConvWE.v
theories/Proofs/CostAnalysis.v
theories/Proofs/CostBuiltin.v
theories/Proofs/CostOk.v
theories/Proofs/CostProofs.v
theories/Proofs/CountX.v
theories/Proofs/CountingProofs.v
theories/Proofs/DisplayProofs.v
theories/Proofs/ElbowProofs.v
theories/Proofs/ElbowRate.v
theories/Proofs/ElbowSearch.v
theories/Proofs/EmpiricalAnalysis.v
theories/Proofs/EmpiricalProofs.v
theories/Proofs/EmpiricalRequests.v
theories/Proofs/FedDerived.v
theories/Proofs/FedDerived2.v
theories/Proofs/FedLock.v
theories/Proofs/FedReduce.v
theories/Proofs/FedRuns.v
theories/Proofs/FedRuns2.v
theories/Proofs/FedRuns3.v
theories/Proofs/FedRuns4.v
theories/Proofs/FedSelect.v
theories/Proofs/FedSteps.v
theories/Proofs/FedSteps2.v
theories/Proofs/HandlerProofs.v
theories/Proofs/HeapProofs.v
theories/Proofs/HistoryProofs.v
theories/Proofs/LabelFlowProofs.v
theories/Proofs/LabelQuantityProofs.v
theories/Proofs/LifecycleProofs.v
theories/Proofs/LoggingProofs.v
theories/Proofs/LogisticProofs.v
theories/Proofs/MessagesProofs.v
theories/Proofs/MetricsPipeline.v
theories/Proofs/MetricsProofs.v
theories/Proofs/NetMap.v
theories/Proofs/NetworkActive.v
theories/Proofs/NetworkInv.v
theories/Proofs/NetworkMore.v
theories/Proofs/NetworkProofs.v
theories/Proofs/NovaCoeff.v
theories/Proofs/NovaMom.v
theories/Proofs/P2PFixed.v
theories/Proofs/P2PLock.v
theories/Proofs/P2PMean.v
theories/Proofs/P2PRuns.v
theories/Proofs/P2PSharedProofs.v
theories/Proofs/P2PSharedRuns.v
theories/Proofs/P2PSharedSteps.v
theories/Proofs/P2PSharedSync.v
theories/Proofs/P2PSteps.v
theories/Proofs/P2PUnique.v
theories/Proofs/P2PVREst.v
theories/Proofs/P2PVRMore.v
theories/Proofs/P2PVRRuns.v
theories/Proofs/P2PVRSteps.v
theories/Proofs/PartitionProofs.v
theories/Proofs/PlotterProofs.v
theories/Proofs/PredictProofs.v
theories/Proofs/ProblemProofs.v
theories/Proofs/ProgressProofs.v
theories/Proofs/PyDictProofs.v
theories/Proofs/RngProofs.v
theories/Proofs/RunnerProofs.v
theories/Proofs/RuntimeProofs.v
theories/Proofs/SchemesProofs.v
theories/Proofs/SolverIter.v
theories/Proofs/SolverProx.v
theories/Proofs/SolverRates.v
theories/Proofs/SolverRun.v
theories/Proofs/SolverSolve.v
theories/Proofs/SortProofs.v
theories/Proofs/SplitProofs.v
theories/Proofs/TorchBatches.v
theories/Proofs/TorchCalls.v
theories/Proofs/TorchInv.v
theories/Proofs/TorchMax.v
theories/Proofs/TorchProofs.v
theories/Proofs/TorchTrain.v
theories/Proofs/ValidateMore.v
theories/Proofs/ValidateProofs.v
theories/Proofs/VecProofs.v
theories/Proofs/WeightsProofs.v
theories/Props/AggregateProps.v
theories/Props/AlgProps.v
theories/Props/ArrayFns2Props.v
theories/Props/ArrayFnsProps.v
theories/Props/BackupProps.v
theories/Props/BatchProps.v
theories/Props/BenchmarkProps.v
theories/Props/CheckpointProps.v
theories/Props/CkFilesProps.v
theories/Props/CompactProps.v
theories/Props/CompressionProps.v
theories/Props/ConstructProps.v
theories/Props/ConvDLMProps.v
theories/Props/ConvFedProps.v
theories/Props/ConvPSProps.v
theories/Props/ConvProps.v
theories/Props/CostProps.v
theories/Props/CountingProps.v
theories/Props/DisplayProps.v
theories/Props/ElbowProps.v
theories/Props/EmpiricalProps.v
theories/Props/EndFedProps.v
theories/Props/EndProps.v
theories/Props/FedProps.v
theories/Props/FedStepsProps.v
theories/Props/HandlerProps.v
theories/Props/HeapProps.v
theories/Props/HistoryProps.v
theories/Props/IndexingProps.v
theories/Props/InitGenProps.v
theories/Props/InitProps.v
theories/Props/InteropProps.v
theories/Props/LabelQuantityProps.v
theories/Props/LifecycleProps.v
theories/Props/LinearModelProps.v
theories/Props/LoggingProps.v
theories/Props/MessagesProps.v
theories/Props/MetricCountProps.v
theories/Props/MetricsProps.v
theories/Props/MetricsStoreProps.v
theories/Props/NetworkProps.v
theories/Props/NoiseProps.v
theories/Props/NovaCoeffProps.v
theories/Props/OperatorsProps.v
theories/Props/P2PProps.v
theories/Props/P2PSharedProps.v
theories/Props/P2PVRProps.v
theories/Props/PartitionProps.v
theories/Props/PlotFilesProps.v
theories/Props/PlotterProps.v
theories/Props/PredictProps.v
theories/Props/ProblemProps.v
theories/Props/ProgressProps.v
theories/Props/RandArraysProps.v
theories/Props/RngProps.v
theories/Props/RunnerProps.v
theories/Props/RuntimeProps.v
theories/Props/SchemesProps.v
theories/Props/SolverProps.v
theories/Props/TorchProps.v
theories/Props/ValidateProps.v
theories/Props/WeightsProps.v
theories/Spec/AggregateSpec.v
theories/Spec/AlgSpec.v
theories/Spec/ArrayFns2Spec.v
theories/Spec/ArrayFnsSpec.v
theories/Spec/BackupSpec.v
theories/Spec/BatchSpec.v
theories/Spec/BenchmarkSpec.v
theories/Spec/CheckpointSpec.v
theories/Spec/CkFilesSpec.v
theories/Spec/CompressionSpec.v
theories/Spec/ConstructSpec.v
theories/Spec/ConvSpec.v
theories/Spec/CostSpec.v
theories/Spec/CountSpec.v
theories/Spec/CountingSpec.v
theories/Spec/DisplaySpec.v
theories/Spec/ElbowSpec.v
theories/Spec/EmpiricalSpec.v
theories/Spec/EndSpec.v
theories/Spec/FedSpec.v
theories/Spec/FedStepsSpec.v
theories/Spec/HandlerSpec.v
theories/Spec/HeapSpec.v
theories/Spec/HistorySpec.v
theories/Spec/InitGenSpec.v
theories/Spec/InitSpec.v
theories/Spec/InteropSpec.v
theories/Spec/LifecycleSpec.v
theories/Spec/LinearModelSpec.v
theories/Spec/LoggingSpec.v
theories/Spec/MessagesSpec.v
theories/Spec/MetricsSpec.v
theories/Spec/MetricsStoreSpec.v
theories/Spec/NetworkSpec.v
theories/Spec/OperatorsSpec.v
theories/Spec/P2PSharedSpec.v
theories/Spec/P2PSpec.v
theories/Spec/P2PVRSpec.v
theories/Spec/PartitionSpec.v
theories/Spec/PlotFilesSpec.v
theories/Spec/PlotterSpec.v
theories/Spec/PredictSpec.v
theories/Spec/ProblemSpec.v
theories/Spec/ProgressSpec.v
theories/Spec/QueueSpec.v
theories/Spec/RandArraysSpec.v
theories/Spec/RngSpec.v
theories/Spec/RunnerSpec.v
theories/Spec/RuntimeSpec.v
theories/Spec/SchemesSpec.v
theories/Spec/SolverSpec.v
theories/Spec/TorchSpec.v
theories/Spec/ValidateSpec.v
theories/Spec/WeightsSpec.v
