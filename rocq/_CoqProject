-Q theories Verif
theories/Num.v
theories/NumB64.v
theories/NumPos.v
theories/F64Facts.v
theories/Base.v
theories/Spec.v
theories/Data.v
theories/Units.v
theories/Precond.v
theories/PrecondProofs.v
theories/MetricProofs.v
theories/Mst.v
theories/Par.v
theories/MstPar.v
theories/OneTree.v
theories/Rand.v
theories/Nn.v
theories/Matching.v
theories/Mem.v
theories/Points.v
theories/Christofides.v
theories/Spmd.v
theories/MatchingMpi.v
theories/Exact.v
theories/Threaded.v
theories/Mpi.v
theories/Cli.v
theories/SpecFacts.v
theories/Dfs.v
theories/Greedy.v
theories/PrimProofs.v
theories/ConvProofs.v
theories/MstParProofs.v
theories/PqProofs.v
theories/MstFacts.v
theories/OneTreeProofs.v
theories/OrderProofs.v
theories/PqExact.v
theories/NnProofs.v
theories/MatchingProofs.v
theories/EulerProofs.v
theories/FillProofs.v
theories/HamProofs.v
theories/ChristofidesProofs.v
theories/ExactProofs.v
theories/PermProofs.v
theories/NnExact.v
theories/MatchingExact.v
theories/SpmdProofs.v
theories/MatchingMpiProofs.v
theories/ChristofidesExact.v
theories/SlackProofs.v
theories/RatioProofs.v
theories/FourthProofs.v
theories/DigitsProofs.v
theories/SearchProofs.v
theories/Coverage.v
theories/CoverageAll.v
theories/ThreadedProofs.v
theories/MpiStatic.v
theories/MpiDynamic.v
theories/MpiProofs.v
theories/MpiChunks.v
theories/MpiDynRuns.v
theories/MpiExact.v
theories/Instances.v
theories/RoundProofs.v
theories/DriftProofs.v
theories/DriftSolvers.v
theories/FourthDrift.v
theories/DriftParallel.v
theories/PropExact.v
theories/PropMst.v
theories/PropThreaded.v
theories/PropMpi.v
theories/PropNn.v
theories/PropChristofides.v
theories/PointsProofs.v
theories/DistProofs.v
theories/PropData.v
theories/PropPoints.v
theories/PropCli.v
theories/PropRound.v
theories/PropRatio.v
theories/PropSpmd.v
theories/Generator.v
theories/GeneratorProofs.v
theories/PropGenerator.v
theories/PropCliRound.v
theories/PropDrift.v
theories/PropFactor.v
theories/PropFactorRound.v
theories/Machine.v
theories/MachineProofs.v
theories/PropMachine.v
theories/PropSmall.v
theories/PropEndings.v
theories/Text.v
theories/Utf8.v
theories/Xml.v
theories/TextSpec.v
theories/Utf8Proofs.v
theories/XmlProofs.v
theories/DecodeProofs.v
theories/GeneratorText.v
theories/GeneratorTextProofs.v
theories/Args.v
theories/ArgsSpec.v
theories/ArgsProofs.v
theories/TourLength.v
theories/PipelineProofs.v
theories/PropText.v
theories/PropUtf8.v
theories/BoundsProofs.v
theories/PropBounds.v
theories/TightProofs.v
theories/WorstProofs.v
theories/PropTight.v
theories/PropWorst.v
theories/F64Text.v
theories/F64TextProofs.v
theories/PropNumbers.v
theories/PropPipeline.v
theories/PyGen.v
theories/PyGenProofs.v
theories/PropPyGen.v
theories/Work.v
theories/WorkSpec.v
theories/WorkProofs.v
theories/PropWork.v
theories/PyNn.v
theories/PyNnSpec.v
theories/PyNnProofs.v
theories/PropPyNn.v
theories/DiagProofs.v
theories/PropDiag.v
theories/Work2.v
theories/Work2Spec.v
theories/Work2Proofs.v
theories/PropWork2.v
theories/RenameSpec.v
theories/RenameProofs.v
theories/PropRename.v
theories/ScaleSpec.v
theories/ScaleProofs.v
theories/ScaleChristofides.v
theories/ScaleMpi.v
theories/PropScale.v
theories/ChargeSpec.v
theories/ChargeProofs.v
theories/PropCharge.v
theories/StableSpec.v
theories/StableProofs.v
theories/PropStable.v
theories/DropSpec.v
theories/DropProofs.v
theories/PropDrop.v
theories/ReverseSpec.v
theories/ReverseProofs.v
theories/PropReverse.v
theories/RaggedSpec.v
theories/RaggedProofs.v
theories/PropRagged.v
theories/PropGraph.v
