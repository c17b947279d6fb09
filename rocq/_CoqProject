-Q theories Verif
theories/Model/Base.v
theories/Model/Num.v
theories/Model/OMap.v
theories/Model/AssembledConnections.v
theories/Model/Tarjan.v
theories/Model/TarjanAlloc.v
theories/Model/TarjanStrict.v
theories/Model/Containers.v
theories/Model/Solution.v
theories/Model/TracerTofSolver.v
theories/Model/Toolbox.v
theories/Model/ToolboxObjects.v
theories/Model/SolverStats.v
theories/Model/DerivedQuantities.v
theories/Model/RandomVector.v
theories/Model/Random.v
theories/Spec/GraphSpec.v
theories/Proofs/Util.v
theories/Proofs/BucketSort.v
theories/Proofs/Csr.v
theories/Proofs/CsrCreate.v
theories/Proofs/AConn.v
theories/Proofs/ExactNum.v
theories/Proofs/GraphProps.v
theories/Props/Conformance.v
theories/Props/Graph.v
theories/Spec/ContainerSpec.v
theories/Proofs/OMapFacts.v
theories/Proofs/ContainerProps.v
theories/Spec/SccSpec.v
theories/Spec/TarjanSpec.v
theories/Spec/TarjanMemSpec.v
theories/Proofs/TarjanAbs.v
theories/Proofs/TarjanSim.v
theories/Proofs/TarjanProps.v
theories/Proofs/TarjanRev.v
theories/Proofs/TarjanMem.v
theories/Proofs/TarjanTop.v
theories/Props/Containers.v
theories/Props/Tarjan.v
theories/Spec/DerivedSpec.v
theories/Spec/PairSpec.v
theories/Spec/FlowSpec.v
theories/Spec/ToolboxSpec.v
theories/Spec/SolverSpec.v
theories/Spec/MirrorSpec.v
theories/Proofs/QcLra.v
theories/Proofs/OrdLaws.v
theories/Proofs/B64Bridge.v
theories/Proofs/B64Laws.v
theories/Proofs/DerivedOrd.v
theories/Proofs/DerivedExact.v
theories/Proofs/DerivedLorenz.v
theories/Proofs/DerivedLink.v
theories/Proofs/DerivedMisc.v
theories/Proofs/DerivedTop.v
theories/Proofs/SolverBase.v
theories/Proofs/SolverRun.v
theories/Proofs/SolverTop.v
theories/Proofs/SolverGen.v
theories/Proofs/SolverOrd.v
theories/Proofs/TofRange.v
theories/Proofs/TofLaws.v
theories/Proofs/ToolboxState.v
theories/Proofs/ToolboxRates.v
theories/Proofs/ToolboxFlow.v
theories/Proofs/ToolboxVal.v
theories/Proofs/ToolboxSane.v
theories/Proofs/OppLaws.v
theories/Proofs/ToolboxThms.v
theories/Proofs/ToolboxPose.v
theories/Proofs/SolverProps.v
theories/Proofs/GaussSeidel.v
theories/Proofs/ExactRun.v
theories/Proofs/SolverApi.v
theories/Proofs/ToolboxExact.v
theories/Proofs/Mirror.v
theories/Proofs/Duality.v
theories/Proofs/Balance.v
theories/Props/Derived.v
theories/Props/Solver.v
theories/Props/Balance.v
theories/Props/Toolbox.v
theories/Props/Duality.v
theories/Spec/SameFlowSpec.v
theories/Spec/AcyclicSpec.v
theories/Spec/MonotoneSpec.v
theories/Spec/GiniSpec.v
theories/Spec/StatsSpec.v
theories/Proofs/SameFlow.v
theories/Proofs/Scaling.v
theories/Proofs/Acyclic.v
theories/Proofs/Renumber.v
theories/Props/SameFlow.v
theories/Props/Acyclic.v
theories/Proofs/Endless.v
theories/Props/Endless.v
theories/Proofs/Slow.v
theories/Proofs/Monotone.v
theories/Props/Slow.v
theories/Props/Monotone.v
theories/Proofs/Gini.v
theories/Props/Gini.v
theories/Proofs/Stats.v
theories/Props/Stats.v
theories/Spec/AccuracySpec.v
theories/Proofs/Rounding.v
theories/Proofs/Accuracy.v
theories/Props/Accuracy.v
theories/Spec/CyclicSpec.v
theories/Proofs/Cyclic.v
theories/Props/Cyclic.v
theories/Spec/ObjectsSpec.v
theories/Proofs/Objects.v
theories/Props/Objects.v
theories/Spec/ResidualSpec.v
theories/Proofs/Residual.v
theories/Proofs/ResidualSum.v
theories/Proofs/ResidualTop.v
theories/Props/Residual.v
theories/Spec/DefinedSpec.v
theories/Spec/MergeSpec.v
theories/Proofs/Defined.v
theories/Proofs/Merge.v
theories/Props/Defined.v
theories/Props/Merge.v
theories/Props/Rounding.v
theories/Proofs/PairTime.v
theories/Props/PairTime.v
theories/Proofs/PairAccuracy.v
theories/Props/PairAccuracy.v
theories/Spec/CurveSpec.v
theories/Spec/JourneySpec.v
theories/Spec/StreamSpec.v
theories/Proofs/CurveAccuracy.v
theories/Proofs/Journeys.v
theories/Proofs/Streams.v
theories/Props/CurveAccuracy.v
theories/Props/Journeys.v
theories/Props/Streams.v
theories/Model/Release.v
theories/Spec/ReleaseSpec.v
theories/Proofs/ReleaseRef.v
theories/Proofs/ReleaseDef.v
theories/Props/Release.v
theories/Model/Text.v
theories/Spec/TextSpec.v
theories/Proofs/Text.v
theories/Props/Text.v
theories/Model/OutOfMemory.v
theories/Spec/OutOfMemorySpec.v
theories/Proofs/OutOfMemory.v
theories/Props/OutOfMemory.v
theories/Proofs/EndToEnd.v
theories/Props/EndToEnd.v
theories/Spec/RandomSpec.v
theories/Proofs/Random.v
theories/Proofs/RandomDraws.v
theories/Proofs/RandomNumbers.v
theories/Props/Random.v
theories/Spec/ConditionSpec.v
theories/Spec/ConnectedSpec.v
theories/Proofs/Condition.v
theories/Proofs/Connected.v
theories/Props/Condition.v
theories/Props/Connected.v
theories/Spec/StrictSpec.v
theories/Proofs/TarjanStrict.v
theories/Props/TarjanStrict.v
theories/Spec/MeasuredSpec.v
theories/Proofs/Measured.v
theories/Props/Measured.v
theories/Spec/RaiseSpec.v
theories/Proofs/Raise.v
theories/Props/Raise.v
theories/Spec/PartsSpec.v
theories/Proofs/Parts.v
theories/Props/Parts.v
theories/Spec/SuperposeSpec.v
theories/Spec/OneSidedSpec.v
theories/Proofs/Superpose.v
theories/Proofs/OneSided.v
theories/Proofs/PoreFree.v
theories/Props/Superpose.v
theories/Props/OneSided.v
theories/Props/PoreFree.v
theories/Spec/HexSpec.v
theories/Proofs/HexText.v
theories/Props/HexText.v
theories/Proofs/PoreVolume.v
theories/Props/PoreVolume.v
