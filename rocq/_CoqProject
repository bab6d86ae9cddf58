-Q theories Verif
theories/Base.v
theories/Fields.v
theories/FieldsFacts.v
theories/FieldsQ.v
theories/PropFields.v
theories/Spec.v
theories/LinAlg.v
theories/Columns.v
theories/ColumnsFacts.v
theories/ColumnOps.v
theories/PropColumns.v
theories/Matrices.v
theories/SpecMat.v
theories/MatricesFacts.v
theories/Reduction.v
theories/LoopProofs.v
theories/StandardProofs.v
theories/ReadOffProofs.v
theories/Graded.v
theories/StandardResults.v
theories/Examples.v
theories/PropMatrices.v
theories/PropCache.v
theories/Determinism.v
theories/PropStandard.v
theories/ClearingProofs.v
theories/PropClearing.v
theories/Duality.v
theories/PropDuality.v
theories/Rips.v
theories/SpecRips.v
theories/RipsCode.v
theories/RipsFacts.v
theories/RipsBasis.v
theories/PropRips.v
theories/RipsComplex.v
theories/RipsCohomology.v
theories/PropRipsCohomology.v
theories/GrpphCells.v
theories/Grpph.v
theories/SpecGrpph.v
theories/SpecPath.v
theories/GrpphFacts.v
theories/GrpphColumns.v
theories/GrpphComplex.v
theories/PathBasis.v
theories/GrpphReduce.v
theories/GrpphList.v
theories/PropGrpph.v
theories/GrpphRun.v
theories/Involution.v
theories/GrpphInvolution.v
theories/PropGrpphRun.v
theories/SpecWeighted.v
theories/RepBasis.v
theories/PathBetti.v
theories/GrpphReps.v
theories/ShortestPaths.v
theories/Weighted.v
theories/WeightedCone.v
theories/PropPathHomology.v
theories/PropReps.v
theories/WeightedRun.v
theories/PropWeighted.v
theories/PropGrpphExamples.v
theories/PropGrpphDemo.v
theories/SpecPH.v
theories/Persistence.v
theories/BettiUnique.v
theories/PropPersistence.v
theories/RipsPersistence.v
theories/PropRipsPersistence.v
theories/PropRipsCli.v
theories/CycleDeath.v
theories/PropCycle.v
theories/BarsUnique.v
theories/Relabel.v
theories/PropRelabel.v
theories/BettiMaps.v
theories/RipsSwap.v
theories/PropRipsOrder.v
theories/PropStability.v
theories/PropRipsHomology.v
theories/PropRipsCounts.v
theories/PropRipsComponents.v
theories/RipsCircle.v
theories/PropRipsCircle.v
theories/PropRipsInput.v
theories/ClearingTotal.v
theories/RipsInput.v
theories/SpecInput.v
theories/PropRipsCsv.v
theories/ClearingOrder.v
theories/PropClearingOrder.v
theories/ClearingDet.v
theories/PropClearingDet.v
theories/GrpphPanic.v
theories/PropGrpphPanic.v
theories/Machine.v
theories/MachineSim.v
theories/MachineRef.v
theories/PropMachine.v
theories/StdHeap.v
theories/PropStdHeap.v
theories/CachedRun.v
theories/CachedFacts.v
theories/CachedReduce.v
theories/PropCached.v
theories/BettiFactor.v
theories/RipsRepeat.v
theories/RipsCover.v
theories/PropRipsRepeat.v
theories/ModelTests.v
theories/RipsBars.v
theories/SpecBottleneck.v
theories/Matching.v
theories/PropBottleneck.v
theories/PropGrpphStability.v
theories/Float64.v
theories/PropArithmetics.v
theories/DoubleWalks.v
theories/PropDouble.v
theories/PropDoubleRips.v
theories/Dijkstra.v
theories/PropDijkstra.v
theories/RipsCone.v
theories/PropEnclosing.v
theories/SpanTree.v
theories/PropSpanTree.v
theories/PropSpanTotal.v
theories/PropEuler.v
theories/RawGrpph.v
theories/PropRawGrpph.v
theories/SplitBetti.v
theories/DisjointPaths.v
theories/PropDisjoint.v
theories/PropMaxDim.v
theories/PropFieldChange.v
theories/ClusterBetti.v
theories/RipsClusters.v
theories/PropClusters.v
theories/PropQRelease.v
theories/Reversal.v
theories/PropReversal.v
theories/PropScale.v
theories/PropDistances.v
theories/PropGap.v
theories/PropRankBound.v
theories/WedgePaths.v
theories/PropWedge.v
theories/PropBridge.v
theories/Assumptions.v
