-Q theories Verif
theories/Base.v
theories/ListFacts.v
theories/Csr.v
theories/GraphModel.v
theories/GraphSpec.v
theories/GraphFacts.v
theories/GraphInsert.v
theories/GraphResize.v
theories/GraphErase.v
theories/PermFacts.v
theories/GraphReorder.v
theories/GraphGen.v
theories/GraphSeq.v
theories/PropGraphLemmas.v
theories/PropGraph.v
theories/TraversalModel.v
theories/Bfs.v
theories/TraversalFacts.v
theories/Expansion.v
theories/Peripheral.v
theories/Eccentricity.v
theories/PropTraversalLemmas.v
theories/PropTraversal.v
theories/ReorderModel.v
theories/Ordering.v
theories/OrderingSpec.v
theories/Envelope.v
theories/Colouring.v
theories/PropReorderLemmas.v
theories/PropReorder.v
theories/SubgraphModel.v
theories/SubgraphFacts.v
theories/SubgraphLevels.v
theories/SubgraphUpdate.v
theories/SubgraphNew.v
theories/PropSubgraphLemmas.v
theories/PropSubgraph.v
theories/PartitionModel.v
theories/Bisection.v
theories/Multinode.v
theories/PropPartitionLemmas.v
theories/PropPartition.v
theories/SparseModel.v
theories/SparseSpec.v
theories/SparseFacts.v
theories/SparseUpdate.v
theories/SparseInsert.v
theories/SparseSeq.v
theories/SparseArith.v
theories/SparseMul.v
theories/SparseCtor.v
theories/PropSparseLemmas.v
theories/PropSparse.v
theories/CsrDataModel.v
theories/CsrData.v
theories/PropCsrDataLemmas.v
theories/PropCsrData.v
theories/DenseModel.v
theories/DenseFacts.v
theories/DenseOps.v
theories/PropDenseLemmas.v
theories/PropDense.v
theories/ScalarModel.v
theories/ScalarFacts.v
theories/GeometryModel.v
theories/GeometryReal.v
theories/GeometryNorm.v
theories/PropGeometryLemmas.v
theories/PropScalar.v
theories/PropGeometry.v
theories/LuModel.v
theories/LuFacts.v
theories/LuField.v
theories/LuReal.v
theories/PropLuLemmas.v
theories/PropLu.v
theories/IterModel.v
theories/IterFacts.v
theories/IterLoop.v
theories/IterField.v
theories/IterReal.v
theories/PropIterLemmas.v
theories/PropIter.v
theories/RowModel.v
theories/RowFacts.v
theories/PropRowLemmas.v
theories/PropRow.v
theories/Energy.v
theories/PropEnergyLemmas.v
theories/PropEnergy.v
theories/FloatFacts.v
theories/FloatError.v
theories/LuFloat.v
theories/IterFloat.v
theories/PropFloatLemmas.v
theories/FloatUnit.v
theories/PropFloat.v
theories/GraphAccess.v
theories/TextModel.v
theories/TextFacts.v
theories/PropAccessLemmas.v
theories/PropAccess.v
theories/LuSuccess.v
theories/PropSuccessLemmas.v
theories/PropSuccess.v
theories/FloatSweep.v
theories/PropSweepLemmas.v
theories/PropSweep.v
theories/PropBuildLemmas.v
theories/PropBuild.v
theories/MatrixTextModel.v
theories/PropTextLemmas.v
theories/PropText.v
theories/BaseSolverModel.v
theories/PropBaseLemmas.v
theories/PropBase.v
theories/SparseAlgebra.v
theories/PropAlgebraLemmas.v
theories/PropAlgebra.v
theories/MultinodeCentre.v
theories/PropCentre.v
theories/LuDominant.v
theories/LuDominantSolve.v
theories/PropDominantLemmas.v
theories/PropDominant.v
theories/StorageModel.v
theories/PropStorageLemmas.v
theories/PropStorage.v
theories/WalkModel.v
theories/PropWalkLemmas.v
theories/PropWalk.v
theories/MacroModel.v
theories/PropMacroLemmas.v
theories/PropMacro.v
theories/InPlaceModel.v
theories/PropInPlaceLemmas.v
theories/PropInPlace.v
theories/FloatStop.v
theories/FloatStops.v
theories/PropStopLemmas.v
theories/PropStop.v
theories/AliasModel.v
theories/PropAliasLemmas.v
theories/PropAlias.v
theories/RowObjectModel.v
theories/PropRowObjectLemmas.v
theories/PropRowObject.v
theories/PropDenseBuildLemmas.v
theories/PropDenseBuild.v
theories/SolverObjectModel.v
theories/PropSolverObjectLemmas.v
theories/PropSolverObject.v
theories/PropAgreeLemmas.v
theories/PropAgree.v
theories/PropGeoFloatLemmas.v
theories/PropGeoFloat.v
theories/IntModel.v
theories/PropIntLemmas.v
theories/PropInt.v
theories/PropConnectedLemmas.v
theories/PropConnected.v
theories/ElementModel.v
theories/PropElementLemmas.v
theories/PropElement.v
theories/PropLuAlgebraLemmas.v
theories/PropLuAlgebra.v
theories/PropComposeLemmas.v
theories/PropCompose.v
theories/PropFillLemmas.v
theories/PropFill.v
theories/PropNumberingLemmas.v
theories/PropNumbering.v
theories/PropTreeLemmas.v
theories/PropTree.v
theories/PropOddLemmas.v
theories/PropOdd.v
theories/SpanModel.v
theories/PropSpanLemmas.v
theories/PropSpan.v
theories/OrderFacts.v
theories/PropOrderLemmas.v
theories/PropOrder.v
theories/PropRelaxLemmas.v
theories/PropRelax.v
theories/PropChainLemmas.v
theories/PropChain.v
theories/LuSign.v
theories/PropSignLemmas.v
theories/PropSign.v
theories/PropNormLemmas.v
theories/PropNorm.v
theories/PropMetricLemmas.v
theories/PropMetric.v
theories/PropCloseLemmas.v
theories/PropClose.v
theories/PropNestedLemmas.v
theories/PropNested.v
theories/PropLawsLemmas.v
theories/PropLaws.v
theories/TopModel.v
theories/PropTopLemmas.v
theories/PropTop.v
theories/CsrIntModel.v
theories/PropCsrIntLemmas.v
theories/PropCsrInt.v
theories/PropSplitLemmas.v
theories/PropSplit.v
theories/PropPipelineLemmas.v
theories/PropPipeline.v
theories/Determinant.v
theories/PropFactorLemmas.v
theories/PropFactor.v
theories/PropPivotLemmas.v
theories/PropPivot.v
theories/SingleModel.v
theories/SingleFacts.v
theories/PropSingleLemmas.v
theories/PropSingle.v
theories/DotSizes.v
theories/ReplayGraph.v
theories/ReplaySubgraph.v
theories/ReplaySparse.v
theories/ReplayDense.v
theories/ReplaySolver.v
theories/ReplayCsr.v
theories/CsrArgModel.v
theories/PropCsrArgLemmas.v
theories/PropCsrArg.v
theories/FloatSor.v
theories/PropSorLemmas.v
theories/PropSor.v
theories/FloatForward.v
theories/PropForwardLemmas.v
theories/PropForward.v
theories/EnergyDrift.v
theories/FloatDrift.v
theories/PropDefiniteLemmas.v
theories/PropDefinite.v
theories/SingleOps.v
theories/SingleSums.v
theories/SingleProducts.v
theories/PropSingleSums.v
theories/FloatDefStop.v
theories/PropDefiniteStopLemmas.v
theories/PropDefiniteStop.v
theories/SymmetricJacobi.v
theories/PropSymmetricLemmas.v
theories/PropSymmetric.v
theories/FloatDefJacobi.v
theories/PropDefiniteJacobiLemmas.v
theories/PropDefiniteJacobi.v
theories/ScaledSymmetric.v
theories/FloatGrid.v
theories/GridSetup.v
theories/PropGridLemmas.v
theories/GridWhole.v
theories/PropGrid.v
theories/DenseSizes.v
theories/GridStop.v
theories/Refused.v
theories/PropRefused.v
theories/LuScaled.v
theories/LuScaledSolve.v
theories/ScaledSolved.v
theories/GridDirect.v
theories/PropScaled.v
theories/LuColumn.v
theories/ColumnSolved.v
theories/PropColumn.v
theories/SourceModel.v
theories/SourceFacts.v
theories/SourceError.v
theories/SourceSolved.v
theories/PropSource.v
theories/Prescribed.v
theories/PrescribedRate.v
theories/PropPrescribed.v
theories/StopReal.v
theories/PrescribedJacobi.v
theories/PropStopReal.v
theories/LaplaceModel.v
theories/LaplaceFacts.v
theories/LaplaceReal.v
theories/PropLaplace.v
theories/LaplaceSolved.v
theories/WeakDefinite.v
theories/PropWeakDefinite.v
theories/LaplaceRate.v
theories/PropLaplaceRate.v
