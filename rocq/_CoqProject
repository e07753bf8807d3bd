-Q theories Verif
theories/Prelude/ListFacts.v
theories/Prelude/Py.v
theories/Prelude/QBase.v
theories/Prelude/QFacts.v
theories/Prelude/RBase.v
theories/Spec/AbcSpec.v
theories/Spec/ArraysSpec.v
theories/Spec/AxesMpmcOps.v
theories/Spec/AxesOps.v
theories/Spec/AxesSpec.v
theories/Spec/AxisSpec.v
theories/Spec/BananaSpec.v
theories/Spec/BenchMethodSpec.v
theories/Spec/BenchSpec.v
theories/Spec/BenchTableSpec.v
theories/Spec/Box.v
theories/Spec/BracketSpec.v
theories/Spec/ChainSpec.v
theories/Spec/ChoiceSpec.v
theories/Spec/ConstructSpec.v
theories/Spec/DefaultsSpec.v
theories/Spec/DensityPlotSpec.v
theories/Spec/DensitySpec.v
theories/Spec/DivergenceSpec.v
theories/Spec/DrawMeanSpec.v
theories/Spec/DrawSpec.v
theories/Spec/DrawingSpec.v
theories/Spec/EllipsoidSpec.v
theories/Spec/EmSpec.v
theories/Spec/EstimateSpec.v
theories/Spec/ExploreSpec.v
theories/Spec/FlatSpec.v
theories/Spec/FloatSpec.v
theories/Spec/GmmSpec.v
theories/Spec/GridSpec.v
theories/Spec/HdCoords.v
theories/Spec/HdLawSpec.v
theories/Spec/InstalmentSpec.v
theories/Spec/IntegralSpec.v
theories/Spec/LoaderSpec.v
theories/Spec/MHLawSpec.v
theories/Spec/MHSpec.v
theories/Spec/MPMCSpec.v
theories/Spec/MeanSpec.v
theories/Spec/MixtureLawSpec.v
theories/Spec/NessSpec.v
theories/Spec/NestedLawSpec.v
theories/Spec/NestedSpec.v
theories/Spec/NoisySpec.v
theories/Spec/NonparametricSpec.v
theories/Spec/NormalSpec.v
theories/Spec/ParamsSpec.v
theories/Spec/PartitionSpec.v
theories/Spec/PictureRects.v
theories/Spec/PlotSpec.v
theories/Spec/PointSpec.v
theories/Spec/PopulationSpec.v
theories/Spec/ProgramSpec.v
theories/Spec/RefineSpec.v
theories/Spec/RejectionLawSpec.v
theories/Spec/RejectionSpec.v
theories/Spec/ResetSpec.v
theories/Spec/SameMixtureSpec.v
theories/Spec/ScaleSpec.v
theories/Spec/SortedSpec.v
theories/Spec/SplitSpec.v
theories/Spec/StreamSpec.v
theories/Spec/SupportSpec.v
theories/Spec/TableSpec.v
theories/Spec/TargetSpec.v
theories/Spec/TimeSpec.v
theories/Spec/TreeSpec.v
theories/Spec/UnbiasedSpec.v
theories/Spec/UniformSpec.v
theories/Spec/UnitsOps.v
theories/Spec/UnitsSpec.v
theories/Spec/UnitsTree.v
theories/Spec/VideoSpec.v
theories/Spec/WaitSpec.v
theories/Spec/WalkSpec.v
theories/Spec/WeightSpec.v
theories/Model/AbcWorld.v
theories/Model/Arrays.v
theories/Model/AxisGeometry.v
theories/Model/Banana.v
theories/Model/Base.v
theories/Model/BenchDen.v
theories/Model/Benchmark.v
theories/Model/BenchmarkSamplers.v
theories/Model/Construct.v
theories/Model/Defaults.v
theories/Model/Delta.v
theories/Model/DensityPlots.v
theories/Model/DistBase.v
theories/Model/Divergence.v
theories/Model/Drawing.v
theories/Model/Ellipsoid.v
theories/Model/Exponential.v
theories/Model/Gmm.v
theories/Model/HiDaisee.v
theories/Model/HiDaiseeLaw.v
theories/Model/Kernel.v
theories/Model/Loader.v
theories/Model/MHLaw.v
theories/Model/MPMC.v
theories/Model/MetropolisHastings.v
theories/Model/Misc.v
theories/Model/Mixture.v
theories/Model/MixtureLaw.v
theories/Model/Nested.v
theories/Model/NoisyFunction.v
theories/Model/Nonparametric.v
theories/Model/Normal.v
theories/Model/Params.v
theories/Model/Performance.v
theories/Model/Plots.v
theories/Model/Population.v
theories/Model/PopulationLaw.v
theories/Model/Programs.v
theories/Model/Rejection.v
theories/Model/SamplerPicture.v
theories/Model/Saved.v
theories/Model/Shape.v
theories/Model/Statistics.v
theories/Model/StreamReader.v
theories/Model/TableFormat.v
theories/Model/Tree.v
theories/Model/TreeSampler.v
theories/Model/Uniform.v
theories/Model/Video.v
theories/Model/Wait.v
theories/Proofs/ArraysKeep.v
theories/Proofs/ArraysNew.v
theories/Proofs/ArraysTwo.v
theories/Proofs/AxesBase.v
theories/Proofs/AxesDet.v
theories/Proofs/AxesMpmc.v
theories/Proofs/AxesNested.v
theories/Proofs/AxesPop.v
theories/Proofs/AxesSimple.v
theories/Proofs/BaseProofs.v
theories/Proofs/BaseWitness.v
theories/Proofs/BenchmarkColumns.v
theories/Proofs/BenchmarkProofs.v
theories/Proofs/BenchmarkRuns.v
theories/Proofs/BenchmarkTrace.v
theories/Proofs/BenchmarkWitness.v
theories/Proofs/ChartHd.v
theories/Proofs/DefaultsBox.v
theories/Proofs/DefaultsLaw.v
theories/Proofs/DensityPlotProofs.v
theories/Proofs/DensityProofs.v
theories/Proofs/DivergenceGrid.v
theories/Proofs/DivergenceProofs.v
theories/Proofs/DrawMean.v
theories/Proofs/EmStep.v
theories/Proofs/FlatMH.v
theories/Proofs/FlatNested.v
theories/Proofs/FlatPop.v
theories/Proofs/GaussIntegral.v
theories/Proofs/GmmProofs.v
theories/Proofs/HiDaiseeBox.v
theories/Proofs/HiDaiseeDensity.v
theories/Proofs/HiDaiseeExplore.v
theories/Proofs/HiDaiseeGeneric.v
theories/Proofs/HiDaiseeHistory.v
theories/Proofs/HiDaiseeLawProofs.v
theories/Proofs/HiDaiseeProofs.v
theories/Proofs/HiDaiseeRiemann.v
theories/Proofs/HiDaiseeStarve.v
theories/Proofs/HiDaiseeValues.v
theories/Proofs/IndepLaw.v
theories/Proofs/InstalLoop.v
theories/Proofs/InstalProofs.v
theories/Proofs/InstalTree.v
theories/Proofs/IntegralLaw.v
theories/Proofs/IntegralProofs.v
theories/Proofs/JsDraws.v
theories/Proofs/KdeAverage.v
theories/Proofs/KdeProofs.v
theories/Proofs/KlDraws.v
theories/Proofs/LaisChain.v
theories/Proofs/LeftSum.v
theories/Proofs/LineIntegral.v
theories/Proofs/MHAcceptProofs.v
theories/Proofs/MHBook.v
theories/Proofs/MHChain.v
theories/Proofs/MHLabels.v
theories/Proofs/MHLawProofs.v
theories/Proofs/MHProofs.v
theories/Proofs/MHWitness.v
theories/Proofs/MPMCEm.v
theories/Proofs/MPMCHistory.v
theories/Proofs/MPMCProofs.v
theories/Proofs/MPMCReal.v
theories/Proofs/MPMCWitness.v
theories/Proofs/MPMCWorse.v
theories/Proofs/MasslessProofs.v
theories/Proofs/MiscProofs.v
theories/Proofs/MixtureDensity.v
theories/Proofs/MixtureDraws.v
theories/Proofs/MixtureProofs.v
theories/Proofs/MixtureSelect.v
theories/Proofs/MixtureTree.v
theories/Proofs/MultiNestedProofs.v
theories/Proofs/NessLaw.v
theories/Proofs/NessProofs.v
theories/Proofs/NestedEss.v
theories/Proofs/NestedEstimate.v
theories/Proofs/NestedHistory.v
theories/Proofs/NestedProofs.v
theories/Proofs/NestedWeights.v
theories/Proofs/NestedWitness.v
theories/Proofs/NormalKernel.v
theories/Proofs/NormalMean.v
theories/Proofs/NormalProofs.v
theories/Proofs/OrderQ.v
theories/Proofs/OrderR.v
theories/Proofs/PerformanceProofs.v
theories/Proofs/PlotBand.v
theories/Proofs/PlotProofs.v
theories/Proofs/PopulationError.v
theories/Proofs/PopulationHistory.v
theories/Proofs/PopulationProofs.v
theories/Proofs/PopulationUnbiased.v
theories/Proofs/PopulationWitness.v
theories/Proofs/RefineSums.v
theories/Proofs/RejectionEffort.v
theories/Proofs/RejectionLaw.v
theories/Proofs/RejectionProofs.v
theories/Proofs/RejectionWitness.v
theories/Proofs/SameMixture.v
theories/Proofs/SameMixtureR.v
theories/Proofs/SamplerPictureProofs.v
theories/Proofs/ScaleBase.v
theories/Proofs/ScaleHd.v
theories/Proofs/ScalePop.v
theories/Proofs/ScaleR.v
theories/Proofs/ScaleSimple.v
theories/Proofs/ScaleTree.v
theories/Proofs/StatisticsProofs.v
theories/Proofs/StreamReaderProofs.v
theories/Proofs/SupportMass.v
theories/Proofs/SupportProofs.v
theories/Proofs/TableNumbers.v
theories/Proofs/TableRows.v
theories/Proofs/TableText.v
theories/Proofs/TreeCells.v
theories/Proofs/TreeCounters.v
theories/Proofs/TreeDensity.v
theories/Proofs/TreeFind.v
theories/Proofs/TreeFirstCall.v
theories/Proofs/TreeGreedy.v
theories/Proofs/TreeKeep.v
theories/Proofs/TreeMask.v
theories/Proofs/TreeMixtureFlow.v
theories/Proofs/TreeProofs.v
theories/Proofs/TreeRefine.v
theories/Proofs/TreeRequest.v
theories/Proofs/TreeResample.v
theories/Proofs/TreeReturn.v
theories/Proofs/TreeSamplerInv.v
theories/Proofs/TreeSamplerLeaves.v
theories/Proofs/TreeSamplerTree.v
theories/Proofs/TreeStarve.v
theories/Proofs/UniformDensity.v
theories/Proofs/UniformProofs.v
theories/Proofs/UnitsBase.v
theories/Proofs/UnitsMpmc.v
theories/Proofs/UnitsNested.v
theories/Proofs/UnitsPop.v
theories/Proofs/UnitsSimple.v
theories/Proofs/UnitsTreeBase.v
theories/Proofs/UnitsTreeRun.v
theories/Proofs/UnitsTreeTurn.v
theories/Properties/AbcProps.v
theories/Properties/ArraysProps.v
theories/Properties/AxesMpmcProps.v
theories/Properties/AxesNestedProps.v
theories/Properties/AxesProps.v
theories/Properties/AxisProps.v
theories/Properties/BananaProps.v
theories/Properties/BaseDistProps.v
theories/Properties/BaseProps.v
theories/Properties/BenchmarkForgetProps.v
theories/Properties/BenchmarkProps.v
theories/Properties/BlackBoxHdProps.v
theories/Properties/BlackBoxLaisProps.v
theories/Properties/BlackBoxMhProps.v
theories/Properties/BlackBoxProps.v
theories/Properties/ConstructProps.v
theories/Properties/DefaultsProps.v
theories/Properties/DeltaProps.v
theories/Properties/DensityPlotDebugProps.v
theories/Properties/DensityPlotProps.v
theories/Properties/DensityProps.v
theories/Properties/DivergenceLawProps.v
theories/Properties/DivergenceProps.v
theories/Properties/DrawingProps.v
theories/Properties/EllipsoidProps.v
theories/Properties/FlatProps.v
theories/Properties/GmmProps.v
theories/Properties/HdCoordProps.v
theories/Properties/HiDaiseeExploreProps.v
theories/Properties/HiDaiseeLawProps.v
theories/Properties/HiDaiseeProps.v
theories/Properties/HiDaiseeProps2.v
theories/Properties/HiDaiseeRiemannProps.v
theories/Properties/InstalProps.v
theories/Properties/IntegralLawProps.v
theories/Properties/IntegralProps.v
theories/Properties/KdeAverageProps.v
theories/Properties/LaisChainProps.v
theories/Properties/LimitMonotoneProps.v
theories/Properties/LimitNestedProps.v
theories/Properties/LoaderProps.v
theories/Properties/MHChainProps.v
theories/Properties/MHLawProps.v
theories/Properties/MHProps.v
theories/Properties/MPMCEmProps.v
theories/Properties/MPMCProps.v
theories/Properties/MasslessProps.v
theories/Properties/MiscProps.v
theories/Properties/MixtureLawDensity.v
theories/Properties/MixtureLawProps.v
theories/Properties/MixtureProps.v
theories/Properties/NessProps.v
theories/Properties/NestedEssProps.v
theories/Properties/NestedEstimateProps.v
theories/Properties/NestedLawProps.v
theories/Properties/NestedProps.v
theories/Properties/NoisyProps.v
theories/Properties/NonparametricDensity.v
theories/Properties/NonparametricProps.v
theories/Properties/NormalKernelProps.v
theories/Properties/NormalProps.v
theories/Properties/OrderProps.v
theories/Properties/ParamsProps.v
theories/Properties/PerformanceProps.v
theories/Properties/PlotProps.v
theories/Properties/PopulationErrorProps.v
theories/Properties/PopulationProps.v
theories/Properties/PopulationUnbiasedProps.v
theories/Properties/ProgramProps.v
theories/Properties/RejectionLawProps.v
theories/Properties/RejectionMonotoneProps.v
theories/Properties/RejectionProps.v
theories/Properties/ResetProps.v
theories/Properties/SameMixtureProps.v
theories/Properties/SamplerPictureProps.v
theories/Properties/SavedProps.v
theories/Properties/ScaleNestedProps.v
theories/Properties/ScaleProps.v
theories/Properties/StatisticsProps.v
theories/Properties/StreamReaderProps.v
theories/Properties/SupportMassProps.v
theories/Properties/SupportMpmcProps.v
theories/Properties/SupportMultiProps.v
theories/Properties/SupportProps.v
theories/Properties/SupportTreeProps.v
theories/Properties/TimeProps.v
theories/Properties/TimeTreeProps.v
theories/Properties/TreeKeepProps.v
theories/Properties/TreeProps.v
theories/Properties/TreeRefineError.v
theories/Properties/TreeRefineProps.v
theories/Properties/TreeSamplerProps.v
theories/Properties/TreeSamplerProps2.v
theories/Properties/TreeSamplerProps3.v
theories/Properties/TreeSamplerProps4.v
theories/Properties/TreeStarveProps.v
theories/Properties/UniformProps.v
theories/Properties/UnitsNestedProps.v
theories/Properties/UnitsProps.v
theories/Properties/UnitsTreeProps.v
theories/Properties/VideoProps.v
theories/Properties/WaitProps.v
