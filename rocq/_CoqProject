-Q theories Verif

theories/Base.v
theories/Lexer.v
theories/LexerSpec.v
theories/LexerProofs.v
theories/LexerProofs2.v
theories/LexerProofs3.v
theories/LexerExactSpec.v
theories/LexerExact.v
theories/PropLexer.v
theories/PropLexer2.v
theories/Syntax.v
theories/Parser.v
theories/ParserSpec.v
theories/ParserProofs.v
theories/ParserProofs2.v
theories/ModFileSpec.v
theories/ModFileProofs.v
theories/ModFileProofs2.v
theories/ModFileProofs3.v
theories/PropParser.v
theories/Eval.v
theories/EvalSpec.v
theories/EvalProofs.v
theories/PropEval.v
theories/Semantics.v
theories/SemanticsSpec.v
theories/SemanticsProofs.v
theories/Factory.v
theories/FactorySpec.v
theories/FactoryProofs.v
theories/PropFile.v
theories/Calib.v
theories/CalibSpec.v
theories/CalibProofs.v
theories/FileCalibProofs.v
theories/PropCalib.v
theories/Indexing.v
theories/IndexingSpec.v
theories/IndexingProofs.v
theories/IndexingProofs2.v
theories/PropIndexing.v
theories/DynFunc.v
theories/DynSpec.v
theories/DynProofs.v
theories/DynProofs2.v
theories/DynProofs3.v
theories/PropDyn.v
theories/Vars.v
theories/SigmaSpec.v
theories/SigmaProofs.v
theories/PropSigma.v
theories/ExprList.v
theories/ExprListSpec.v
theories/ExprListProofs.v
theories/PropExprs.v
theories/ModelState.v
theories/ModelStateSpec.v
theories/ModelStateProofs.v
theories/ModelStateProofs2.v
theories/ModelStateProofs3.v
theories/PropModel.v
theories/OutlineSpec.v
theories/OutlineProofs.v
theories/PropOutline.v
theories/Paths.v
theories/PathsSpec.v
theories/PathsProofs.v
theories/ExampleTexts.v
theories/PropPaths.v
theories/Views.v
theories/ViewsSpec.v
theories/PropViews.v
theories/Observe.v
theories/ObserveSpec.v
theories/PropObserve.v
theories/Verify.v
theories/VerifySpec.v
theories/PropVerify.v
theories/Nd.v
theories/SimSpec.v
theories/NdProofs.v
theories/Sim.v
theories/SimProofs.v
theories/SimProofs2.v
theories/SimProofs3.v
theories/NdInst.v
theories/PropSim.v
theories/PropArr.v
theories/OrderProofs.v
theories/PropStats.v
theories/Steady.v
theories/PropSteady.v
theories/Plot.v
theories/PlotSpec.v
theories/PropPlot.v
theories/Summary.v
theories/SummarySpec.v
theories/SummaryProofs.v
theories/PropSummary.v
theories/SummaryTables.v
theories/SummaryTablesSpec.v
theories/SummaryTablesProofs.v
theories/PropSummary2.v
theories/Mat.v
theories/MatProofs.v
theories/Occbin.v
theories/OccbinSpec.v
theories/OccbinProofs.v
theories/OccbinProofs2.v
theories/PropOccbin.v
theories/OccbinProofs3.v
theories/PropForesight.v
theories/MomentsSpec.v
theories/Moments.v
theories/MomentsProofs.v
theories/MomentsProofs2.v
theories/MomentsProofs3.v
theories/MomentsProofs4.v
theories/MomentsProofs5.v
theories/MomentsExample.v
theories/MomentsExist.v
theories/PropMoments.v
theories/PropMomentsExist.v
theories/FiltersSpec.v
theories/Filters.v
theories/FiltersProofs.v
theories/FiltersProofs2.v
theories/PropFilters.v
theories/FirstOrder.v
theories/FirstOrderSpec.v
theories/FirstOrderProofs.v
theories/FirstOrderProofs2.v
theories/FirstOrderProofs3.v
theories/FirstOrderProofs4.v
theories/FirstOrderProofs5.v
theories/FirstOrderCurrent.v
theories/FirstOrderExact.v
theories/FirstOrderExample.v
theories/PropFirst.v
theories/Sylvester.v
theories/SylvesterSpec.v
theories/SylvesterProofs.v
theories/SylvesterProofs2.v
theories/Gauss.v
theories/SylvesterExample.v
theories/PropSylvester.v
theories/SecondOrder.v
theories/SecondOrderSpec.v
theories/SecondOrderProofs.v
theories/SecondOrderProofs2.v
theories/SecondOrderProofs3.v
theories/SecondOrderProofs4.v
theories/SecondOrderProofs5.v
theories/SecondOrderProofs6.v
theories/PropSecond.v
theories/CalcSpec.v
theories/CalcProofs.v
theories/CalcProofs2.v
theories/CalcProofs3.v
theories/Linearize.v
theories/LinearizeSpec.v
theories/LinearizeProofs.v
theories/LinearExample.v
theories/PropLinear.v
theories/AccuracySpec.v
theories/AccuracyProofs.v
theories/AccuracyProofs2.v
theories/PropAccuracy.v
theories/Constraint.v
theories/ConstraintSpec.v
theories/ConstraintProofs.v
theories/PropConstraint.v
theories/Piecewise.v
theories/PropPiecewise.v
theories/SteadyValues.v
theories/SteadyValuesSpec.v
theories/PropSteadyValues.v
theories/Pipeline.v
theories/PipelineSpec.v
theories/PipelineProofs.v
theories/PropPipeline.v
theories/PathSim.v
theories/PathSimSpec.v
theories/PathSimProofs.v
theories/PropPathSim.v
theories/PiecewiseSim.v
theories/PiecewiseSimSpec.v
theories/PiecewiseSimProofs.v
theories/PiecewiseSimProofs2.v
theories/PiecewiseSimExample.v
theories/PropPiecewiseSim.v
theories/StatsState.v
theories/StatsStateSpec.v
theories/StatsStateProofs.v
theories/StatsStateProofs2.v
theories/PropStatsState.v
theories/StatsSharesSpec.v
theories/StatsSharesProofs.v
theories/PropStatsShares.v
theories/ImpulseSim.v
theories/ImpulseSimSpec.v
theories/ImpulseSimProofs.v
theories/PropImpulseSim.v
theories/RealSpec.v
theories/RealProofs.v
theories/PropReals.v
theories/PropEquation.v
theories/PropRegimeNames.v
theories/PropRealsFile.v
theories/PropRealsExample.v
theories/PropPipelineClash.v
theories/PropLinearClash.v
theories/StableSpec.v
theories/StableProofs.v
theories/StableProofs2.v
theories/StableProofs3.v
theories/StableProofs4.v
theories/PropStable.v
theories/PropSettle.v
theories/StableProofs5.v
theories/PathStable.v
theories/ImpulseFade.v
theories/PropRoots.v
theories/UniqueSpec.v
theories/UniqueProofs.v
theories/UniqueExample.v
theories/PropUnique.v
theories/PropUniqueFile.v
theories/StatsVerified.v
theories/PropVerified.v
theories/PropSharesVerified.v
theories/StateSpaceSpec.v
theories/PropSpaceVerified.v
theories/PropAccuracyClash.v
theories/Eigs.v
theories/EigsSpec.v
theories/PropEigs.v
theories/PropLexer3.v
