-Q theories Verif
theories/Num.v
theories/NumFacts.v
theories/Arr.v
theories/Spec.v
theories/MDistributions.v
theories/Calc.v
theories/PDistributions.v
theories/ArrFacts.v
theories/MParametric.v
theories/PParametric.v
theories/PropsDistributions.v
theories/PropsParametric.v
theories/MConversions.v
theories/PConversions.v
theories/PropsConversions.v
theories/MSmoothing.v
theories/PSmoothing.v
theories/PropsSmoothing.v
theories/Interp.v
theories/MPriors.v
theories/PPriorsAligned.v
theories/PPriorsIso.v
theories/PPriorsChip.v
theories/PPriorsCond.v
theories/PropsPriors.v
theories/MAnalysis.v
theories/SpecAnalysis.v
theories/PAnalysisSums.v
theories/PAnalysisLik.v
theories/PAnalysisNames.v
theories/PAnalysisCuts.v
theories/PAnalysisInv.v
theories/PAnalysisPPC.v
theories/PropsAnalysis.v
theories/MSpline.v
theories/SpecSpline.v
theories/PBSpline.v
theories/PBSplineCode.v
theories/PBSplineMake.v
theories/PBSplineProj.v
theories/PBSplineGauge.v
theories/PBSplineLin.v
theories/PBSplineOut.v
theories/PNatural.v
theories/SpecNatural.v
theories/PNaturalSpline.v
theories/PropsSpline.v
theories/MCosmology.v
theories/SpecCosmology.v
theories/PCosmology.v
theories/PCosmologyTab.v
theories/PCosmologyQ.v
theories/SpecCosmologyQ.v
theories/PCosmologyR.v
theories/PropsCosmology.v
theories/MNumpyro.v
theories/PNumpyro.v
theories/SpecNumpyro.v
theories/PNumpyroGrid.v
theories/PNumpyroDist.v
theories/PNumpyroSmooth.v
theories/PropsNumpyro.v
theories/MBSplines.v
theories/SpecBSplines.v
theories/PBSplines.v
theories/PSplinePert.v
theories/PSplinePert2.v
theories/PropsBSplines.v
theories/MParser.v
theories/MConstruct.v
theories/SpecConstruct.v
theories/PConstruct.v
theories/SpecParser.v
theories/PParser.v
theories/PParserKeys.v
theories/MUtils.v
theories/SpecUtils.v
theories/PUtils.v
theories/PropsPipeline.v
theories/MSelection.v
theories/SpecSelection.v
theories/PSelection.v
theories/PResample.v
theories/MCollect.v
theories/SpecCollect.v
theories/PCollect.v
theories/PCollectCut.v
theories/PCollectPrior.v
theories/PCollectAppend.v
theories/PCollectLoad.v
theories/PCollectPost.v
theories/PCollectChi.v
theories/SpecLoad.v
theories/PCollectEnd.v
theories/ExPreprocess.v
theories/PropsPreprocess.v
theories/MPostprocess.v
theories/SpecPostprocess.v
theories/PPostprocess.v
theories/PPostprocess2.v
theories/PPostprocess3.v
theories/PPostprocess4.v
theories/PPostprocess5.v
theories/PropsPostprocess.v
theories/Spec2.v
theories/PParametric2.v
theories/PCosmologyV.v
theories/SpecNewton.v
theories/PNewton.v
theories/PPriorsPush.v
theories/PPriorsPush2.v
theories/PDilog.v
theories/PPriorsCond2.v
theories/PSelection2.v
theories/SpecLeast.v
theories/PLeast.v
theories/PLeast2.v
theories/SpecEnd.v
theories/PEnd.v
theories/SpecShare.v
theories/PShare.v
theories/SpecCurve.v
theories/PSplineValue.v
theories/SpecEval.v
theories/PSplineEval.v
theories/PMspline.v
theories/PMspline2.v
theories/SpecPieces.v
theories/PNumpyroValue.v
theories/PBetaMoments.v
theories/MSetup.v
theories/SpecSetup.v
theories/PSetup.v
theories/MCommand.v
theories/SpecCommand.v
theories/PCommand.v
theories/PropsSetup.v
theories/MStore.v
theories/SpecStore.v
theories/PStore.v
theories/PropsStore.v
theories/MPlot.v
theories/SpecPlot.v
theories/PPlot.v
theories/PropsPlot.v
theories/MRun.v
theories/SpecRun.v
theories/PRun.v
theories/PropsRun.v
theories/MJobs.v
theories/SpecJobs.v
theories/PJobs.v
theories/PropsJobs.v
theories/PPriorsMass.v
theories/SpecFit.v
theories/PFit.v
theories/PropsFit.v
theories/PAnalysisFrac.v
theories/MPeak.v
theories/SpecPeak.v
theories/PPeak.v
theories/MPlanck.v
theories/SpecPlanck.v
theories/PCosmologyAcc.v
theories/SpecWhole.v
theories/PWhole.v
theories/PropsWhole.v
theories/MMain.v
theories/SpecMain.v
theories/PMain.v
theories/PMainPeak.v
theories/PropsMain.v
theories/MConfig.v
theories/SpecConfig.v
theories/PConfig.v
theories/PropsConfig.v
theories/PCollectIso.v
theories/PAnalysisCat.v
theories/SpecAccept.v
theories/PParserAccept.v
theories/SpecBuild.v
theories/PBSplineBuild.v
theories/PSplineMore.v
theories/SpecDiff.v
theories/PSmoothingValue.v
theories/PCosmologyAny.v
theories/PAnalysisInt.v
theories/PPostprocessBeta.v
theories/PExport.v
theories/PSplineOut.v
theories/PPeakPrior.v
theories/MTrace.v
theories/SpecTrace.v
theories/PTrace.v
theories/PropsTrace.v
theories/MOptions.v
theories/SpecOptions.v
theories/POptions.v
theories/PropsOptions.v
theories/MEvaluate.v
theories/SpecEvaluate.v
theories/PEvaluate.v
theories/PropsEvaluate.v
