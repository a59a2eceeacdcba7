-Q theories Verif
theories/Base/AssocMap.v
theories/Base/Erf.v
theories/Base/Implicit.v
theories/Base/Linear.v
theories/Base/Loop.v
theories/Base/RealBase.v
theories/Base/SumR.v
theories/Base/Vec3.v
theories/Model/Comp2.v
theories/Model/CompactScreening.v
theories/Model/Comparison.v
theories/Model/Convert.v
theories/Model/CoreFunction.v
theories/Model/CutoffFunction.v
theories/Model/DataAnalysis.v
theories/Model/DataFiles.v
theories/Model/Dataset.v
theories/Model/Distribution.v
theories/Model/Electrostatics.v
theories/Model/ElementMap.v
theories/Model/ElementSetup.v
theories/Model/Errors.v
theories/Model/Evaluation4G.v
theories/Model/EwaldSetup.v
theories/Model/ForceCheck.v
theories/Model/Forces.v
theories/Model/Geometry.v
theories/Model/GroupEvaluation.v
theories/Model/Kspace.v
theories/Model/LammpsCell.v
theories/Model/LammpsInterface.v
theories/Model/LammpsLimits.v
theories/Model/LammpsSetup.v
theories/Model/LammpsWarnings.v
theories/Model/LearningCurve.v
theories/Model/NeighborList.v
theories/Model/NetworkSetup.v
theories/Model/NeuralNetwork.v
theories/Model/NeuronStats.v
theories/Model/NormTool.v
theories/Model/Normalization.v
theories/Model/NormalizationSetup.v
theories/Model/Prediction.v
theories/Model/Printf.v
theories/Model/Scaling.v
theories/Model/Select.v
theories/Model/Selection.v
theories/Model/Sensitivity.v
theories/Model/SetFiles.v
theories/Model/Settings.v
theories/Model/Shape.v
theories/Model/Stopwatch.v
theories/Model/Strings.v
theories/Model/StructureFile.v
theories/Model/SymCache.v
theories/Model/SymFunctions.v
theories/Model/SymGroups.v
theories/Model/SymLines.v
theories/Model/SymSetup.v
theories/Model/TrainWeights.v
theories/Model/TrainingSetup.v
theories/Model/Transfer.v
theories/Model/Units.v
theories/Model/UpdatePlan.v
theories/Model/Updaters.v
theories/Model/WeightDerivatives.v
theories/Model/WeightInit.v
theories/Proofs/CacheProofs.v
theories/Proofs/ChiForces.v
theories/Proofs/CollectiveProofs.v
theories/Proofs/Comp2Proofs.v
theories/Proofs/CompactProofs.v
theories/Proofs/ComparisonProofs.v
theories/Proofs/ConvertExamples.v
theories/Proofs/ConvertMain.v
theories/Proofs/ConvertProofs.v
theories/Proofs/CoreProofs.v
theories/Proofs/Covering.v
theories/Proofs/Curves4G.v
theories/Proofs/CutForces.v
theories/Proofs/CutoffMapProofs.v
theories/Proofs/CutoffProofs.v
theories/Proofs/DataFilesExamples.v
theories/Proofs/DataFilesText.v
theories/Proofs/DatasetExamples.v
theories/Proofs/DescentProofs.v
theories/Proofs/DistributeProofs.v
theories/Proofs/DistributionCount.v
theories/Proofs/DistributionExamples.v
theories/Proofs/DistributionFill.v
theories/Proofs/DistributionMain.v
theories/Proofs/DistributionProofs.v
theories/Proofs/DistributionStep.v
theories/Proofs/ElecCore.v
theories/Proofs/ElecDerive.v
theories/Proofs/ElecExamples.v
theories/Proofs/ElecFill.v
theories/Proofs/ElecForces.v
theories/Proofs/ElecIsolated.v
theories/Proofs/ElecLoops.v
theories/Proofs/ElecPerForces.v
theories/Proofs/ElecPeriodic.v
theories/Proofs/ElecProofs.v
theories/Proofs/ElecQeq.v
theories/Proofs/ElecResponse.v
theories/Proofs/ElectroSetupProofs.v
theories/Proofs/ElementMapProofs.v
theories/Proofs/ElementSetupProofs.v
theories/Proofs/EnvironmentExamples.v
theories/Proofs/EnvironmentProofs.v
theories/Proofs/EpochProofs.v
theories/Proofs/ErrorProofs.v
theories/Proofs/Evaluation4GExamples.v
theories/Proofs/Evaluation4GMore.v
theories/Proofs/Evaluation4GProofs.v
theories/Proofs/EwaldAccuracy.v
theories/Proofs/EwaldExamples.v
theories/Proofs/EwaldLoops.v
theories/Proofs/EwaldNewton.v
theories/Proofs/EwaldSetupProofs.v
theories/Proofs/EwaldUnits.v
theories/Proofs/ForceAssembly.v
theories/Proofs/ForceCheckProofs.v
theories/Proofs/ForceExamples.v
theories/Proofs/ForceLocal.v
theories/Proofs/ForceNet.v
theories/Proofs/ForceProofs.v
theories/Proofs/GeometryExamples.v
theories/Proofs/GeometryProofs.v
theories/Proofs/GroupAll.v
theories/Proofs/GroupAng.v
theories/Proofs/GroupApi.v
theories/Proofs/GroupComp.v
theories/Proofs/GroupEval.v
theories/Proofs/GroupExamples.v
theories/Proofs/GroupForceExamples.v
theories/Proofs/GroupForces.v
theories/Proofs/GroupRad.v
theories/Proofs/HistogramProofs.v
theories/Proofs/Invariance.v
theories/Proofs/InvarianceExamples.v
theories/Proofs/Isometry.v
theories/Proofs/KalmanHistory.v
theories/Proofs/KalmanProofs.v
theories/Proofs/KspaceProofs.v
theories/Proofs/LammpsAtom.v
theories/Proofs/LammpsCellProofs.v
theories/Proofs/LammpsCompute.v
theories/Proofs/LammpsExamples.v
theories/Proofs/LammpsLimitsProofs.v
theories/Proofs/LammpsProofs.v
theories/Proofs/LammpsSetupCoeff.v
theories/Proofs/LammpsSetupMain.v
theories/Proofs/LammpsSetupProofs.v
theories/Proofs/LammpsWarningsProofs.v
theories/Proofs/LearningCurveExamples.v
theories/Proofs/LearningCurveProofs.v
theories/Proofs/LongLists.v
theories/Proofs/NeighborExamples.v
theories/Proofs/NeighborHistogramProofs.v
theories/Proofs/NeighborMore.v
theories/Proofs/NeighborProofs.v
theories/Proofs/NeighborSort.v
theories/Proofs/NetExamples.v
theories/Proofs/NetForward.v
theories/Proofs/NetGrad.v
theories/Proofs/NetInit.v
theories/Proofs/NetLayout.v
theories/Proofs/NetMore.v
theories/Proofs/NetProofs.v
theories/Proofs/NetReverse.v
theories/Proofs/NetSecond.v
theories/Proofs/NetworkSetupAccept.v
theories/Proofs/NetworkSetupExamples.v
theories/Proofs/NetworkSetupMain.v
theories/Proofs/NetworkSetupProofs.v
theories/Proofs/NeuronStatsProofs.v
theories/Proofs/NormToolProofs.v
theories/Proofs/NormalizationExamples.v
theories/Proofs/NormalizationFile.v
theories/Proofs/NormalizationProofs.v
theories/Proofs/NormalizationSetupExamples.v
theories/Proofs/NormalizationSetupMain.v
theories/Proofs/NormalizationSetupProofs.v
theories/Proofs/NumericForceProofs.v
theories/Proofs/NumericWeightProofs.v
theories/Proofs/Outcome.v
theories/Proofs/PredictionExamples.v
theories/Proofs/PredictionMain.v
theories/Proofs/PredictionProofs.v
theories/Proofs/PrintfProofs.v
theories/Proofs/PruneSettings.v
theories/Proofs/Pull.v
theories/Proofs/SameSystem.v
theories/Proofs/ScalingFileProofs.v
theories/Proofs/ScalingProofs.v
theories/Proofs/SelectProofs.v
theories/Proofs/SelectSetsProofs.v
theories/Proofs/SelectionExamples.v
theories/Proofs/SelectionProofs.v
theories/Proofs/SensitivityProofs.v
theories/Proofs/Separate.v
theories/Proofs/SeparateProofs.v
theories/Proofs/SetFilesExamples.v
theories/Proofs/SetFilesProofs.v
theories/Proofs/SettingsProofs.v
theories/Proofs/SetupExamples.v
theories/Proofs/SetupProofs.v
theories/Proofs/ShapeProofs.v
theories/Proofs/Stages4G.v
theories/Proofs/StopwatchProofs.v
theories/Proofs/StringProofs.v
theories/Proofs/StructureFileExamples.v
theories/Proofs/StructureFileProofs.v
theories/Proofs/StructureFileRead.v
theories/Proofs/StructureFileRound.v
theories/Proofs/StructureFileText.v
theories/Proofs/Supercell.v
theories/Proofs/SupercellProofs.v
theories/Proofs/SymAll.v
theories/Proofs/SymApi.v
theories/Proofs/SymEval.v
theories/Proofs/SymExamples.v
theories/Proofs/SymGrad.v
theories/Proofs/SymInv.v
theories/Proofs/SymKinds.v
theories/Proofs/SymKindsAng.v
theories/Proofs/SymLabelled.v
theories/Proofs/SymLineExamples.v
theories/Proofs/SymLineFinal.v
theories/Proofs/SymLineMode.v
theories/Proofs/SymLineProofs.v
theories/Proofs/SymLinePrune.v
theories/Proofs/SymLineResult.v
theories/Proofs/SymLineSetup.v
theories/Proofs/SymLineUse.v
theories/Proofs/SymTerms.v
theories/Proofs/TrainWeightsExamples.v
theories/Proofs/TrainWeightsProofs.v
theories/Proofs/TrainingExamples.v
theories/Proofs/TrainingFiles.v
theories/Proofs/TrainingLoop.v
theories/Proofs/TrainingMain.v
theories/Proofs/TrainingResults.v
theories/Proofs/TrainingSchedule.v
theories/Proofs/TrainingSelection.v
theories/Proofs/TrainingTheorems.v
theories/Proofs/TrainingUpdaters.v
theories/Proofs/TransferExamples.v
theories/Proofs/TransferProofs.v
theories/Proofs/Truncate.v
theories/Proofs/UnitProofs.v
theories/Proofs/UnitsProofs.v
theories/Proofs/UpdatePlanExamples.v
theories/Proofs/UpdatePlanProofs.v
theories/Proofs/UpdaterExamples.v
theories/Proofs/WeightCollect.v
theories/Proofs/WeightFinal.v
theories/Proofs/WeightForms.v
theories/Proofs/WeightInitExamples.v
theories/Proofs/WeightInitProofs.v
theories/Proofs/WeightNet.v
theories/Proofs/WeightOwn.v
theories/Proofs/WeightProofs.v
theories/Proofs/WeightSums.v
theories/Proofs/WeightsFileProofs.v
theories/Props/AnalysisProps.v
theories/Props/Comp2Props.v
theories/Props/ComparisonProps.v
theories/Props/ConvertProps.v
theories/Props/CutoffProps.v
theories/Props/DataFilesProps.v
theories/Props/DatasetProps.v
theories/Props/DistributionProps.v
theories/Props/ElecProps.v
theories/Props/ElementProps.v
theories/Props/ElementSetupProps.v
theories/Props/ErrorProps.v
theories/Props/Evaluation4GProps.v
theories/Props/EwaldProps.v
theories/Props/ForceCheckProps.v
theories/Props/ForceProps.v
theories/Props/GeometryProps.v
theories/Props/InvarianceProps.v
theories/Props/KspaceProps.v
theories/Props/LammpsCellProps.v
theories/Props/LammpsProps.v
theories/Props/LammpsSetupProps.v
theories/Props/LammpsWarningsProps.v
theories/Props/LearningCurveProps.v
theories/Props/NeighborProps.v
theories/Props/NetworkProps.v
theories/Props/NetworkSetupProps.v
theories/Props/NeuronStatsProps.v
theories/Props/NormToolProps.v
theories/Props/NormalizationProps.v
theories/Props/NormalizationSetupProps.v
theories/Props/PredictionProps.v
theories/Props/PrintfProps.v
theories/Props/ResponseProps.v
theories/Props/ScalingProps.v
theories/Props/SelectProps.v
theories/Props/SelectionProps.v
theories/Props/SensitivityProps.v
theories/Props/SetFilesProps.v
theories/Props/SettingsProps.v
theories/Props/SetupProps.v
theories/Props/ShapeProps.v
theories/Props/StopwatchProps.v
theories/Props/StringProps.v
theories/Props/StructureFileProps.v
theories/Props/SymGroupProps.v
theories/Props/SymLineProps.v
theories/Props/SymProps.v
theories/Props/TrainWeightsProps.v
theories/Props/TrainingProps.v
theories/Props/TransferProps.v
theories/Props/UnitsProps.v
theories/Props/UpdatePlanProps.v
theories/Props/UpdaterProps.v
theories/Props/WeightInitProps.v
theories/Props/WeightProps.v
theories/Spec/Comp2Spec.v
theories/Spec/CompactSpec.v
theories/Spec/ComparisonSpec.v
theories/Spec/ConvertSpec.v
theories/Spec/CutoffSpec.v
theories/Spec/DataAnalysisSpec.v
theories/Spec/DataFilesSpec.v
theories/Spec/DatasetSpec.v
theories/Spec/DistributionSpec.v
theories/Spec/ElecSpec.v
theories/Spec/ElementSetupSpec.v
theories/Spec/ElementSpec.v
theories/Spec/ErrorSpec.v
theories/Spec/Evaluation4GSpec.v
theories/Spec/EvaluationSpec.v
theories/Spec/EwaldSpec.v
theories/Spec/ForceCheckSpec.v
theories/Spec/ForceSpec.v
theories/Spec/GeometrySpec.v
theories/Spec/GroupSpec.v
theories/Spec/InitSpec.v
theories/Spec/InvarianceSpec.v
theories/Spec/KspaceSpec.v
theories/Spec/LammpsCellSpec.v
theories/Spec/LammpsLimitsSpec.v
theories/Spec/LammpsSetupSpec.v
theories/Spec/LammpsSpec.v
theories/Spec/LammpsWarningsSpec.v
theories/Spec/LearningCurveSpec.v
theories/Spec/NeighborSpec.v
theories/Spec/NetworkSetupSpec.v
theories/Spec/NetworkSpec.v
theories/Spec/NeuronStatsSpec.v
theories/Spec/NormToolSpec.v
theories/Spec/NormalizationSetupSpec.v
theories/Spec/NormalizationSpec.v
theories/Spec/PredictionSpec.v
theories/Spec/PrintfSpec.v
theories/Spec/ScalingSpec.v
theories/Spec/SelectSpec.v
theories/Spec/SelectionSpec.v
theories/Spec/SensitivitySpec.v
theories/Spec/SetFilesSpec.v
theories/Spec/SettingsSpec.v
theories/Spec/SetupSpec.v
theories/Spec/ShapeSpec.v
theories/Spec/StopwatchSpec.v
theories/Spec/StringSpec.v
theories/Spec/StructureFileSpec.v
theories/Spec/SymLineSpec.v
theories/Spec/SymSpec.v
theories/Spec/TrainWeightsSpec.v
theories/Spec/TrainingSpec.v
theories/Spec/TransferSpec.v
theories/Spec/UnitsSpec.v
theories/Spec/UpdatePlanSpec.v
theories/Spec/UpdaterSpec.v
theories/Spec/WeightInitSpec.v
theories/Spec/WeightSpec.v
