-Q theories Verif

theories/PyBase.v
theories/PyBaseFacts.v
theories/Scalars.v
theories/ForecastModel.v
theories/ForecastSpec.v
theories/ForecastProofs.v
theories/EnsembleProofs.v
theories/ForecastMore.v
theories/ForecastProps.v
theories/SchemesModel.v
theories/SchemesSpec.v
theories/SchemesProofs.v
theories/ModelProofs.v
theories/SchemesProps.v
theories/LinearMore.v
theories/LinearProps.v
theories/WindowModel.v
theories/WindowSpec.v
theories/WindowProofs.v
theories/WindowProps.v
theories/FieldFacts.v
theories/FornbergModel.v
theories/FDSpec.v
theories/FornbergProofs.v
theories/FDProofs.v
theories/FDReal.v
theories/FDExprModel.v
theories/FDExprSpec.v
theories/FDExprProofs.v
theories/FDSubsProofs.v
theories/FDProps.v
theories/GridModel.v
theories/GridSpec.v
theories/GridProofs.v
theories/GridMore.v
theories/GridProps.v
theories/StrModel.v
theories/StrSpec.v
theories/StrProofs.v
theories/StrMore.v
theories/StrProps.v
theories/PartialOrderModel.v
theories/PartialOrderSpec.v
theories/PartialOrderProofs.v
theories/Reynolds.v
theories/ReynoldsInst.v
theories/TreeModel.v
theories/TreeSpec.v
theories/TreeProofs.v
theories/TreeMore.v
theories/TreeProps.v
theories/SymModel.v
theories/RandomModel.v
theories/RandomSpec.v
theories/RandomProofs.v
theories/RandomMore.v
theories/RandomTotal.v
theories/RandomInst.v
theories/RandomProps.v
theories/PDEModel.v
theories/PDESpec.v
theories/PDEProofs.v
theories/PDEProps.v
theories/UtilModel.v
theories/UtilSpec.v
theories/UtilProofs.v
theories/UtilProps.v
theories/CodegenModel.v
theories/CodegenSpec.v
theories/CodegenProofs.v
theories/CodegenRun.v
theories/CodegenFail.v
theories/CodegenProps.v
theories/CodegenRootProps.v
theories/PKFModel.v
theories/PKFSpec.v
theories/PKFAlg.v
theories/PKFAtoms.v
theories/PKFTaylor.v
theories/PKFClosure.v
theories/PKFProofs.v
theories/PKFTensor.v
theories/PKFInst.v
theories/PKFInv.v
theories/PKFShape.v
theories/PKFMore.v
theories/PKFMain.v
theories/PKFInstMore.v
theories/PKFApplied.v
theories/PKFProps.v
theories/PKFWords.v
theories/PKFTime.v
theories/PKFTimeSpec.v
theories/PKFExplicit.v
theories/PKFExplicitMain.v
theories/PKFTimeProps.v
theories/PKFCanon.v
theories/PKFNormal.v
theories/PKFReduced.v
theories/PKFReducedProps.v
theories/PKFObjModel.v
theories/PKFObjSpec.v
theories/PKFObjProofs.v
theories/PKFObjMain.v
theories/PKFObjShared.v
theories/PKFObjProps.v
theories/NameModel.v
theories/NameSpec.v
theories/NameProofs.v
theories/NameProps.v
theories/ClosureModel.v
theories/ClosureSpec.v
theories/ClosureProofs.v
theories/ClosureHist.v
theories/ClosureMain.v
theories/ClosureProps.v
theories/CorrModel.v
theories/CorrSpec.v
theories/CorrProofs.v
theories/CorrProps.v
theories/OrderSpec.v
theories/OrderProofs.v
theories/OrderLocal.v
theories/OrderGlobal.v
theories/OrderMain.v
theories/OrderProps.v
theories/PKFOrderSpec.v
theories/PKFDegree.v
theories/PKFDegreeMain.v
theories/PKFDegreeInst.v
theories/PKFDegreeProps.v
theories/ForecastGenModel.v
theories/ForecastGenSpec.v
theories/ForecastGenProofs.v
theories/ForecastGenProps.v
theories/PKFVal.v
theories/PKFRateSpec.v
theories/PKFRateProofs.v
theories/PKFRateMain.v
theories/PKFRateProps.v
theories/PKFStdModel.v
theories/PKFStdSpec.v
theories/PKFStdProofs.v
theories/PKFStdProps.v
theories/PKFLine.v
theories/BurgersModel.v
theories/BurgersSpec.v
theories/BurgersInst.v
theories/BurgersProofs.v
theories/BurgersMain.v
theories/BurgersProps.v
theories/TemplateText.v
theories/JinjaModel.v
theories/BuilderModel.v
theories/ModuleSpec.v
theories/BuilderSpec.v
theories/ModuleProofs.v
theories/ModuleMain.v
theories/ModuleText.v
theories/ModuleIndent.v
theories/BuilderProofs.v
theories/BuilderMain.v
theories/GenInitModel.v
theories/GenInitSpec.v
theories/GenInitProofs.v
theories/ModuleProps.v
theories/StagModel.v
theories/StagSpec.v
theories/StagProofs.v
theories/StagMain.v
theories/StagProps.v
theories/SubsTreeModel.v
theories/SubsTreeSpec.v
theories/SubsTreeProofs.v
theories/SubsTreeMain.v
theories/SubsTreeProps.v
theories/CorrDiffModel.v
theories/CorrDiffProofs.v
theories/CorrDiffMain.v
theories/CorrDiffProps.v
theories/ConsistSpec.v
theories/ConsistModel.v
theories/ConsistProofs.v
theories/ConsistMain.v
theories/ConsistTrend.v
theories/ConsistFinal.v
theories/ConsistWaves.v
theories/ConsistProps.v
theories/FloatModel.v
theories/FloatSpec.v
theories/FloatProofs.v
theories/FloatStart.v
theories/FloatCases.v
theories/FloatProps.v
theories/FDSystemModel.v
theories/SystemProps.v
theories/LineModel.v
theories/LineSpec.v
theories/LineProofs.v
theories/LineConv.v
theories/LineCases.v
theories/LineProps.v
theories/EnergySpec.v
theories/EnergyProofs.v
theories/EnergyProps.v
theories/AdvectModel.v
theories/AdvectSpec.v
theories/AdvectTrend.v
theories/AdvectGrid.v
theories/AdvectConv.v
theories/AdvectWave.v
theories/AdvectCases.v
theories/AdvectProps.v
theories/PKFLinearSpec.v
theories/PKFLinear.v
theories/PKFTransport.v
theories/PKFTransportMain.v
theories/PKFTransportProps.v
theories/WindNorm.v
theories/WindGrid.v
theories/WindSpec.v
theories/WindConv.v
theories/WindMain.v
theories/WindCases.v
theories/WindProps.v
theories/StatModel.v
theories/StatSmooth.v
theories/StatInverse.v
theories/StatSpec.v
theories/StatMean.v
theories/StatConv.v
theories/StatTrend.v
theories/StatMain.v
theories/StatLink.v
theories/StatCases.v
theories/StatProps.v
theories/DiffuseModel.v
theories/DiffuseSpec.v
theories/DiffuseEq.v
theories/DiffuseTrend.v
theories/DiffuseGrid.v
theories/DiffuseGauge.v
theories/DiffuseSym.v
theories/DiffuseConv.v
theories/DiffuseMain.v
theories/DiffuseForecast.v
theories/DiffuseCases.v
theories/DiffuseProps.v
theories/LineMoreModel.v
theories/LineMoreSpec.v
theories/LineMoreProofs.v
theories/LineMoreForecast.v
theories/LineEnergy.v
theories/LineStage.v
theories/LineStep.v
theories/LineRms.v
theories/LineMoreCases.v
theories/LineMoreProps.v
theories/CodeTextModel.v
theories/CodeTextSpec.v
theories/CodeTextProofs.v
theories/CodeTextProps.v
theories/PKFCoupledSpec.v
theories/PKFCoupled.v
theories/PKFCoupledMain.v
theories/PKFCoupledInst.v
theories/PKFCoupledProps.v
theories/FloatSchemeModel.v
theories/FloatSchemeSpec.v
theories/FloatSchemeProofs.v
theories/FloatRun.v
theories/FloatLine.v
theories/FloatSchemeCases.v
theories/FloatSchemeProps.v
theories/TangentSpec.v
theories/TangentProofs.v
theories/TangentLine.v
theories/TangentCases.v
theories/TangentProps.v
theories/TangentSysSpec.v
theories/TangentSysProofs.v
theories/TangentSysMain.v
theories/TangentSysClass.v
theories/TangentSysCases.v
theories/TangentSysProps.v
theories/BuilderObjModel.v
theories/BuilderObjSpec.v
theories/BuilderObjProofs.v
theories/BuilderObjProps.v
theories/EnsStatSpec.v
theories/EnsStatProofs.v
theories/EnsStatCases.v
theories/EnsStatProps.v
theories/SysObjModel.v
theories/SysObjSpec.v
theories/SysObjProofs.v
theories/SysObjProps.v
