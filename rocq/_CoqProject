-Q theories Verif

theories/Syntax.v
theories/Solver.v
theories/TransSys.v
theories/TSLemmas.v
theories/KTo1Model.v
theories/KTo1Proofs.v
theories/KTo1Proofs2.v
theories/KTo1Proofs3.v
theories/KindModel.v
theories/KindProofs.v
theories/ExTac.v
theories/PropKind.v
theories/BmcImcModel.v
theories/BmcImcProofs.v
theories/PropBmcImc.v
theories/DarModel.v
theories/DarProofs.v
theories/PropDar.v
theories/Names.v
theories/PropNames.v
theories/FormulaModel.v
theories/FormulaProofs.v
theories/FormulaProofs2.v
theories/FormulaProofs3.v
theories/PropFormula.v
theories/Graph.v
theories/ValidatorModel.v
theories/ValidatorProofs.v
theories/PropValidator.v
theories/GraphOps.v
theories/GraphOpsProofs.v
theories/DfsProofs.v
theories/LoopProofs.v
theories/ReverseProofs.v
theories/PropGraph.v
theories/GraphSem.v
theories/GraphEx.v
theories/SimpleTransModel.v
theories/UnreachProofs.v
theories/UnreachProofs2.v
theories/SimpleTransProofs.v
theories/SimpleTransProofs2.v
theories/SimplifierProofs.v
theories/PropSimpleTrans.v
theories/ListLemmas.v
theories/MergeModel.v
theories/MergeProofs.v
theories/ChainProofs.v
theories/ChainStep.v
theories/ExpandProofs.v
theories/ChainBack.v
theories/ChainTotal.v
theories/ChainValid.v
theories/PropChain.v
theories/EntailModel.v
theories/PropEntail.v
theories/ChcSystem.v
theories/TerminationModel.v
theories/TerminationProofs.v
theories/NontermProofs.v
theories/PropTermination.v
theories/SExprModel.v
theories/SExprProofs.v
theories/PropSExpr.v
theories/LetModel.v
theories/LetProofs.v
theories/PropLet.v
theories/LinearModel.v
theories/LinearProofs.v
theories/LinearPath.v
theories/LinearTS.v
theories/PropLinear.v
theories/PdkModel.v
theories/PdkProofs.v
theories/PropPdk.v
theories/ElimModel.v
theories/PairProofs.v
theories/PairLabel.v
theories/ElimProofs.v
theories/ElimValid.v
theories/ElimBack.v
theories/ElimLoop.v
theories/PropElim.v
theories/SymExModel.v
theories/SymExProofs.v
theories/PropSymEx.v
theories/BoolOracle.v
theories/SpacerModel.v
theories/SpacerProofs.v
theories/SpacerRun.v
theories/SpacerTotal.v
theories/PropSpacer.v
theories/Lin.v
theories/MbpModel.v
theories/MbpLia.v
theories/MbpClassic.v
theories/MbpLra.v
theories/MbpProofs.v
theories/QeProofs.v
theories/PropMbp.v
theories/NormModel.v
theories/NormProofs.v
theories/NormRun.v
theories/PropNorm.v
theories/InlineModel.v
theories/InlineProofs.v
theories/InlineValid.v
theories/InlineStep.v
theories/PropInline.v
theories/ContractModel.v
theories/ContractProofs.v
theories/ContractLabels.v
theories/ContractSem.v
theories/ContractWf.v
theories/ContractDef.v
theories/LMerge.v
theories/SingleLoopProofs.v
theories/SingleLoopPath.v
theories/PropSingleLoop.v
theories/NestedModel.v
theories/NestedProofs.v
theories/NestedInv.v
theories/PropNested.v
theories/TrlModel.v
theories/TrlGreedy.v
theories/TrlProofs.v
theories/TrlRun.v
theories/PropTrl.v
theories/TpaModel.v
theories/TpaProofs.v
theories/TpaQuery.v
theories/TpaLess.v
theories/TpaFix.v
theories/TpaRun.v
theories/TpaInv.v
theories/TpaTop.v
theories/PropTpa.v
theories/LawiModel.v
theories/LawiTree.v
theories/LawiProofs.v
theories/LawiRun.v
theories/PropLawi.v
theories/ArgModel.v
theories/ArgClean.v
theories/ArgTree.v
theories/ArgInv.v
theories/ArgRefine.v
theories/ArgRun.v
theories/PropArg.v
theories/BmcGraphModel.v
theories/BmcGraphProofs.v
theories/PropBmcGraph.v
theories/DagModel.v
theories/TpaReuse.v
theories/DagSys.v
theories/DagProofs.v
theories/DagTop.v
theories/PropDag.v
theories/TpaEngineModel.v
theories/TpaEngineProofs.v
theories/PropTpaEngine.v
theories/AletheModel.v
theories/AletheSpec.v
theories/AletheSound.v
theories/AletheNum.v
theories/AletheLet.v
theories/AletheSimp.v
theories/AletheSimp2.v
theories/AletheBuild.v
theories/AletheInst.v
theories/AletheTop.v
theories/AletheSorted.v
theories/PropAlethe.v
theories/PortfolioModel.v
theories/PortfolioProofs.v
theories/PortfolioTop.v
theories/PropPortfolio.v
theories/FrontModel.v
theories/FrontSpec.v
theories/FrontProofs.v
theories/FrontClause.v
theories/FrontScript.v
theories/FrontEx.v
theories/PropFront.v
theories/PipelineModel.v
theories/PipelineProofs.v
theories/PipelineTotal.v
theories/PropPipeline.v
theories/TermRuns.v
theories/TermChain.v
theories/TermElim.v
theories/TermInline.v
theories/TermStages.v
theories/PropTermFront.v
theories/Retag.v
theories/RetagStages.v
theories/PropRetag.v
theories/TermSystem.v
theories/NamedStages.v
theories/PropTermSystem.v
theories/ItsModel.v
theories/ItsSpec.v
theories/ItsProofs.v
theories/PropIts.v
theories/TermNames.v
theories/PropTermAnswer.v
theories/VmtModel.v
theories/VmtSpec.v
theories/VmtProofs.v
theories/PropVmt.v
theories/VmtLiveModel.v
theories/VmtLiveSpec.v
theories/PropVmtLive.v
theories/NestedPathModel.v
theories/NestedPath.v
theories/PropNestedPath.v
theories/NestedEngineModel.v
theories/NestedEngineProofs.v
theories/PropNestedEngine.v
theories/OptionsModel.v
theories/PropOptions.v
theories/MainModel.v
theories/PropMain.v
