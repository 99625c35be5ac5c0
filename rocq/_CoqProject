-Q theories Verif
theories/Field.v
theories/Primes.v
theories/RangeModel.v
theories/RangeFacts.v
theories/ExprModel.v
theories/ExprFacts.v
theories/ExprWf.v
theories/ExprMore.v
theories/SolveModel.v
theories/SolveFacts.v
theories/SolveComplete.v
theories/SystemModel.v
theories/IndexFacts.v
theories/IndexHist.v
theories/Spec.v
theories/Bridge.v
theories/BusModel.v
theories/BusFacts.v
theories/PropsRange.v
theories/PropsExpr.v
theories/PropsSolve.v
theories/PropsIndex.v
theories/InlinerModel.v
theories/InlinerFacts.v
theories/PropsInliner.v
theories/PropsBus.v
theories/SplitterModel.v
theories/SplitterFacts.v
theories/BoolLinModel.v
theories/BoolLinFacts.v
theories/LinHist.v
theories/BoolHist.v
theories/PropsSolver.v
theories/SearchModel.v
theories/SearchFacts.v
theories/PropsSearch.v
theories/BaseModel.v
theories/BaseFacts.v
theories/SolverSpec.v
theories/BaseSolve.v
theories/PropsBase.v
theories/OvmModel.v
theories/OvmSpec.v
theories/OvmFacts.v
theories/OvmBatch.v
theories/PropsOvm.v
theories/BlocksModel.v
theories/BlocksSpec.v
theories/BlocksFacts.v
theories/PropsBlocks.v
theories/ExecModel.v
theories/ExecSpec.v
theories/ExecFacts.v
theories/CandFacts.v
theories/CandHist.v
theories/PropsExec.v
theories/PartModel.v
theories/PartSpec.v
theories/PartFacts.v
theories/PropsPart.v
theories/EmpModel.v
theories/EmpSpec.v
theories/EmpFacts.v
theories/PropsEmp.v
theories/SymModel.v
theories/SymSpec.v
theories/SymFacts.v
theories/PropsSym.v
theories/MemModel.v
theories/MemSpec.v
theories/MemFacts.v
theories/MemSem.v
theories/ExecBusFacts.v
theories/PropsMem.v
theories/PassModel.v
theories/PassSpec.v
theories/PassFacts.v
theories/PassSem.v
theories/PassReach.v
theories/PropsPass.v
theories/ExhModel.v
theories/ExhFacts.v
theories/PropsExh.v
theories/LowModel.v
theories/LowSpec.v
theories/LowFacts.v
theories/LowSem.v
theories/LowOvm.v
theories/LowUnique.v
theories/PropsLow.v
theories/RuleModel.v
theories/RuleSpec.v
theories/RuleFacts.v
theories/RuleReplace.v
theories/RuleDrive.v
theories/RuleBack.v
theories/RuleDegree.v
theories/PropsRule.v
theories/Fermat.v
theories/GoldModel.v
theories/GoldFacts.v
theories/NumModel.v
theories/NumFacts.v
theories/PropsGold.v
theories/PropsNum.v
theories/TraceModel.v
theories/TraceSpec.v
theories/TraceFacts.v
theories/TraceMain.v
theories/TraceBlock.v
theories/PropsTrace.v
theories/OptModel.v
theories/OptSpec.v
theories/OptFacts.v
theories/OptRestrict.v
theories/OptBlock.v
theories/OptMore.v
theories/PropsOpt.v
theories/PipeModel.v
theories/PipeSpec.v
theories/PipeSolver.v
theories/PipeStruct.v
theories/PipeStruct2.v
theories/PipeFacts.v
theories/PipeForward.v
theories/PipeBack.v
theories/PipeMachineSpec.v
theories/PipeMachine.v
theories/PipeRun.v
theories/PropsPipe.v
theories/BuildModel.v
theories/BuildSpec.v
theories/BuildFacts.v
theories/BuildStitch.v
theories/PropsBuild.v
theories/K256Prime.v
theories/K256Model.v
theories/K256Spec.v
theories/K256Mul.v
theories/K256Norm.v
theories/K256Ops.v
theories/K256Pow.v
theories/K256Bytes.v
theories/PropsK256.v
theories/CudaModel.v
theories/CudaSpec.v
theories/CudaSched.v
theories/CudaFacts.v
theories/CudaCompile.v
theories/CudaMain.v
theories/PropsCuda.v
theories/SelModel.v
theories/SelSpec.v
theories/SelCount.v
theories/SelFacts.v
theories/SelCompile.v
theories/PropsSel.v
theories/ElfModel.v
theories/ElfSpec.v
theories/ElfFacts.v
theories/ElfLoad.v
theories/PropsElf.v
theories/SeModel.v
theories/SeSpec.v
theories/PropsSe.v
theories/AirModel.v
theories/AirSpec.v
theories/AirFacts.v
theories/ArenaFacts.v
theories/PropsAir.v
theories/JsonModel.v
theories/JsonSpec.v
theories/JsonFacts.v
theories/PrintFacts.v
theories/PropsJson.v
theories/WordModel.v
theories/WordSpec.v
theories/WordFacts.v
theories/PropsWord.v
theories/DbgModel.v
theories/DbgSpec.v
theories/DbgFacts.v
theories/DbgFacts2.v
theories/PropsDbg.v
theories/VisitModel.v
theories/VisitSpec.v
theories/VisitFacts.v
theories/VisitFacts2.v
theories/PropsVisit.v
theories/ExportModel.v
theories/ExportSpec.v
theories/ExportFacts.v
theories/PropsExport.v
theories/ProfileModel.v
theories/ProfileSpec.v
theories/ProfileFacts.v
theories/PropsProfile.v
theories/CacheModel.v
theories/CacheSpec.v
theories/CacheFacts.v
theories/PropsCache.v
theories/FormatModel.v
theories/FormatSpec.v
theories/FormatFacts.v
theories/PropsFormat.v
theories/DummyModel.v
theories/DummySpec.v
theories/DummyFacts.v
theories/PropsDummy.v
theories/SegmentModel.v
theories/SegmentSpec.v
theories/PropsSegment.v
theories/IdModel.v
theories/IdSpec.v
theories/IdFacts.v
theories/IdRound.v
theories/PropsId.v
theories/CollectModel.v
theories/CollectSpec.v
theories/CollectFacts.v
theories/PropsCollect.v
theories/SoftModel.v
theories/SoftSpec.v
theories/SoftFacts.v
theories/PropsSoft.v
theories/PropsSuper.v
theories/WideModel.v
theories/WideSpec.v
theories/WideFacts.v
theories/PropsWide.v
theories/HintModel.v
theories/HintSpec.v
theories/HintFacts.v
theories/PropsHint.v
theories/RetypeModel.v
theories/RetypeSpec.v
theories/PropsRetype.v
theories/BusmapModel.v
theories/PropsBusmap.v
theories/LineModel.v
theories/LineSpec.v
theories/PropsLine.v
theories/AttrModel.v
theories/AttrSpec.v
theories/PropsAttr.v
theories/ArgsModel.v
theories/PropsArgs.v
theories/InitModel.v
theories/InitSpec.v
theories/PropsInit.v
theories/ToolModel.v
theories/PropsTool.v
