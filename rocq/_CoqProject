-Q theories Verif
theories/Dbl.v
theories/DblProofs.v
theories/Syntax.v
theories/Sem.v
theories/SemProofs.v
theories/FormulaCons.v
theories/FormulaConsProofs.v
theories/SpecForm.v
theories/Nnf.v
theories/NnfProofs.v
theories/PredAbs.v
theories/PredAbsProofs.v
theories/Tseitin.v
theories/TseitinProofs.v
theories/TseitinShape.v
theories/ConsUnfolded.v
theories/ExamplesForm.v
theories/PropertiesForm.v
theories/Interval.v
theories/IntervalProofs.v
theories/BoxHeap.v
theories/BoxHeapProofs.v
theories/MathConv.v
theories/MathConvProofs.v
theories/ExamplesBox.v
theories/PropertiesBox.v
theories/IEval.v
theories/IEvalProofs.v
theories/StdInterp.v
theories/ExamplesEval.v
theories/Contr.v
theories/ContrProofs.v
theories/IbexConv.v
theories/IbexConvProofs.v
theories/ContrTop.v
theories/ExamplesContr.v
theories/PropertiesEval.v
theories/Icp.v
theories/IcpProofs.v
theories/IcpTop.v
theories/IcpPar.v
theories/IcpParProofs.v
theories/IcpParTop.v
theories/ExamplesIcp.v
theories/PropertiesIcp.v
theories/Filter.v
theories/FilterProofs.v
theories/ExamplesFilter.v
theories/PropertiesFilter.v
theories/Theory.v
theories/ExplainProofs.v
theories/TheoryProofs.v
theories/TheoryUsed.v
theories/TheoryTop.v
theories/VarSet.v
theories/VarSetProofs.v
theories/ExamplesTheory.v
theories/PropertiesTheory.v
theories/IteElim.v
theories/SpecIte.v
theories/IteElimProofs.v
theories/ExamplesIte.v
theories/PropertiesIte.v
theories/Scoped.v
theories/SpecScoped.v
theories/ScopedProofs.v
theories/Options.v
theories/SpecOptions.v
theories/OptionsProofs.v
theories/PropertiesUtil.v
theories/Regular.v
theories/RegularProofs.v
theories/Sat.v
theories/Context.v
theories/Wff.v
theories/WffProofs.v
theories/CtxStruct.v
theories/SatSem.v
theories/CdclProofs.v
theories/SpecCtx.v
theories/CtxBox.v
theories/CtxSem.v
theories/CtxRun.v
theories/CtxInv.v
theories/CtxTop.v
theories/CtxModel.v
theories/SatReach.v
theories/ExamplesCtx.v
theories/PropertiesCtx.v
theories/SpecWeak.v
theories/TheorySat.v
theories/SpecModel.v
theories/CtxSat.v
theories/CtxHom.v
theories/CtxDom.v
theories/CtxDelta.v
theories/CtxModelTop.v
theories/ExamplesModel.v
theories/PropertiesModel.v
theories/CtxDeltaVal.v
theories/CtxDeltaInv.v
theories/ExamplesDelta.v
theories/PropertiesDelta.v
theories/Order.v
theories/ExprAlg.v
theories/PowProofs.v
theories/SpecAlg.v
theories/ExprAlgProofs.v
theories/Subst.v
theories/SubstProofs.v
theories/AlgClosed.v
theories/CmpSound.v
theories/DeltaStr.v
theories/DeltaStrProofs.v
theories/AlgTop.v
theories/ExamplesAlg.v
theories/PropertiesAlg.v
theories/Diff.v
theories/SpecDiff.v
theories/RealDiff.v
theories/DiffProofs.v
theories/ExamplesDiff.v
theories/PropertiesDiff.v
theories/ThreadPool.v
theories/SpecPool.v
theories/ThreadPoolProofs.v
theories/ThreadId.v
theories/SpecTid.v
theories/ThreadIdProofs.v
theories/ExamplesPool.v
theories/PropertiesPool.v
theories/Smt2.v
theories/SpecSmt2.v
theories/SmtOcc.v
theories/Smt2Proofs.v
theories/Smt2Top.v
theories/Smt2Sound.v
theories/Smt2Out.v
theories/SpecOut.v
theories/Smt2OutProofs.v
theories/ExamplesSmt2.v
theories/ExamplesOut.v
theories/PropertiesSmt2.v
theories/Minim.v
theories/SpecMin.v
theories/MinimProofs.v
theories/ExamplesMin.v
theories/PropertiesMin.v
theories/Api.v
theories/SpecApi.v
theories/ApiProofs.v
theories/Dr.v
theories/SpecDr.v
theories/DrProofs.v
theories/ApiTop.v
theories/ExamplesDr.v
theories/PropertiesApi.v
theories/Forall.v
theories/SpecForall.v
theories/ContrFull.v
theories/TheoryFull.v
theories/ForallInner.v
theories/ForallProofs.v
theories/ForallEval.v
theories/ExamplesForall.v
theories/PropertiesForall.v
theories/Cache.v
theories/SpecCache.v
theories/CacheProofs.v
theories/CacheLink.v
theories/CacheCtx.v
theories/CacheTop.v
theories/ExamplesCache.v
theories/PropertiesCache.v
theories/SpecQuant.v
theories/QuantTop.v
theories/ExamplesQuant.v
theories/PropertiesQuant.v
theories/SpecFaith.v
theories/CtxFaith.v
theories/MinFaith.v
theories/ExamplesFaith.v
theories/ApiFaith.v
theories/PropertiesMinProblem.v
theories/SpecDrMin.v
theories/DrFaith.v
theories/DrTop.v
theories/ExamplesDrMin.v
theories/PropertiesDrMin.v
theories/Less.v
theories/SpecOrder.v
theories/OrderProofs.v
theories/OrderTop.v
theories/OrderEq.v
theories/OrderUse.v
theories/ExamplesOrder.v
theories/PropertiesOrder.v
theories/Literal.v
theories/SpecLiteral.v
theories/LiteralProofs.v
theories/LiteralTop.v
theories/ExamplesLiteral.v
theories/PropertiesLiteral.v
theories/Refiner.v
theories/SpecRefine.v
theories/RefinerProofs.v
theories/ExamplesRefine.v
theories/PropertiesRefine.v
theories/SpecFuel.v
theories/AlgFuel.v
theories/AlgFuelTop.v
theories/AlgFuelSmt.v
theories/AlgClosedAny.v
theories/AlgFuelStr.v
theories/PropertiesFuel.v
theories/SpecWork.v
theories/WorkProofs.v
theories/StopProofs.v
theories/ExamplesWork.v
theories/PropertiesWork.v
theories/SpecBranch.v
theories/BranchProofs.v
theories/ExamplesBranch.v
theories/PropertiesBranch.v
theories/Prefix.v
theories/PrefixRead.v
theories/SpecPrefix.v
theories/PrefixNum.v
theories/PrefixReread.v
theories/PrefixText.v
theories/PrefixProofs.v
theories/ExamplesPrefix.v
theories/PropertiesPrefix.v
theories/SpecSmooth.v
theories/SmoothProofs.v
theories/ExamplesSmooth.v
theories/PropertiesSmooth.v
theories/Changed.v
theories/ExamplesSmt2Q.v
theories/PropertiesSmt2Q.v
theories/SpecSmtWeak.v
theories/SmtWeak.v
theories/ExamplesSmtWeak.v
theories/PropertiesSmtWeak.v
theories/SpecApiQ.v
theories/ApiQuant.v
theories/ExamplesApiQ.v
theories/PropertiesApiQ.v
theories/Main.v
theories/SpecMain.v
theories/MainProofs.v
theories/ExamplesMain.v
theories/PropertiesMain.v
theories/IcpParX.v
theories/IcpParXProofs.v
theories/IcpParXTop.v
theories/ExamplesIcpParX.v
theories/PropertiesIcpParX.v
theories/Scan.v
theories/SpecScan.v
theories/ScanProofs.v
theories/ExamplesScan.v
theories/PropertiesScan.v
theories/DrScan.v
theories/SpecDrScan.v
theories/DrScanProofs.v
theories/ExamplesDrScan.v
theories/PropertiesDrScan.v
theories/SpecPrefixScan.v
theories/PrefixScan.v
theories/ExamplesPrefixScan.v
theories/PropertiesPrefixScan.v
