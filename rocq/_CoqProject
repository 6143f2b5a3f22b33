-Q theories Verif
theories/Base.v
theories/Num.v
theories/Sets.v
theories/SetSpec.v
theories/SetIv.v
theories/SetProofs.v
theories/SetIvOr.v
theories/SetOr.v
theories/SetOps.v
theories/SetAlg.v
theories/SetBuilt.v
theories/PropSets.v
theories/Poly.v
theories/Trans.v
theories/TransSpec.v
theories/TransFacts.v
theories/PolyProofs.v
theories/InvProofs.v
theories/InvMain.v
theories/EvProofs.v
theories/ArithProofs.v
theories/PolyEx.v
theories/PropTrans.v
theories/Dnf.v
theories/DnfSpec.v
theories/DnfProofs.v
theories/DnfUnion.v
theories/PropDnf.v
theories/Logs.v
theories/PropLogs.v
theories/Spe.v
theories/SpeSpec.v
theories/SpeFacts.v
theories/SpeRect.v
theories/LeafProofs.v
theories/LeafEvents.v
theories/LeafCond.v
theories/SpeCons.v
theories/LeafGiven.v
theories/MemoProofs.v
theories/NormSorts.v
theories/LogprobProofs.v
theories/LogprobTop.v
theories/SpeEq.v
theories/SimplifyProofs.v
theories/CondTypes.v
theories/CondProofs.v
theories/CondTop.v
theories/PropSpe.v
theories/Uniform.v
theories/Instances.v
theories/SpeEx.v
theories/SpeOps.v
theories/OpsProofs.v
theories/BuildProofs.v
theories/TransformProofs.v
theories/TransformTotal.v
theories/PropCons.v
theories/ConsEx.v
theories/Prog.v
theories/ProgSpec.v
theories/ProgEvents.v
theories/ProgProofs.v
theories/PropProg.v
theories/Same.v
theories/ProgEx.v
theories/DensSpec.v
theories/DensProofs.v
theories/ConstrainProofs.v
theories/DensLimit.v
theories/DensPoint.v
theories/PropDens.v
theories/DensEx.v
theories/MISpec.v
theories/PropMI.v
theories/MIEx.v
theories/PropLeaf.v
theories/LeafEx.v
theories/Source.v
theories/SourceSpec.v
theories/SourceExpr.v
theories/SourceKernel.v
theories/SourceVisit.v
theories/SourceProofs.v
theories/SourceNames.v
theories/PropSource.v
theories/SourceEx.v
theories/Dict.v
theories/DictSpec.v
theories/PropDict.v
theories/DictEx.v
theories/Sample.v
theories/SampleSpec.v
theories/SampleFacts.v
theories/SampleSim.v
theories/SampleLaw.v
theories/SampleInv.v
theories/SampleExp.v
theories/PropSample.v
theories/SampleEx.v
theories/Render.v
theories/RenderSpec.v
theories/RenderCode.v
theories/RenderFits.v
theories/RenderVisit.v
theories/RenderShow.v
theories/Dists.v
theories/DistsSpec.v
theories/PropDists.v
theories/DistsEx.v
theories/EvalSpec.v
theories/PropEval.v
theories/EvalEx.v
theories/GramSpec.v
theories/PropGram.v
theories/GramEx.v
theories/Hash.v
theories/HashSpec.v
theories/PropHash.v
theories/HashEx.v
theories/Pre.v
theories/PreSpec.v
theories/PropPre.v
theories/PreEx.v
theories/TotalSpec.v
theories/TotalEnds.v
theories/TotalSets.v
theories/TotalSolve.v
theories/TotalProofs.v
theories/PropTotal.v
theories/TotalEx.v
theories/TotalUnion.v
theories/TotalGrid.v
theories/CondLeafTotal.v
theories/SimplifyTotal.v
theories/TightUnion.v
theories/Diffuse.v
theories/CondTotal.v
theories/PropCondTotal.v
theories/CondTotalEx.v
theories/DensTotal.v
theories/PropDensTotal.v
theories/DensTotalEx.v
theories/BranchTotal.v
theories/ReturnSpec.v
theories/SwitchTotal.v
theories/ReturnProofs.v
theories/PropMITotal.v
theories/PropReturns.v
theories/ReturnEx.v
theories/CondShape.v
theories/TransformShape.v
theories/CompileSpec.v
theories/CompileProofs.v
theories/PropCompile.v
theories/CompileEx.v
theories/RenderRuns.v
theories/PropRender.v
theories/RenderEx.v
theories/SolveSpec.v
theories/InvTotal.v
theories/PropSolve.v
theories/QuadEx.v
theories/SolveEx.v
theories/AskSpec.v
theories/NarrowTotal.v
theories/TotalAsk.v
theories/PropAsk.v
theories/LinEx.v
theories/AskEx.v
theories/FunSpec.v
theories/FunTotal.v
theories/PropFun.v
theories/FunEx.v
theories/PolyInf.v
theories/PolyInfSpec.v
theories/PropPolyInf.v
theories/PolyInfEx.v
theories/MITotalEx.v
theories/SessionSpec.v
theories/PropSession.v
theories/SessionEx.v
theories/PropSetsTotal.v
theories/SetsTotalEx.v
theories/PropOrder.v
theories/OrderEx.v
theories/OrderPolyEx.v
theories/PropOrderAsk.v
theories/OrderAskEx.v
theories/MIMemo.v
theories/PropMIMemo.v
theories/MIMemoEx.v
theories/SolveAndSpec.v
theories/PropSolveAnd.v
theories/SolveAndEx.v
theories/PropSessionFun.v
theories/SessionFunEx.v
theories/CompileFunSpec.v
theories/PropCompileFun.v
theories/CompileFunEx.v
theories/PropOrderFun.v
theories/OrderFunEx.v
theories/MIFunSpec.v
theories/PropMIFun.v
theories/MIFunEx.v
theories/PropOrderMI.v
theories/OrderMIEx.v
