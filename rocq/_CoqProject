-Q theories Verif

theories/Prelude.v
theories/Field.v
theories/Zp.v
theories/InputMapping.v
theories/Heap.v
theories/UnionFind.v
theories/Topo.v
theories/Containers.v
theories/Sorting.v
theories/Expr.v
theories/Ir.v
theories/IrFacts.v
theories/Hints.v
theories/IrInst.v
theories/Sim.v
theories/Bfs.v
theories/RemoveUnreachable.v
theories/RevPass.v
theories/ReassignDup.v
theories/VarMap.v
theories/HintExport.v
theories/AddBack.v
theories/Solver.v
theories/Witness.v
theories/FixedPoint.v
theories/Terminate.v
theories/ExportConstraints.v
theories/LocalPass.v
theories/SolveDuplicates.v
theories/MulFanout.v
theories/Layered.v
theories/LayeredFacts.v
theories/LayeredOpt.v
theories/LayeredOptFacts.v
theories/LayeredOptSim.v
theories/LayeredExpand.v
theories/LayeredExpandAll.v
theories/LayeredCommon.v
theories/DetectChains.v
theories/Builder.v
theories/BuilderFacts.v
theories/BuilderSim.v
theories/HnTrans.v
theories/HnSim.v
theories/HnCirc.v
theories/Kinds.v
theories/FinalBuild.v
theories/FbFacts.v
theories/FbSim.v
theories/Serde.v
theories/SerdeFacts.v
theories/Export.v
theories/Layering.v
theories/LaySem.v
theories/LaySched.v
theories/LayInst.v
theories/LayLayout.v
theories/LayOwn.v
theories/LayView.v
theories/LayRoot.v
theories/LayFit.v
theories/LayBlock.v
theories/LayTotA.v
theories/LayTotB.v
theories/LayMerge.v
theories/LayGroups.v
theories/LaySolve.v
theories/LayConn.v
theories/PropLayTotal.v
theories/IrSplit.v
theories/SplitComb.v
theories/SplitCut.v
theories/SplitSegs.v
theories/SplitTot.v
theories/SplitTotB.v
theories/SplitTotC.v
theories/SplitTotD.v
theories/PropSplitTotal.v
theories/CompTotal.v
theories/CompileR.v
theories/CompTotalB.v
theories/CompTotalC.v
theories/CompTotalD.v
theories/PropCompTotal.v
theories/Gadget.v
theories/ShaSpec.v
theories/ShaGf2.v
theories/ShaGf2Facts.v
theories/ShaGf2Sem.v
theories/GadgetRec.v
theories/PropSha.v
theories/ShaM31.v
theories/ShaM31Facts.v
theories/ShaM31Sem.v
theories/ShaM31Comp.v
theories/PropSha31.v
theories/LogUp.v
theories/LogUpFacts.v
theories/LogUpPoly.v
theories/PropLogUp.v
theories/LogUpRange.v
theories/PropLogUpRange.v
theories/SplitSem.v
theories/SplitExp.v
theories/SplitRoot.v
theories/Shapes.v
theories/ShapeFacts.v
theories/ApiSpec.v
theories/Frontend.v
theories/ApiFacts.v
theories/FrontFacts.v
theories/FrontSim.v
theories/DebugFacts.v
theories/FrontProg.v
theories/PropIr.v
theories/PropUtils.v
theories/PropChains.v
theories/PropPasses.v
theories/PropLayered.v
theories/PropLayeredOpt.v
theories/PropSerde.v
theories/PropExport.v
theories/PropSolver.v
theories/PropDest.v
theories/PropHn.v
theories/PropFb.v
theories/PropShapes.v
theories/PropLayering.v
theories/PropSplit.v
theories/PropFront.v
theories/Compile.v
theories/E2E.v
theories/E2ERun.v
theories/E2ESteps.v
theories/Settled.v
theories/E2ELow.v
theories/E2EFinal.v
theories/E2EKinds.v
theories/PropCompile.v
theories/PropTerminate.v
