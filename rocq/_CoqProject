-Q theories Verif
theories/Base.v
theories/Graph.v
theories/Spec.v
theories/MSets.v
theories/SetsThy.v
theories/PartThy.v
theories/SubThy.v
theories/MaxFlow.v
theories/MGraph.v
theories/MDil.v
theories/CutThy.v
theories/DilThy.v
theories/BFThy.v
theories/MDT.v
theories/SeqThy.v
theories/DTThy.v
theories/PSPThy.v
theories/DTTop.v
theories/PropGraph.v
theories/PropDil.v
theories/PropDT.v
theories/TreeThy.v
theories/MContract.v
theories/MPSPI.v
theories/MHPSP.v
theories/ContractThy.v
theories/DecThy.v
theories/PSPIThy.v
theories/PSPILoop.v
theories/PropPSPI.v
theories/MHost.v
theories/HostThy.v
theories/CanonThy.v
theories/PropLimits.v
theories/MHC.v
theories/HCThy.v
theories/HCInv.v
theories/HCSearch.v
theories/HCPart.v
theories/PropHC.v
theories/MPMF.v
theories/LamThy.v
theories/ParThy.v
theories/SliceThy.v
theories/PDTThy.v
theories/PropPDT.v
theories/HPSPThy.v
theories/HPSPLoop.v
theories/HPSPTop.v
theories/PropHPSP.v
theories/MPMFR.v
theories/PMFRThy.v
theories/PropPDTR.v
theories/MThreads.v
theories/ThreadsThy.v
theories/PropThreads.v
theories/MWarm.v
theories/PropWarm.v
theories/MUtil.v
theories/PropUtil.v
theories/MWrap.v
theories/PropWrap.v
theories/MAIC.v
theories/SFSpec.v
theories/MNBThy.v
theories/AICStep.v
theories/AggThy.v
theories/AICThy.v
theories/AggRun.v
theories/EntThy.v
theories/GreedyThy.v
theories/ExactMNB.v
theories/PropAIC.v
theories/MWolfe.v
theories/WolfeSpec.v
theories/LinThy.v
theories/WolfeThy.v
theories/WolfeRun.v
theories/WolfeEnd.v
theories/LThy.v
theories/Lsq.v
theories/PropWolfe.v
theories/PropFactor.v
theories/MSources.v
theories/SourcesThy.v
theories/PropSources.v
theories/AggSim.v
theories/PropTol.v
theories/MWarmR.v
theories/FlowThy.v
theories/WarmRThy.v
theories/WarmRCon.v
theories/WarmRRun.v
theories/MTrim.v
theories/TrimThy.v
theories/PropWarmR.v
theories/MFLS.v
theories/FieldThy.v
theories/FLSThy.v
theories/PropFLS.v
theories/MGauss.v
theories/GaussThy.v
theories/PropGauss.v
theories/MLife.v
theories/PropLife.v
theories/MMain.v
theories/PropMain.v
theories/MCost.v
theories/CostThy.v
theories/CostBound.v
theories/CostStar.v
theories/CostPDT.v
theories/PropCost.v
theories/DilApprox.v
theories/ApproxThy.v
theories/PropApprox.v
theories/MFloat.v
theories/FloatThy.v
theories/FloatDil.v
theories/FloatDT.v
theories/PropFloat.v
theories/MTreePsp.v
theories/TreePspThy.v
theories/PropTreePsp.v
theories/MDemo.v
theories/PropDemo.v
theories/MFloatP.v
theories/FloatPsp.v
theories/FloatPspRun.v
theories/FloatPspLoop.v
theories/PropFloatP.v
theories/MFloatH.v
theories/FloatHpsp.v
theories/NoTie.v
theories/PropFloatH.v
theories/PropNoTie.v
theories/MFloatT.v
theories/FloatLam.v
theories/FloatPar.v
theories/FloatSlice.v
theories/FloatPDT.v
theories/FloatMono.v
theories/NearExact.v
theories/PropFloatT.v
theories/PdtEq.v
theories/PdtrEq.v
theories/PropPdtAny.v
theories/MElev.v
theories/ElevThy.v
theories/PropElev.v
theories/MDebug.v
theories/DebugThy.v
theories/DebugRThy.v
theories/PropDebug.v
theories/MLgf.v
theories/LgfThy.v
theories/PropLgf.v
theories/MFloatR.v
theories/FloatSliceR.v
theories/PropFloatR.v
theories/MFloatW.v
theories/PropFloatW.v
theories/MShow.v
theories/ShowThy.v
theories/PropShow.v
theories/MTextMain.v
theories/PropTextMain.v
theories/WolfeEps.v
theories/PropEps.v
theories/AggNear.v
theories/PropAggNear.v
theories/WolfeAny.v
theories/PropAny.v
theories/PropEval.v
theories/Conform.v
