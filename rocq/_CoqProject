-Q theories Verif
theories/Py.v
theories/L_Py.v
theories/M_BaseMaps.v
theories/L_BaseMaps.v
theories/P_GenMaps.v
theories/M_Text.v
theories/P_Text.v
theories/M_Caches.v
theories/S_Caches.v
theories/P_Caches.v
theories/P_Actions.v
theories/S_BaseMaps.v
theories/T_BaseMaps.v
theories/T_Text.v
theories/T_Caches.v
theories/M_Utils.v
theories/L_R.v
theories/P_Utils.v
theories/L_Qc.v
theories/S_Utils.v
theories/P_Ratio.v
theories/S_Ratio.v
theories/P_Combi.v
theories/T_Utils.v
theories/M_Subsets.v
theories/P_Subsets.v
theories/S_Subsets.v
theories/P_Points.v
theories/P_Facets.v
theories/P_Argmul.v
theories/T_Subsets.v
theories/M_Paths.v
theories/M_Curves.v
theories/S_Curves.v
theories/L_Digits.v
theories/P_Core.v
theories/P_CurveAct.v
theories/P_Bridge.v
theories/P_Paths.v
theories/S_Paths.v
theories/P_Entrance.v
theories/M_Zoo.v
theories/P_Valid.v
theories/T_Curves.v
theories/P_Cont.v
theories/P_Check.v
theories/T_Check.v
theories/P_Subdiv.v
theories/T_Subdiv.v
theories/P_Faces.v
theories/T_Faces.v
theories/T_Eq.v
theories/P_Junctions.v
theories/S_Junctions.v
theories/P_JuncLoop.v
theories/P_JuncMain.v
theories/P_JuncFacts.v
theories/T_Junctions.v
theories/P_Fuzzy.v
theories/S_Fuzzy.v
theories/P_FuzzyInit.v
theories/P_FuzzyCurves.v
theories/P_FuzzyMain.v
theories/P_FuzzyOps.v
theories/P_FuzzyBuilt.v
theories/P_Templates.v
theories/P_TemplJunc.v
theories/P_FuzzyExample.v
theories/T_Fuzzy.v
theories/M_Heap.v
theories/S_Heap.v
theories/P_Heap.v
theories/T_Heap.v
theories/M_Dilation.v
theories/M_Sat.v
theories/P_DilGeo.v
theories/S_Dilation.v
theories/P_DilRatio.v
theories/P_DilBounds.v
theories/P_DilPieces.v
theories/P_DilTree.v
theories/P_DilOps.v
theories/P_DilCreate.v
theories/P_DilRegular.v
theories/P_DilSpec.v
theories/T_Dilation.v
theories/S_Sat.v
theories/P_Sat.v
theories/P_SatEnc.v
theories/P_SatCurve.v
theories/M_SatStore.v
theories/P_SatSolver.v
theories/P_SatStore.v
theories/T_Sat.v
theories/P_Bisect.v
theories/P_BisectEnd.v
theories/T_Bisect.v
theories/P_FuzzyEst.v
theories/T_FuzzyEst.v
theories/P_SeqEst.v
theories/T_SeqEst.v
theories/M_PathTree.v
theories/S_PathTree.v
theories/P_PathTree.v
theories/P_PathGlue.v
theories/P_PathGrow.v
theories/T_PathTree.v
theories/M_PathGen.v
theories/P_PathGen.v
theories/S_PathGen.v
theories/P_PathNext.v
theories/P_PathChain.v
theories/P_PathYield.v
theories/P_PathAll.v
theories/P_PathLaws.v
theories/P_PathTuples.v
theories/T_PathGen.v
theories/P_PathAgree.v
theories/P_PathParent.v
theories/T_PathParent.v
theories/M_ProtoText.v
theories/P_ProtoText.v
theories/T_ProtoText.v
theories/M_Gates.v
theories/P_GateEqs.v
theories/P_GateLoop.v
theories/P_GateSys.v
theories/P_GateCand.v
theories/S_Gates.v
theories/P_GateMain.v
theories/P_GateGen.v
theories/T_Gates.v
theories/P_GateFacet.v
theories/P_Gauge.v
theories/M_Search.v
theories/S_Search.v
theories/P_Search.v
theories/T_Search.v
theories/P_Conv.v
theories/S_Term.v
theories/P_TermOps.v
theories/P_TermReg.v
theories/P_TermReg2.v
theories/P_TermBisect.v
theories/P_TermFuzzy.v
theories/P_TermSeq.v
theories/P_TermNorms.v
theories/T_Terminate.v
theories/M_Heapq.v
theories/P_Heapq.v
theories/M_GatesText.v
theories/P_GatesText.v
theories/S_GatesText.v
theories/M_Main.v
theories/S_Main.v
theories/T_Main.v
theories/P_CurvePaths.v
theories/M_YE.v
theories/P_YE.v
theories/S_YE.v
theories/P_SearchMono.v
theories/S_YECurves.v
theories/P_YEMain.v
theories/P_YECount.v
theories/T_YE.v
theories/S_MaxDepth.v
theories/P_MaxDepth.v
theories/T_MaxDepth.v
theories/P_TermStream.v
theories/P_TermFace.v
theories/M_Lru.v
theories/M_Session.v
theories/S_Session.v
theories/P_Session.v
theories/T_Session.v
theories/P_MaxDepthTotal.v
theories/M_Order.v
theories/P_Order.v
theories/S_Order.v
theories/T_Order.v
theories/M_Plots.v
theories/S_Plots.v
theories/P_Plots.v
theories/T_Plots.v
theories/M_CurveText.v
theories/P_CurveText.v
theories/S_CurveText.v
theories/T_CurveText.v
theories/M_ZooInfo.v
theories/S_ZooInfo.v
theories/P_ZooInfo.v
theories/T_ZooInfo.v
theories/P_DilCheck.v
theories/P_ZooDil.v
theories/P_Plane.v
theories/P_PlaneCurve.v
theories/T_Plane.v
theories/P_PlaneEx.v
theories/P_PlaneWalks.v
theories/P_PlaneNo.v
theories/T_PlaneAll.v
theories/M_HeapStats.v
theories/P_HeapStats.v
theories/S_HeapStats.v
theories/T_HeapStats.v
theories/T_Errors.v
theories/M_Counters.v
theories/P_Counters.v
theories/T_Counters.v
theories/P_CountersBis.v
theories/M_GatesStats.v
theories/P_GatesStats.v
theories/T_GatesStats.v
theories/M_JuncText.v
theories/P_JuncText.v
theories/T_JuncText.v
