-Q theories Verif
theories/M_Base.v
theories/M_Cyclic.v
theories/P_Cyclic.v
theories/T_Cyclic.v
theories/M_RadixHeap.v
theories/S_RadixHeap.v
theories/P_RadixHeap.v
theories/T_RadixHeap.v
theories/M_QueueList.v
theories/P_QueueList.v
theories/T_QueueList.v
theories/M_Tracker.v
theories/S_Tracker.v
theories/P_Tracker.v
theories/T_Tracker.v
theories/M_Varying.v
theories/S_Varying.v
theories/P_Varying.v
theories/T_Varying.v
theories/M_Arena.v
theories/S_Arena.v
theories/P_Arena.v
theories/T_Arena.v
theories/M_Bits.v
theories/S_Bits.v
theories/P_Bits.v
theories/T_Bits.v
theories/M_Cli.v
theories/S_Cli.v
theories/P_Cli.v
theories/T_Cli.v
theories/M_UserGraph.v
theories/S_UserGraph.v
theories/P_UserGraph.v
theories/S_GraphMap.v
theories/P_GraphMap.v
theories/T_UserGraph.v
theories/M_Merge.v
theories/P_Merge.v
theories/S_Merge.v
theories/P_Merge2.v
theories/T_Merge.v
theories/M_Dem.v
theories/S_Dem.v
theories/P_Dem.v
theories/P_Dem2.v
theories/P_Dem3.v
theories/T_Dem.v
theories/M_CheckMatrix.v
theories/S_CheckMatrix.v
theories/P_CheckMatrix.v
theories/P_CheckMatrix2.v
theories/T_CheckMatrix.v
theories/M_Core.v
theories/S_Core.v
theories/P_Sum.v
theories/P_Dual.v
theories/P_Up.v
theories/P_Tree.v
theories/P_Tree2.v
theories/S_Tree.v
theories/P_Cycle.v
theories/P_Tree3.v
theories/T_Tree.v
theories/M_Reweight.v
theories/S_Reweight.v
theories/P_Reweight.v
theories/T_Reweight.v
theories/M_Flip.v
theories/S_Flip.v
theories/P_Flip.v
theories/T_Flip.v
theories/M_CoreHeap.v
theories/M_Failing.v
theories/M_Session.v
theories/S_Session.v
theories/P_WfCheck.v
theories/P_Session.v
theories/P_Reject.v
theories/T_Session.v
theories/M_Build.v
theories/S_Build.v
theories/P_Build.v
theories/P_Convert.v
theories/P_Convert2.v
theories/T_Build.v
theories/M_Double.v
theories/P_Double.v
theories/M_Discretise.v
theories/P_Discretise.v
theories/T_Discretise.v
theories/P_CoreGeo.v
theories/P_CoreSched.v
theories/P_CoreArea.v
theories/P_CoreRad.v
theories/P_CoreQueue.v
theories/P_CoreFlood.v
theories/P_CoreStep.v
theories/P_CoreRoles.v
theories/P_CoreShat.v
theories/P_CoreHit.v
theories/P_CoreHit2.v
theories/P_CoreWrap.v
theories/P_CoreTops.v
theories/P_CoreBlossom.v
theories/P_CoreSelf.v
theories/P_CoreSelf2.v
theories/P_CoreRelease.v
theories/P_CoreBreak.v
theories/P_CoreEvent.v
theories/P_CoreStart.v
theories/P_CoreAdd.v
theories/P_CoreEnd.v
theories/P_CoreExt1.v
theories/P_CoreExt2.v
theories/P_CoreExt3.v
theories/P_CorePath.v
theories/P_CoreDecode.v
theories/S_Decode.v
theories/S_Reach.v
theories/P_Reach.v
theories/P_Reach2.v
theories/P_Spread.v
theories/P_Decode.v
theories/T_Core.v
theories/M_Search.v
theories/S_Search.v
theories/P_Search.v
theories/P_Search2.v
theories/P_Search3.v
theories/T_Search.v
theories/P_Signed.v
theories/T_EndToEnd.v
theories/M_ToEdges.v
theories/S_ToEdges.v
theories/P_ToEdges.v
theories/P_ToEdges2.v
theories/P_ToEdgesLoop.v
theories/T_ToEdges.v
theories/P_Ends.v
theories/P_CoreHalt.v
theories/P_CoreCount.v
theories/P_CoreRun.v
theories/P_Halt.v
theories/P_Halt2.v
theories/P_Machine.v
theories/T_Halt.v
theories/T_Machine.v
theories/M_Correlated.v
theories/S_Correlated.v
theories/P_Correlated.v
theories/P_Correlated2.v
theories/T_Correlated.v
theories/P_UserCorr.v
theories/M_Pipeline.v
theories/S_Spread.v
theories/S_Pipeline.v
theories/P_Pipeline.v
theories/P_Pipeline2.v
theories/P_Pipeline3.v
theories/S_CoreHeap.v
theories/P_CoreSim.v
theories/P_CoreHeap.v
theories/P_CoreHeap2.v
theories/P_Failing.v
theories/T_Pipeline.v
theories/T_CoreHeap.v
theories/P_SearchGraph.v
theories/T_SearchGraph.v
theories/M_SearchHeap.v
theories/M_PipelineHeap.v
theories/S_SearchHeap.v
theories/S_PipelineHeap.v
theories/P_SearchHeap.v
theories/P_SearchHeap2.v
theories/P_PipelineHeap.v
theories/T_SearchHeap.v
theories/T_PipelineHeap.v
theories/M_Matching.v
theories/S_Matching.v
theories/P_Matched.v
theories/P_Matching.v
theories/P_Compact.v
theories/P_MatchingAny.v
theories/S_Padding.v
theories/P_Padding.v
theories/T_Matching.v
theories/T_Padding.v
theories/S_DemDecode.v
theories/P_DemDecode.v
theories/T_DemDecode.v
theories/S_MatrixDecode.v
theories/P_MatrixDecode.v
theories/T_MatrixDecode.v
theories/M_MatrixArgs.v
theories/S_MatrixArgs.v
theories/P_MatrixArgs.v
theories/P_MatrixArgs2.v
theories/P_MatrixArgs3.v
theories/T_MatrixArgs.v
theories/M_CorrDecode.v
theories/S_CorrDecode.v
theories/P_CorrDecode.v
theories/P_CorrFail.v
theories/P_CorrBuild.v
theories/P_CorrGraph.v
theories/P_CorrSession.v
theories/P_CorrModel.v
theories/P_CorrRefuse.v
theories/T_CorrDecode.v
theories/M_CliDecode.v
theories/S_CliDecode.v
theories/P_CliMask.v
theories/P_CliPass.v
theories/P_CliDecode.v
theories/T_CliDecode.v
theories/M_GraphIO.v
theories/S_GraphIO.v
theories/P_GraphCopy.v
theories/P_GraphIO.v
theories/P_GraphWrite.v
theories/P_GraphIOCases.v
theories/T_GraphIO.v
theories/S_History.v
theories/P_History.v
theories/T_History.v
theories/P_FewNodes.v
theories/T_Failing.v
theories/S_Distance.v
theories/P_Distance.v
theories/P_Distance2.v
theories/T_Distance.v
theories/M_PyGraph.v
theories/S_PyGraph.v
theories/P_PyGraph.v
theories/T_PyGraph.v
theories/S_Weights.v
theories/P_Weights.v
theories/T_Weights.v
theories/M_Noise.v
theories/S_Noise.v
theories/P_Noise.v
theories/T_Noise.v
theories/M_Cast.v
theories/S_Cast.v
theories/P_Cast.v
theories/T_Cast.v
theories/S_Negative.v
theories/P_Negative.v
theories/T_Negative.v
theories/M_Nodes.v
theories/S_Nodes.v
theories/P_Nodes.v
theories/T_Nodes.v
theories/M_Extract.v
theories/P_Extract.v
theories/P_Extract2.v
theories/P_Extract3.v
theories/T_Extract.v
theories/M_Load.v
theories/S_Load.v
theories/P_Load.v
theories/T_Load.v
theories/M_Inspect.v
theories/S_Inspect.v
theories/P_Inspect.v
theories/T_Inspect.v
theories/S_Virtual.v
theories/P_Virtual.v
theories/P_Virtual2.v
theories/T_Virtual.v
theories/S_Triangle.v
theories/P_Triangle.v
theories/T_Triangle.v
theories/M_Compare.v
theories/S_Compare.v
theories/P_Compare.v
theories/T_Compare.v
theories/M_Program.v
theories/S_Program.v
theories/P_Program.v
theories/T_Program.v
theories/S_Agree.v
theories/P_Agree.v
theories/T_Agree.v
theories/S_Quiet.v
theories/P_Quiet.v
theories/T_Quiet.v
theories/S_Cheaper.v
theories/P_Cheaper.v
theories/T_Cheaper.v
theories/S_Parts.v
theories/P_Parts.v
theories/T_Parts.v
theories/T_MatrixBounds.v
theories/T_SearchEnds.v
