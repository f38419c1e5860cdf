-Q theories Verif
theories/Lib_Exist.v
theories/Lib_Grow.v
theories/Lib_Moment.v
theories/Lib_Poly.v
theories/Lib_Pow.v
theories/Lib_PowLip.v
theories/Lib_Py.v
theories/Lib_Settle.v
theories/Lib_Sum.v
theories/Lib_Tame.v
theories/Lib_Traj.v
theories/M_Colloc.v
theories/M_Ecm.v
theories/M_EcmFit.v
theories/M_Extra.v
theories/M_GacAnalyze.v
theories/M_GacCapacity.v
theories/M_GacColumn.v
theories/M_GacCopy.v
theories/M_GacData.v
theories/M_GacFirst.v
theories/M_GacFit.v
theories/M_GacFun.v
theories/M_GacLegacy.v
theories/M_GacMin.v
theories/M_GacShare.v
theories/M_GacSheet.v
theories/M_GacShiny.v
theories/M_GacSmart.v
theories/M_GacState.v
theories/M_Isotherm.v
theories/M_IxBatch.v
theories/M_IxColumn.v
theories/M_IxData.v
theories/M_IxEq.v
theories/M_IxRun.v
theories/M_IxUnc.v
theories/M_LeadLag.v
theories/M_LeadLagInit.v
theories/M_Outcome.v
theories/M_Pac.v
theories/M_PacCrank.v
theories/M_PacHsdm.v
theories/M_Params.v
theories/M_RGacApp.v
theories/M_RGacSession.v
theories/M_RIexApp.v
theories/M_RIexPlots.v
theories/M_RIexSession.v
theories/M_RIexSolve.v
theories/M_RPacApp.v
theories/M_RPacSession.v
theories/M_RUpload.v
theories/M_Tools.v
theories/M_Units.v
theories/P_BatchDv.v
theories/P_Binary.v
theories/P_Colloc.v
theories/P_Coop.v
theories/P_Entropy.v
theories/P_EntropyDv.v
theories/P_EntropyIn.v
theories/P_Exhaust.v
theories/P_GacCapacity.v
theories/P_GacColloc.v
theories/P_GacColumn.v
theories/P_GacFit.v
theories/P_GacFun.v
theories/P_GacMin.v
theories/P_GacSheet.v
theories/P_GacSmart.v
theories/P_GacState.v
theories/P_GacUnique.v
theories/P_InletTwo.v
theories/P_Inner.v
theories/P_InsideGac.v
theories/P_IxBatch.v
theories/P_IxColumn.v
theories/P_IxData.v
theories/P_IxEq.v
theories/P_IxRun.v
theories/P_IxUnc.v
theories/P_IxUnique.v
theories/P_JacobiRoots.v
theories/P_JacobiUnique.v
theories/P_L1.v
theories/P_L1Grow.v
theories/P_LeadLag.v
theories/P_Mono.v
theories/P_Ocfe.v
theories/P_Order.v
theories/P_Pac.v
theories/P_PacBound.v
theories/P_PacCrank.v
theories/P_PacHsdm.v
theories/P_PacSettle.v
theories/P_Params.v
theories/P_RGacApp.v
theories/P_RIexApp.v
theories/P_RIexSolve.v
theories/P_Radial.v
theories/P_RadialGap.v
theories/P_RadialSign.v
theories/P_Rest.v
theories/P_RestBatch.v
theories/P_RestEq.v
theories/P_RestGac.v
theories/P_RestIx.v
theories/P_Settle.v
theories/P_Solver.v
theories/P_Sparse.v
theories/P_Tools.v
theories/P_Track.v
theories/P_Units.v
theories/Props_Approach.v
theories/Props_BatchTwo.v
theories/Props_BedLasts.v
theories/Props_Binary.v
theories/Props_Colloc.v
theories/Props_Divalent.v
theories/Props_Doses.v
theories/Props_Ecm.v
theories/Props_EcmFit.v
theories/Props_Exhaust.v
theories/Props_Exist.v
theories/Props_Extra.v
theories/Props_Film.v
theories/Props_First.v
theories/Props_FitRange.v
theories/Props_GacAnalyze.v
theories/Props_GacCapacity.v
theories/Props_GacColumn.v
theories/Props_GacCopy.v
theories/Props_GacData.v
theories/Props_GacExtrap.v
theories/Props_GacFit.v
theories/Props_GacFun.v
theories/Props_GacLegacy.v
theories/Props_GacMin.v
theories/Props_GacNegative.v
theories/Props_GacSheet.v
theories/Props_GacShiny.v
theories/Props_GacSmart.v
theories/Props_GacState.v
theories/Props_Grain.v
theories/Props_GrainCap.v
theories/Props_GrainFill.v
theories/Props_GrainFull.v
theories/Props_InletTwo.v
theories/Props_Inside.v
theories/Props_InsideBatch.v
theories/Props_InsideGac.v
theories/Props_InsideTwo.v
theories/Props_Isotherm.v
theories/Props_IxBatch.v
theories/Props_IxColumn.v
theories/Props_IxData.v
theories/Props_IxEq.v
theories/Props_IxInputs.v
theories/Props_IxRun.v
theories/Props_IxTransport.v
theories/Props_IxUnc.v
theories/Props_LeadLag.v
theories/Props_LeadLagInit.v
theories/Props_ManyIons.v
theories/Props_Measured.v
theories/Props_Near.v
theories/Props_Negative.v
theories/Props_OnePoint.v
theories/Props_Order.v
theories/Props_Outcome.v
theories/Props_Pac.v
theories/Props_PacBound.v
theories/Props_PacCrank.v
theories/Props_PacGroups.v
theories/Props_PacHsdm.v
theories/Props_PacKd.v
theories/Props_PacSettle.v
theories/Props_PacTransport.v
theories/Props_Params.v
theories/Props_PoreExhaust.v
theories/Props_RGacApp.v
theories/Props_RGacSession.v
theories/Props_RIexApp.v
theories/Props_RIexPlots.v
theories/Props_RIexSession.v
theories/Props_RIexSolve.v
theories/Props_RPacApp.v
theories/Props_RPacSession.v
theories/Props_RUpload.v
theories/Props_Radial.v
theories/Props_RadialOne.v
theories/Props_Repeat.v
theories/Props_Rest.v
theories/Props_Settle.v
theories/Props_Share.v
theories/Props_Similar.v
theories/Props_Solver.v
theories/Props_Sparse.v
theories/Props_Split.v
theories/Props_Tools.v
theories/Props_Track.v
theories/Props_Unique.v
theories/Props_UnitReport.v
theories/Props_Units.v
theories/Props_Untreated.v
theories/S_Approach.v
theories/S_Colloc.v
theories/S_Doses.v
theories/S_GacColumn.v
theories/S_GacFun.v
theories/S_GacSheet.v
theories/S_GacState.v
theories/S_IxBatch.v
theories/S_IxColumn.v
theories/S_IxData.v
theories/S_IxEq.v
theories/S_IxUnc.v
theories/S_Order.v
theories/S_PacCrank.v
theories/S_PacHsdm.v
theories/S_Params.v
theories/S_RGacApp.v
theories/S_RIexApp.v
theories/S_RIexSession.v
theories/S_RUpload.v
theories/S_Radial.v
theories/S_Similar.v
theories/S_Solver.v
theories/S_Sparse.v
theories/S_Split.v
theories/S_Tools.v
theories/S_Unique.v
theories/S_Units.v
