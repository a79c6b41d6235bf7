-Q theories Verif
theories/Spec.v
theories/Lit.v
theories/LitProofs.v
theories/P_Lit.v
theories/Cnf.v
theories/CnfProofs.v
theories/P_Cnf.v
theories/Bits.v
theories/Vli.v
theories/VliProofs.v
theories/P_Vli.v
theories/BinFormat.v
theories/BinFormatProofs.v
theories/P_BinFormat.v
theories/Dimacs.v
theories/DimacsSpec.v
theories/DimacsProofs.v
theories/DimacsRefProofs.v
theories/DimacsRoundProofs.v
theories/P_Dimacs.v
theories/Vec.v
theories/SortedLits.v
theories/SortedLitsProofs.v
theories/P_SortedLits.v
theories/Hash.v
theories/HashProofs.v
theories/P_Hash.v
theories/Checker.v
theories/CheckerStore.v
theories/CheckerInv.v
theories/CheckerOps.v
theories/CheckerRup.v
theories/CheckerSteps.v
theories/CheckerRun.v
theories/P_Checker.v
theories/CheckerCount.v
theories/P_CheckerStore.v
theories/CheckerSafe.v
theories/P_CheckerSafe.v
theories/CheckerNames.v
theories/P_CheckerNames.v
theories/CheckerUsers.v
theories/P_CheckerUsers.v
theories/CheckerReplay.v
theories/P_CheckerReplay.v
theories/Lrat.v
theories/LratSpec.v
theories/LratProofs.v
theories/LratReplay.v
theories/P_Lrat.v
theories/F32.v
theories/Luby.v
theories/Config.v
theories/Vsids.v
theories/P_Luby.v
theories/P_Config.v
theories/F32Proofs.v
theories/VsidsProofs.v
theories/VsidsWf.v
theories/P_Vsids.v
theories/Search.v
theories/ClauseDb.v
theories/Analyze.v
theories/SolverCtx.v
theories/Solver.v
theories/SearchBase.v
theories/Propagate.v
theories/P_Search.v
theories/AnalyzeProofs.v
theories/P_Analyze.v
theories/ClauseAlloc.v
theories/P_Header.v
theories/DbProofs.v
theories/P_Db.v
theories/CtxFrame.v
theories/VarsProofs.v
theories/P_Vars.v
theories/VarsBound.v
theories/P_Compact.v
theories/CtxEvents.v
theories/ProofTwin.v
theories/P_Proof.v
theories/SolverInv.v
theories/SolverSimplify.v
theories/SolverAdd.v
theories/SolverLoad.v
theories/SolverFailed.v
theories/SolverSearch.v
theories/SolverSolve.v
theories/SolverPlain.v
theories/CtxRange.v
theories/P_Solver.v
theories/Rup.v
theories/AnalyzeHints.v
theories/FailedHints.v
theories/P_Hints.v
theories/CheckerAccept.v
theories/CheckerValid.v
theories/P_CheckerAccept.v
theories/ProofLog.v
theories/ProofSim.v
theories/ProofDerive.v
theories/ProofUnits.v
theories/ProofLoad.v
theories/ProofSearch.v
theories/P_SelfCheck.v
theories/ProofReorder.v
theories/ProofAccept.v
theories/ProofEarly.v
theories/P_ProofFile.v
theories/DratSpec.v
theories/DratValid.v
theories/P_DratFile.v
theories/Cli.v
theories/P_Cli.v
theories/CheckerTranscript.v
theories/P_CheckerTranscript.v
theories/CtxKinds.v
theories/P_ProofTranscript.v
theories/P_CliProof.v
theories/CliCheck.v
theories/P_CliCheck.v
theories/P_CliLrat.v
theories/P_CliRound.v
theories/LratEarly.v
theories/CliLrat.v
theories/P_SolverLrat.v
theories/Terminate.v
theories/TerminateLoop.v
theories/P_Terminate.v
theories/P_Glue.v
theories/P_CliTerminate.v
theories/P_Enumerate.v
theories/NewVars.v
theories/P_NewVars.v
theories/Report.v
theories/P_Report.v
theories/P_ReportBin.v
