-Q theories Verif
theories/Eigen.v
theories/EigenFloat.v
theories/FieldTac.v
theories/EigenExact.v
theories/ExactLemmas.v
theories/Problem.v
theories/DDP.v
theories/Filter.v
theories/SQP.v
theories/CSQP.v
theories/FDDP.v
theories/Init.v
theories/LQSpec.v
theories/Riccati.v
theories/SubQP.v
theories/PassExact.v
theories/SQPDir.v
theories/Models.v
theories/Witness.v
theories/TrialSpec.v
theories/P_Direction.v
theories/FilterProofs.v
theories/TraceSpec.v
theories/Rounds.v
theories/SQPSpec.v
theories/CSQPSpec.v
theories/CSQPFrames.v
theories/SQPTrial.v
theories/SQPLoop.v
theories/CSQPTrial.v
theories/CSQPLoop.v
theories/History.v
theories/CSQPHist.v
theories/CSQPClock.v
theories/FloatWitness.v
theories/P_SQPSolve.v
theories/P_Stale.v
theories/P_CSQPSolve.v
theories/QPSpec.v
theories/FastPass.v
theories/ADMMExact.v
theories/ADMMSpec.v
theories/ADMMIter.v
theories/CallSpec.v
theories/CallInv.v
theories/CallGood.v
theories/CallCover.v
theories/QPExact.v
theories/CSQPConvex.v
theories/EqGuess.v
theories/P_ADMM.v
theories/ConvexQP.v
theories/AdmmWitness.v
theories/P_QPLoop.v
theories/KKTNorm.v
theories/Retry.v
theories/P_SQPRounds.v
theories/P_Retry.v
theories/P_Diverge.v
theories/P_Filter.v
theories/OMP.v
theories/ParLoops.v
theories/P_Parallel.v
theories/P_ParallelFloat.v
theories/Indep.v
theories/IndepTerm.v
theories/P_Indep.v
theories/RollSpec.v
theories/DDPLoop.v
theories/DDPSpec.v
theories/DDPRun.v
theories/P_DDP.v
theories/P_DDPFloat.v
theories/FDDPInit.v
theories/FDDPSpec.v
theories/FDDPRun.v
theories/P_FDDP.v
theories/P_FDDPExact.v
theories/P_FDDPFloat.v
theories/Exit.v
theories/Affine.v
theories/AffineStep.v
theories/P_Affine.v
theories/P_AffineWitness.v
theories/P_AffineCSQP.v
theories/Setters.v
theories/SetSpec.v
theories/P_Setters.v
theories/Callbacks.v
theories/P_Callbacks.v
theories/Flat.v
theories/SsrLia.v
theories/LQHom.v
theories/KKT.v
theories/KKTSpec.v
theories/KKTSys.v
theories/KKTUniq.v
theories/KKTHist.v
theories/P_KKT.v
theories/P_KKTWitness.v
theories/PROXQP.v
theories/PROXBlocks.v
theories/PROXSpec.v
theories/PROXSys.v
theories/PROXHist.v
theories/P_PROXQP.v
theories/P_PROXCert.v
theories/P_PROXWitness.v
theories/DDPExact.v
theories/P_DDPDescent.v
theories/P_DDPWitness.v
theories/ConvSpec.v
theories/StopSpec.v
theories/ADMMConv.v
theories/ConvLoop.v
theories/P_Converge.v
theories/P_QPStop.v
theories/P_ConvergeWitness.v
theories/DDPTrace.v
theories/DDPCtl.v
theories/P_DDPControl.v
theories/PROXRunSpec.v
theories/PROXRun.v
theories/P_PROXSolve.v
theories/P_PROXRunWitness.v
theories/CSQPExit.v
theories/KKTRunSpec.v
theories/KKTQuant.v
theories/KKTRun.v
theories/P_KKTSolve.v
theories/P_KKTRunWitness.v
theories/CIndep.v
theories/CIndepLoop.v
theories/CIndepTerm.v
theories/P_CIndep.v
theories/P_CIndepExact.v
theories/P_CIndepWitness.v
theories/P_ParallelNorms.v
theories/P_ParallelWitness.v
theories/P_RollFinite.v
theories/P_PROXTrial.v
theories/PIndep.v
theories/PIndepLoop.v
theories/P_PIndep.v
theories/P_NanGap.v
theories/P_NanStep.v
theories/P_Interval.v
theories/Assumptions.v
