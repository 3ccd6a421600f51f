-Q theories Verif
theories/LibRing.v
theories/LibArr.v
theories/LibCplx.v
theories/LibBase.v
theories/LibSum.v
theories/LibMat.v
theories/M_Matrix.v
theories/S_Linear.v
theories/P_Linear.v
theories/P_Matrix.v
theories/P_Series.v
theories/P_Spectral.v
theories/LibNorm.v
theories/LibEx.v
theories/LibDeriv.v
theories/P_Svd.v
theories/P_RealExp.v
theories/P_Frechet.v
theories/S_Exp.v
theories/LibSeries.v
theories/P_Dexp.v
theories/P_Mexp.v
theories/P_Mexp2.v
theories/P_DexpWit.v
theories/S_PTrace.v
theories/P_PTrace.v
theories/M_OpHeap.v
theories/P_OpHeap.v
theories/P_Wit.v
theories/T_Matrix.v
theories/M_Transfer.v
theories/S_Transfer.v
theories/P_Transfer.v
theories/P_Transfer2.v
theories/P_Transfer3.v
theories/P_Transfer4.v
theories/P_Transfer5.v
theories/P_Transfer6.v
theories/P_Transfer7.v
theories/P_TransferWit.v
theories/T_Transfer.v
theories/M_Amplitude.v
theories/S_Deriv.v
theories/S_Amplitude.v
theories/P_Amplitude.v
theories/T_Amplitude.v
theories/M_Solver.v
theories/S_Solver.v
theories/P_Loops.v
theories/P_Solver.v
theories/P_Solver2.v
theories/P_Solver3.v
theories/P_Solver4.v
theories/P_Solver5.v
theories/P_Solver6.v
theories/P_Solver7.v
theories/P_Solver8.v
theories/P_Solver9.v
theories/P_SolverMC.v
theories/P_SolverTotal.v
theories/M_Pool.v
theories/P_Pool.v
theories/S_Lindblad.v
theories/P_Lindblad.v
theories/P_LindbladDer.v
theories/M_SolverHeap.v
theories/P_SolverHeap.v
theories/P_SolverRest.v
theories/P_SolverWit.v
theories/P_SolverCases.v
theories/S_SolverTimes.v
theories/P_SolverTimes.v
theories/P_SolverGrape.v
theories/P_ExpCommute.v
theories/P_SolverCases2.v
theories/T_Solver.v
theories/M_Cost.v
theories/S_Cost.v
theories/P_Cost.v
theories/P_Cost2.v
theories/S_CostGrad.v
theories/P_CostGrad.v
theories/P_Total.v
theories/P_CostGrad2.v
theories/P_Cost3.v
theories/P_CostWit.v
theories/T_Cost.v
theories/M_CostDeriv.v
theories/S_CostDeriv.v
theories/P_CostDeriv.v
theories/P_CostDerivGrad.v
theories/P_CostDerivWit.v
theories/T_CostDeriv.v
theories/M_Simulator.v
theories/M_CostProg.v
theories/S_Simulator.v
theories/P_Simulator.v
theories/P_LindbladWit.v
theories/P_Simulator2.v
theories/P_SimulatorWit.v
theories/P_GradCurve.v
theories/S_Gradient.v
theories/P_Grad.v
theories/P_GradTotal.v
theories/P_GradNoise.v
theories/P_GradNoise2.v
theories/P_GradNoise3.v
theories/P_GradNoiseWit.v
theories/P_GradNoiseRef.v
theories/P_GradTotal2.v
theories/P_GradSim.v
theories/P_GradWit.v
theories/M_SimCheck.v
theories/S_SimCheck.v
theories/P_SimCheck.v
theories/P_SimCheckWit.v
theories/P_SimAtts.v
theories/T_Gradient.v
theories/T_Simulator.v
theories/P_Trotter.v
theories/S_Channel.v
theories/P_Channel.v
theories/P_Channel2.v
theories/P_Channel3.v
theories/P_ChannelWit.v
theories/P_ChannelFid.v
theories/S_ChannelCost.v
theories/P_ChannelFid2.v
theories/P_ChannelFidWit.v
theories/T_Channel.v
theories/S_ChannelSuper.v
theories/P_ChannelSuper.v
theories/P_ChannelSuperWit.v
theories/T_ChannelSuper.v
theories/M_Optimizer.v
theories/S_Optimizer.v
theories/P_Optimizer.v
theories/P_Optimizer2.v
theories/P_Optimizer3.v
theories/M_Anneal.v
theories/S_Anneal.v
theories/P_Anneal.v
theories/P_OptimizerWit.v
theories/T_Optimizer.v
theories/M_Data.v
theories/S_Data.v
theories/P_Data.v
theories/P_Data2.v
theories/P_Parallel.v
theories/M_Parallel.v
theories/P_DataWit.v
theories/P_Data3.v
theories/P_Parallel2.v
theories/T_Data.v
theories/M_Noise.v
theories/S_Noise.v
theories/P_Noise.v
theories/P_NoiseStd.v
theories/P_NoiseHist.v
theories/P_NoiseFft.v
theories/P_NoiseWit.v
theories/T_Noise.v
theories/M_Stats.v
theories/M_Absolute.v
theories/S_Stats.v
theories/P_Stats.v
theories/P_Stats2.v
theories/P_Stats3.v
theories/P_Stats4.v
theories/P_Stats5.v
theories/P_StatsWit.v
theories/P_Absolute.v
theories/T_Stats.v
theories/M_FilterFn.v
theories/S_FilterFn.v
theories/P_FilterFn.v
theories/P_FilterFn2.v
theories/P_FilterFn3.v
theories/P_FilterFn4.v
theories/P_FilterFn5.v
theories/P_FilterFnWit.v
theories/T_Filter.v
theories/S_CostSub.v
theories/M_CostSub.v
theories/P_CostSub.v
theories/P_CostSub2.v
theories/P_CostSub3.v
theories/P_GradPart.v
theories/P_GradPartWit.v
theories/T_Part.v
theories/S_Invariance.v
theories/P_Invariance.v
theories/P_Invariance2.v
theories/P_Invariance3.v
theories/P_Invariance4.v
theories/P_Invariance5.v
theories/P_InvarianceWit.v
theories/T_Invariance.v
theories/S_OpHeap.v
theories/P_OpHeap2.v
theories/M_Copy.v
theories/P_Copy.v
theories/T_Copy.v
theories/M_Bloch.v
theories/S_Bloch.v
theories/P_Bloch.v
theories/P_Bloch2.v
theories/T_Bloch.v
theories/M_Spectrum.v
theories/S_Spectrum.v
theories/P_Spectrum.v
theories/P_SpectrumWit.v
theories/T_Spectrum.v
theories/S_OpenSym.v
theories/P_OpenSym.v
theories/P_OpenSym2.v
theories/P_OpenSym3.v
theories/P_OpenSym4.v
theories/P_OpenSym5.v
theories/P_OpenSymWit.v
theories/P_OpenSymCases.v
theories/T_OpenSym.v
theories/S_Sensitive.v
theories/P_Sensitive.v
theories/P_Sensitive2.v
theories/P_Sensitive3.v
theories/P_Sensitive4.v
theories/P_SensitiveWit.v
theories/P_SensitiveWit2.v
theories/T_Sensitive.v
theories/S_Gauss.v
theories/LibGauss.v
theories/LibGauss2.v
theories/P_Gauss.v
theories/M_Bell.v
theories/P_Gauss2.v
theories/P_Gauss3.v
theories/P_GaussWit.v
theories/T_Gauss.v
theories/S_Closed.v
theories/P_Closed.v
theories/P_Closed2.v
theories/P_ClosedWit.v
theories/T_Closed.v
theories/M_Rabi.v
theories/S_Rabi.v
theories/P_Rabi.v
theories/P_Rabi2.v
theories/P_Rabi3.v
theories/P_RabiWit.v
theories/T_Rabi.v
theories/M_Norm.v
theories/S_Norm.v
theories/P_Norm.v
theories/P_Norm2.v
theories/P_NormWit.v
theories/T_Norm.v
theories/M_Init.v
theories/S_Init.v
theories/P_Init.v
theories/P_Init2.v
theories/P_InitWit.v
theories/T_Init.v
theories/S_OpenSuper.v
theories/P_OpenSuper.v
theories/P_OpenSuper2.v
theories/P_OpenSuperWit.v
theories/P_OpenSuperCases.v
theories/T_OpenSuper.v
