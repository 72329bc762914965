-Q theories Verif
theories/M_AbsAcq.v
theories/M_AbsInfo.v
theories/M_AbsProbit.v
theories/M_Acq.v
theories/M_Alias.v
theories/M_Base.v
theories/M_Beta.v
theories/M_Config.v
theories/M_Down.v
theories/M_Eval.v
theories/M_Fake.v
theories/M_Fake2.v
theories/M_FakeDim.v
theories/M_Fit.v
theories/M_Float.v
theories/M_FloatAbs.v
theories/M_FloatKern.v
theories/M_FloatLin.v
theories/M_FloatNorm.v
theories/M_FloatOrd.v
theories/M_FloatPer.v
theories/M_FloatProbit.v
theories/M_FloatRate.v
theories/M_FloatTune.v
theories/M_GP.v
theories/M_GPAlias.v
theories/M_GPNoise.v
theories/M_Hyper.v
theories/M_HyperFit.v
theories/M_HyperGrad.v
theories/M_HyperRun.v
theories/M_Info.v
theories/M_KFold.v
theories/M_Kernel.v
theories/M_LineNaN.v
theories/M_Mixed.v
theories/M_Mode.v
theories/M_Names.v
theories/M_NormMode.v
theories/M_Normal.v
theories/M_OneD.v
theories/M_OneDGrad.v
theories/M_OrdProbit.v
theories/M_PBest.v
theories/M_Pairs.v
theories/M_Pareto.v
theories/M_Plot.v
theories/M_PrefProbit.v
theories/M_Prob.v
theories/M_RBase.v
theories/M_RandPrior.v
theories/M_RateScore.v
theories/M_Results.v
theories/M_Sampling.v
theories/M_Search.v
theories/M_Select.v
theories/M_SetParam.v
theories/M_Setup.v
theories/M_Special.v
theories/M_Store.v
theories/M_Study.v
theories/M_Train.v
theories/M_Tune.v
theories/M_UCB.v
theories/M_User.v
theories/M_Util.v
theories/M_Viz.v
theories/M_Whole.v
theories/P_AbsAcq.v
theories/P_AbsAcq2.v
theories/P_AbsInfo.v
theories/P_AbsProbit.v
theories/P_Acq.v
theories/P_Acq2.v
theories/P_Acq3.v
theories/P_Acq4.v
theories/P_Acq5.v
theories/P_Acq6.v
theories/P_Acq7.v
theories/P_Alias.v
theories/P_Base.v
theories/P_Box.v
theories/P_Chol.v
theories/P_Config.v
theories/P_Det.v
theories/P_Det2.v
theories/P_Det3.v
theories/P_Down.v
theories/P_Eval.v
theories/P_Eval2.v
theories/P_Eval3.v
theories/P_Fake.v
theories/P_Fake2.v
theories/P_Fake4.v
theories/P_FakeDim.v
theories/P_Fit.v
theories/P_Fit2.v
theories/P_Fit3.v
theories/P_Fit4.v
theories/P_Fit5.v
theories/P_FitAbs.v
theories/P_Float.v
theories/P_Float2.v
theories/P_FloatAbs.v
theories/P_FloatKern.v
theories/P_FloatKern2.v
theories/P_FloatKern3.v
theories/P_FloatKern4.v
theories/P_FloatKern5.v
theories/P_FloatKern6.v
theories/P_FloatLin.v
theories/P_FloatNorm.v
theories/P_FloatOrd.v
theories/P_FloatPer.v
theories/P_FloatProbit.v
theories/P_FloatProbit2.v
theories/P_FloatProbit3.v
theories/P_FloatRate.v
theories/P_FloatTune.v
theories/P_FloatTune2.v
theories/P_FloatTune3.v
theories/P_FloatTune4.v
theories/P_FloatTune5.v
theories/P_GP.v
theories/P_GP2.v
theories/P_GP3.v
theories/P_GPAlias.v
theories/P_GPNoise.v
theories/P_Gamma.v
theories/P_Gamma2.v
theories/P_Gamma3.v
theories/P_Gamma4.v
theories/P_Gauss.v
theories/P_Hyper.v
theories/P_HyperFit.v
theories/P_HyperGrad.v
theories/P_HyperGrad2.v
theories/P_HyperGrad3.v
theories/P_HyperGrad4.v
theories/P_HyperPrior.v
theories/P_HyperRun.v
theories/P_Info.v
theories/P_Info2.v
theories/P_Info3.v
theories/P_Info4.v
theories/P_KFold.v
theories/P_Kernel.v
theories/P_KernelEx.v
theories/P_KernelGrad.v
theories/P_KernelProd.v
theories/P_LinOrd.v
theories/P_LineNaN.v
theories/P_MH.v
theories/P_MHR.v
theories/P_MHR2.v
theories/P_MHR3.v
theories/P_MHR4.v
theories/P_Mixed.v
theories/P_Mode.v
theories/P_Mode10.v
theories/P_Mode2.v
theories/P_Mode3.v
theories/P_Mode4.v
theories/P_Mode5.v
theories/P_Mode6.v
theories/P_Mode7.v
theories/P_Mode8.v
theories/P_Mode9.v
theories/P_Names.v
theories/P_NormMode.v
theories/P_Normal.v
theories/P_OneD.v
theories/P_OneD2.v
theories/P_OneDGrad.v
theories/P_OrdProbit.v
theories/P_OrdProbit2.v
theories/P_PBest.v
theories/P_PBest2.v
theories/P_PBest3.v
theories/P_PBest4.v
theories/P_PBest5.v
theories/P_Pairs.v
theories/P_Pareto.v
theories/P_PiBounds.v
theories/P_Plot.v
theories/P_PrefProbit.v
theories/P_Prob.v
theories/P_Psd.v
theories/P_Put.v
theories/P_RBase.v
theories/P_RandPrior.v
theories/P_RateScore.v
theories/P_Results.v
theories/P_Sampling.v
theories/P_Search.v
theories/P_Select.v
theories/P_Select2.v
theories/P_SetParam.v
theories/P_Setup.v
theories/P_Sort.v
theories/P_Special.v
theories/P_Store.v
theories/P_StoreFail.v
theories/P_Study.v
theories/P_Train.v
theories/P_Train2.v
theories/P_Tune.v
theories/P_Tune2.v
theories/P_Tune3.v
theories/P_Tune4.v
theories/P_Tune5.v
theories/P_Tune6.v
theories/P_Tune7.v
theories/P_Tune8.v
theories/P_Turned.v
theories/P_Turned2.v
theories/P_UCB.v
theories/P_User.v
theories/P_User2.v
theories/P_User3.v
theories/P_User4.v
theories/P_Util.v
theories/P_Viz.v
theories/P_Whole.v
theories/P_Whole2.v
theories/S_AbsAcq.v
theories/S_AbsInfo.v
theories/S_AbsProbit.v
theories/S_Acq.v
theories/S_Alias.v
theories/S_Config.v
theories/S_Down.v
theories/S_Eval.v
theories/S_Fake.v
theories/S_Fit.v
theories/S_FitAbs.v
theories/S_Float.v
theories/S_FloatAbs.v
theories/S_FloatLin.v
theories/S_FloatOrd.v
theories/S_FloatProbit.v
theories/S_GP.v
theories/S_GPAlias.v
theories/S_GPNoise.v
theories/S_Gamma.v
theories/S_Hyper.v
theories/S_HyperGrad.v
theories/S_HyperRun.v
theories/S_Info.v
theories/S_KFold.v
theories/S_Kernel.v
theories/S_LineNaN.v
theories/S_MH.v
theories/S_MHR.v
theories/S_Mixed.v
theories/S_Mode.v
theories/S_Names.v
theories/S_OneD.v
theories/S_OrdProbit.v
theories/S_PBest.v
theories/S_Pairs.v
theories/S_Pareto.v
theories/S_Plot.v
theories/S_PrefProbit.v
theories/S_Prob.v
theories/S_Psd.v
theories/S_RandPrior.v
theories/S_RateScore.v
theories/S_Results.v
theories/S_Sampling.v
theories/S_Search.v
theories/S_Select.v
theories/S_Select2.v
theories/S_Setup.v
theories/S_Special.v
theories/S_Store.v
theories/S_Study.v
theories/S_Train.v
theories/S_Tune.v
theories/S_Turned.v
theories/S_UCB.v
theories/S_User.v
theories/S_Util.v
theories/S_Viz.v
theories/S_Whole.v
theories/T_AbsAcq.v
theories/T_AbsInfo.v
theories/T_AbsProbit.v
theories/T_Acq.v
theories/T_Alias.v
theories/T_Config.v
theories/T_Down.v
theories/T_Eval.v
theories/T_Fake.v
theories/T_FakeDim.v
theories/T_Fit.v
theories/T_FitAbs.v
theories/T_Float.v
theories/T_FloatAbs.v
theories/T_FloatKern.v
theories/T_FloatLin.v
theories/T_FloatNorm.v
theories/T_FloatOrd.v
theories/T_FloatPer.v
theories/T_FloatProbit.v
theories/T_FloatRate.v
theories/T_FloatTune.v
theories/T_GP.v
theories/T_GPAlias.v
theories/T_GPNoise.v
theories/T_Gamma.v
theories/T_Hyper.v
theories/T_HyperFit.v
theories/T_HyperGrad.v
theories/T_HyperRun.v
theories/T_Info.v
theories/T_KFold.v
theories/T_Kernel.v
theories/T_LineNaN.v
theories/T_MH.v
theories/T_MHR.v
theories/T_Mixed.v
theories/T_Mode.v
theories/T_Mode2.v
theories/T_Names.v
theories/T_NormMode.v
theories/T_Normal.v
theories/T_OneD.v
theories/T_OneDGrad.v
theories/T_OrdProbit.v
theories/T_PBest.v
theories/T_Pairs.v
theories/T_Pareto.v
theories/T_Plot.v
theories/T_PrefProbit.v
theories/T_Prior.v
theories/T_Prob.v
theories/T_RandPrior.v
theories/T_RateScore.v
theories/T_Results.v
theories/T_Sampling.v
theories/T_Search.v
theories/T_Select.v
theories/T_Select2.v
theories/T_SetParam.v
theories/T_Setup.v
theories/T_Special.v
theories/T_Store.v
theories/T_StoreFail.v
theories/T_Study.v
theories/T_Train.v
theories/T_Tune.v
theories/T_TuneBias.v
theories/T_Turned.v
theories/T_User.v
theories/T_UserTune.v
theories/T_Util.v
theories/T_Viz.v
theories/T_Whole.v
theories/T_Whole2.v
