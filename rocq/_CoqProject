-Q theories Verif
theories/Base.v
theories/S_Order.v
theories/M_Step.v
theories/P_Order.v
theories/P_Step.v
theories/S_EigVals.v
theories/M_EigVals.v
theories/P_EigVals.v
theories/T_Spectrum.v
theories/S_Trim.v
theories/M_Trim.v
theories/P_Trim.v
theories/P_TrimStat.v
theories/P_TrimFull.v
theories/T_Trim.v
theories/S_Series.v
theories/M_Series.v
theories/P_Series.v
theories/T_Series.v
theories/S_Corr.v
theories/M_Corr.v
theories/P_Corr.v
theories/T_Corr.v
theories/M_Enum.v
theories/S_Generate.v
theories/M_Generate.v
theories/P_Generate.v
theories/T_Generate.v
theories/S_Analytic.v
theories/M_Analytic.v
theories/P_Analytic.v
theories/T_Analytic.v
theories/S_Smooth.v
theories/M_Smooth.v
theories/P_Smooth.v
theories/T_Smooth.v
theories/S_Quad.v
theories/M_Quad.v
theories/P_Quad.v
theories/P_Ols.v
theories/P_Float.v
theories/T_Quad.v
theories/S_Loops.v
theories/M_Loops.v
theories/P_Loops.v
theories/P_Delta.v
theories/T_Loops.v
theories/S_Compare.v
theories/M_Compare.v
theories/P_Compare.v
theories/T_Compare.v
theories/S_Signal.v
theories/M_Signal.v
theories/P_Signal.v
theories/T_Signal.v
theories/P_Gauss.v
theories/S_Ensemble.v
theories/M_Ensemble.v
theories/P_Ensemble.v
theories/T_Ensemble.v
theories/S_Brody.v
theories/P_Brody.v
theories/M_Brody.v
theories/T_Brody.v
theories/S_Files.v
theories/M_Files.v
theories/P_Files.v
theories/T_Files.v
theories/M_Plot.v
theories/T_Plot.v
theories/M_Report.v
theories/S_Report.v
theories/P_ReportStr.v
theories/P_Report.v
theories/T_Report.v
theories/M_EnsCompare.v
theories/T_EnsCompare.v
theories/S_Draw.v
theories/M_Draw.v
theories/P_Draw.v
theories/P_DrawLong.v
theories/T_Draw.v
theories/M_Observ.v
theories/T_Observ.v
theories/M_Construct.v
theories/T_Construct.v
theories/P_Invariance.v
theories/T_Invariance.v
theories/M_Sparse.v
theories/T_Sparse.v
theories/M_Utils.v
theories/T_Utils.v
theories/S_Fit.v
theories/P_Fit.v
theories/T_Fit.v
theories/T_FitAll.v
theories/S_Call.v
theories/M_Call.v
theories/T_Call.v
theories/T_TimeSeries.v
theories/T_Rigidity.v
theories/P_FloatGrid.v
theories/T_FloatGrid.v
theories/T_FloatDraw.v
theories/T_FloatGap.v
theories/P_FloatMean.v
theories/T_FloatMean.v
theories/M_Cov.v
theories/S_Cov.v
theories/P_Cov.v
theories/T_Cov.v
theories/P_Pi.v
theories/T_Curves.v
theories/M_TrimCount.v
theories/T_TrimCount.v
theories/M_Mkdirp.v
theories/T_Mkdirp.v
theories/P_SiCi.v
theories/T_SiCi.v
theories/T_MaxSpacing.v
theories/T_WindowMean.v
theories/M_Best.v
theories/T_Best.v
theories/M_Forward.v
theories/T_Forward.v
theories/S_Average.v
theories/T_NumberVariance.v
theories/M_DeltaGrid.v
theories/T_RigidityMean.v
theories/S_Pandey.v
theories/T_Pandey.v
theories/T_FloatTrim.v
theories/T_FloatWindow.v
theories/T_ScoreLaw.v
theories/S_Rigidity.v
theories/P_RigidityLimit.v
theories/P_RigidityFit.v
theories/T_RigidityLimit.v
theories/T_RigidityError.v
theories/T_LevelVarError.v
theories/S_RigidityForm.v
theories/P_RigidityForm.v
theories/T_RigidityForm.v
theories/T_PoissonCurve.v
theories/S_Binomial.v
theories/T_PoissonSpacing.v
theories/T_AutoInvariance.v
theories/S_Normal.v
theories/T_PoissonUnfold.v
theories/P_Surmise.v
theories/T_Surmise.v
theories/S_Rotate.v
theories/P_Rotate.v
theories/T_Rotate.v
theories/T_Units.v
theories/S_CharPoly.v
theories/P_Moments.v
theories/P_Det.v
theories/P_CharPoly.v
theories/T_CharPoly.v
theories/P_Wishart.v
theories/T_Wishart.v
theories/M_Hist.v
theories/S_Hist.v
theories/P_Hist.v
theories/T_Hist.v
theories/M_Steps.v
theories/T_Steps.v
theories/P_FloatSqrt.v
theories/T_FloatMP.v
theories/P_FloatKernel.v
theories/P_FloatSimps.v
theories/P_FloatSample.v
theories/T_FloatRigidity.v
theories/M_Progress.v
theories/T_Progress.v
theories/M_Iters.v
theories/T_Iters.v
theories/M_Kind.v
theories/T_Kind.v
theories/S_CCharPoly.v
theories/P_CDet.v
theories/P_CCharPoly.v
theories/T_GueChar.v
theories/S_Fourth.v
theories/P_Fourth.v
theories/P_Fourth2.v
theories/T_Fourth.v
theories/M_Warn.v
theories/T_Warn.v
theories/S_Moments.v
theories/P_Stein.v
theories/P_Loop.v
theories/P_Semi.v
theories/P_SemiBand.v
theories/T_Moments.v
theories/S_Law.v
theories/P_Approx.v
theories/P_Law.v
theories/P_LawUnfold.v
theories/P_Spectral.v
theories/P_Spectral2.v
theories/P_Spectral3.v
theories/P_Spectral4.v
theories/T_Law.v
theories/P_Wick.v
theories/P_House.v
theories/P_Tridiag.v
theories/T_Tridiag.v
theories/S_Tape.v
theories/T_Pipeline.v
theories/T_Spectral.v
theories/S_MP.v
theories/P_MPLoop.v
theories/P_MP.v
theories/P_MPLaw.v
theories/T_MP.v
theories/T_MPDefault.v
theories/T_MPWide.v
theories/P_MPOne.v
theories/T_MPOne.v
theories/P_Close.v
theories/P_Steady.v
theories/T_MPCorr.v
theories/T_MPCorrDefault.v
theories/S_Factor.v
theories/P_Factor.v
theories/T_Factor.v
theories/T_FactorCov.v
