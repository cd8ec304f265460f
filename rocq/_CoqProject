-Q theories Verif
theories/Base.v
theories/CountLib.v
theories/Ext.v
theories/M_Annot.v
theories/M_Archimedean.v
theories/M_Cast.v
theories/M_Clausen.v
theories/M_Corr.v
theories/M_CorrTable.v
theories/M_Debye.v
theories/M_DebyeSeries.v
theories/M_DebyeVec.v
theories/M_Dict.v
theories/M_Dilog.v
theories/M_DilogC.v
theories/M_EllipDensity.v
theories/M_Elliptical.v
theories/M_Empirical.v
theories/M_Fit.v
theories/M_Gmc.v
theories/M_GmcShare.v
theories/M_Gof.v
theories/M_GofRun.v
theories/M_Gumbel.v
theories/M_GumbelSampling.v
theories/M_Linalg.v
theories/M_Marginal.v
theories/M_MarginalParams.v
theories/M_Matrix.v
theories/M_Options.v
theories/M_Pdf.v
theories/M_Pickands.v
theories/M_Rank.v
theories/M_Sample.v
theories/M_Sampling.v
theories/M_Sgd.v
theories/M_Share.v
theories/M_Spearman.v
theories/M_Specfunc.v
theories/M_Special.v
theories/M_Stable.v
theories/M_StableOne.v
theories/M_StablePdf.v
theories/M_Stats.v
theories/M_StudentFit.v
theories/M_StudentSampling.v
theories/M_Summary.v
theories/P_Annot.v
theories/P_Arch.v
theories/P_Arch2.v
theories/P_Arch3.v
theories/P_ArchCode.v
theories/P_Basel.v
theories/P_Beta.v
theories/P_CM.v
theories/P_CauchyRho.v
theories/P_Clausen.v
theories/P_Clausen2.v
theories/P_Clausen3.v
theories/P_Clausen4.v
theories/P_Clausen5.v
theories/P_Corr.v
theories/P_Debye.v
theories/P_Debye2.v
theories/P_DebyeSeries.v
theories/P_DebyeSeries2.v
theories/P_DebyeSeries3.v
theories/P_Dict.v
theories/P_Dilog.v
theories/P_Dilog2.v
theories/P_Dilog3.v
theories/P_DilogC.v
theories/P_DilogC2.v
theories/P_DilogC3.v
theories/P_DilogC4.v
theories/P_DilogC5.v
theories/P_DilogC6.v
theories/P_DilogC7.v
theories/P_DilogC8.v
theories/P_DilogC9.v
theories/P_DilogNum.v
theories/P_EllipDensity.v
theories/P_EllipDensity2.v
theories/P_EllipDensity3.v
theories/P_EllipDensity4.v
theories/P_EllipDensity5.v
theories/P_EllipDensity6.v
theories/P_Elliptical.v
theories/P_Empirical.v
theories/P_Eulerian.v
theories/P_Fit.v
theories/P_FrankRho.v
theories/P_FrankRho2.v
theories/P_GaussConc.v
theories/P_GaussConc2.v
theories/P_GaussConc3.v
theories/P_GaussInt.v
theories/P_Gen.v
theories/P_Gmc.v
theories/P_GmcAcc.v
theories/P_GmcAscent.v
theories/P_GmcDens.v
theories/P_GmcEm.v
theories/P_GmcFit.v
theories/P_GmcMarg.v
theories/P_GmcVec.v
theories/P_Gof.v
theories/P_Gumbel.v
theories/P_GumbelCases.v
theories/P_GumbelCode.v
theories/P_GumbelNan.v
theories/P_GumbelPoly.v
theories/P_HalfLine.v
theories/P_Int64.v
theories/P_Kanter.v
theories/P_Kanter2.v
theories/P_Kanter3.v
theories/P_Kendall.v
theories/P_Kendall2.v
theories/P_Kendall3.v
theories/P_Linalg.v
theories/P_LogSum.v
theories/P_Marginal.v
theories/P_Matrix.v
theories/P_Partitions.v
theories/P_Pdf.v
theories/P_Polylog.v
theories/P_Rank.v
theories/P_Rayleigh.v
theories/P_Sampling.v
theories/P_Sgd.v
theories/P_Sibuya.v
theories/P_SibuyaSum.v
theories/P_Spearman.v
theories/P_Specfunc.v
theories/P_StableInt.v
theories/P_StableOne.v
theories/P_StablePdf.v
theories/P_StablePdf2.v
theories/P_StablePdf3.v
theories/P_StablePdf4.v
theories/P_StablePdf5.v
theories/P_StablePdf6.v
theories/P_Stirling.v
theories/PolyQ.v
theories/PolyZ.v
theories/RSumLib.v
theories/S_Annot.v
theories/S_Archimedean.v
theories/S_Clausen.v
theories/S_Concord.v
theories/S_Corr.v
theories/S_CorrTable.v
theories/S_Dict.v
theories/S_Dilog.v
theories/S_DilogC.v
theories/S_EllipDensity.v
theories/S_Elliptical.v
theories/S_Empirical.v
theories/S_Fit.v
theories/S_Gmc.v
theories/S_GmcAscent.v
theories/S_GmcShare.v
theories/S_GmcStop.v
theories/S_Gof.v
theories/S_Gumbel.v
theories/S_Join.v
theories/S_Linalg.v
theories/S_Marginal.v
theories/S_Matrix.v
theories/S_Merge.v
theories/S_Normal.v
theories/S_OneChanged.v
theories/S_OneMore.v
theories/S_Pdf.v
theories/S_Rank.v
theories/S_Relabel.v
theories/S_Reorder.v
theories/S_Repeat.v
theories/S_Rescale.v
theories/S_Reversal.v
theories/S_Sample.v
theories/S_Sampling.v
theories/S_Scale.v
theories/S_Sgd.v
theories/S_Specfunc.v
theories/S_Special.v
theories/S_StableOne.v
theories/S_StablePdf.v
theories/S_StableScale.v
theories/S_Stats.v
theories/S_StudentFit.v
theories/S_StudentSampling.v
theories/S_Subset.v
theories/S_Variables.v
theories/T_Annot.v
theories/T_Archimedean.v
theories/T_Cast.v
theories/T_Clausen.v
theories/T_Concord.v
theories/T_Corr.v
theories/T_CorrTable.v
theories/T_Debye.v
theories/T_DebyeSeries.v
theories/T_DebyeVec.v
theories/T_Dict.v
theories/T_Dilog.v
theories/T_DilogC.v
theories/T_EllipConcord.v
theories/T_EllipDensity.v
theories/T_Elliptical.v
theories/T_Empirical.v
theories/T_Fit.v
theories/T_FrankRho.v
theories/T_Gmc.v
theories/T_GmcAcc.v
theories/T_GmcAscent.v
theories/T_GmcShare.v
theories/T_GmcStop.v
theories/T_Gof.v
theories/T_GofRandom.v
theories/T_GofRun.v
theories/T_Gumbel.v
theories/T_GumbelSampling.v
theories/T_Join.v
theories/T_Linalg.v
theories/T_Marginal.v
theories/T_MarginalParams.v
theories/T_Matrix.v
theories/T_Merge.v
theories/T_OneChanged.v
theories/T_OneMore.v
theories/T_Options.v
theories/T_Pdf.v
theories/T_PdfHigh.v
theories/T_Pickands.v
theories/T_Rank.v
theories/T_Relabel.v
theories/T_Reorder.v
theories/T_ReorderMix.v
theories/T_Repeat.v
theories/T_RepeatTest.v
theories/T_Rescale.v
theories/T_RescaleRun.v
theories/T_Reversal.v
theories/T_ReversalCorr.v
theories/T_ReversalEllip.v
theories/T_Sample.v
theories/T_Sampling.v
theories/T_Scale.v
theories/T_Sgd.v
theories/T_Share.v
theories/T_Spearman.v
theories/T_Specfunc.v
theories/T_Special.v
theories/T_Stable.v
theories/T_StableLaw.v
theories/T_StableOne.v
theories/T_StablePdf.v
theories/T_StableRvs.v
theories/T_StableScale.v
theories/T_StartValue.v
theories/T_Stats.v
theories/T_StudentFit.v
theories/T_StudentRho.v
theories/T_StudentSampling.v
theories/T_Subset.v
theories/T_Summary.v
theories/T_Variables.v
