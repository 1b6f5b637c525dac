-Q theories Verif

theories/Base.v
theories/Round.v
theories/Sums.v
theories/Bessel.v
theories/Model_QtCurrent.v
theories/Spec_QtCurrent.v
theories/Proof_QtCurrent.v
theories/Proof_QtCurrent2.v
theories/Spec_QtApi.v
theories/Model_Tucker.v
theories/Proof_QtSym.v
theories/Proof_QtApi.v
theories/Proof_QtApi2.v
theories/Proof_QtWit.v
theories/Properties_QtCurrent.v
theories/Model_Circuit.v
theories/Model_CircuitFile.v
theories/Spec_Case.v
theories/Proof_Case.v
theories/Proof_CaseIF.v
theories/Spec_Circuit.v
theories/Proof_Circuit.v
theories/Proof_Circuit2.v
theories/Proof_CircuitFile.v
theories/Proof_CircuitNl.v
theories/Proof_CircuitWit.v
theories/Properties_Circuit.v
theories/Model_HB.v
theories/Spec_HB.v
theories/Proof_HB.v
theories/Proof_HB2.v
theories/Proof_HB3.v
theories/Proof_HB4.v
theories/Proof_HB5.v
theories/Proof_HBWit.v
theories/Proof_HBWit2.v
theories/Proof_HBWit3.v
theories/Proof_HBWit4.v
theories/Proof_HB6.v
theories/Properties_HB.v
theories/Float.v
theories/Model_IVModels.v
theories/Spec_IVModels.v
theories/Proof_IVModels.v
theories/Properties_IVModels.v
theories/NumPy.v
theories/Proof_NumPy.v
theories/Spec_MathFn.v
theories/Model_MathFn.v
theories/Proof_Filters.v
theories/Proof_Slope.v
theories/Proof_KK.v
theories/Properties_MathFn.v
theories/Spec_CleanData.v
theories/Model_CleanData.v
theories/Proof_CleanData.v
theories/Properties_CleanData.v
theories/Spec_RespFn.v
theories/Model_RespFn.v
theories/Spec_RespParams.v
theories/Proof_Nodes.v
theories/Proof_RespFn.v
theories/Proof_RespFn2.v
theories/Proof_RespFn3.v
theories/Proof_RespFn4.v
theories/Properties_RespFn.v
theories/Spec_IVData.v
theories/Model_IVData.v
theories/Proof_IVLoad.v
theories/Proof_IVData.v
theories/Proof_IVCurve.v
theories/Proof_IVCases.v
theories/Properties_IVData.v
theories/Spec_IFData.v
theories/Spec_Offset.v
theories/Proof_Offset.v
theories/Properties_Offset.v
theories/Model_IFData.v
theories/Proof_IFNoise.v
theories/Proof_IFLoad.v
theories/Proof_IVCurve2.v
theories/Proof_IVCases2.v
theories/Proof_IFLoad2.v
theories/Proof_IFShot.v
theories/Proof_IFResponse.v
theories/Proof_IFCases.v
theories/Properties_IFData.v
theories/Spec_IFShot.v
theories/Proof_IFShot2.v
theories/Proof_IFShot3.v
theories/Proof_IFShot4.v
theories/Properties_IFShot.v
theories/Model_ExpData.v
theories/Spec_ExpData.v
theories/Proof_Recover.v
theories/Proof_Recover2.v
theories/Proof_Recover3.v
theories/Proof_ExpData.v
theories/Proof_ExpCases.v
theories/Proof_ExpCases2.v
theories/Proof_Bessel.v
theories/Proof_BesselVal.v
theories/Properties_ExpData.v
theories/Model_Objects.v
theories/Spec_Objects.v
theories/Proof_Objects.v
theories/Proof_Objects2.v
theories/Proof_Negative.v
theories/Spec_Objects2.v
theories/Proof_Objects3.v
theories/Properties_Objects.v
theories/Proof_Objects4.v
theories/Properties_Objects2.v
theories/Model_Misc.v
theories/Spec_Misc.v
theories/Proof_Misc.v
theories/Properties_Misc.v
theories/Proof_Bessel2.v
theories/Proof_Weights.v
theories/Spec_Power.v
theories/Proof_Power.v
theories/Proof_Power2.v
theories/Proof_Power3.v
theories/Properties_Power.v
theories/Proof_Decay.v
theories/Proof_Converge.v
theories/Spec_Phase.v
theories/Proof_JacobiAnger.v
theories/Proof_Phase.v
theories/Proof_Fourier.v
theories/Proof_Ohm.v
theories/Proof_Power4.v
theories/Proof_Limit.v
theories/Properties_Phase.v
theories/Model_QtFloat.v
theories/Spec_QtFloat.v
theories/Proof_QtFloat.v
theories/Proof_QtFloat2.v
theories/Properties_Float.v
theories/Model_Print.v
theories/Spec_Print.v
theories/Proof_Print.v
theories/Proof_Print2.v
theories/Properties_Print.v
theories/Spec_HB2.v
theories/Model_HBFloat.v
theories/Proof_HB7.v
theories/Proof_HB8.v
theories/Proof_HB9.v
theories/Proof_HB10.v
theories/Proof_HBWit5.v
theories/Proof_HBFloat.v
theories/Properties_HB2.v
theories/Properties_HB3.v
theories/Model_Files.v
theories/Model_Plots.v
theories/Model_Report.v
theories/Spec_Plots.v
theories/Proof_Plots.v
theories/Proof_Plots2.v
theories/Proof_Plots3.v
theories/Properties_Plots.v
theories/Proof_Plots4.v
theories/Proof_Plots5.v
theories/Properties_Plots2.v
theories/Spec_Report.v
theories/Proof_Report.v
theories/Proof_Report2.v
theories/Properties_Report.v
theories/Proof_Plots6.v
theories/Properties_Plots3.v
theories/Model_QtRound.v
theories/Spec_Rounding.v
theories/Proof_Round.v
theories/Proof_Round2.v
theories/Proof_Round3.v
theories/Proof_Round4.v
theories/Proof_Round5.v
theories/Properties_Rounding.v
theories/Spec_KK.v
theories/Proof_KKInt.v
theories/Proof_KKInt2.v
theories/Properties_KKInt.v
theories/Spec_Small.v
theories/Proof_Small.v
theories/Properties_Small.v
theories/Spec_Interp.v
theories/Proof_Interp.v
theories/Properties_Interp.v
theories/Proof_Moment4.v
theories/Spec_Classical.v
theories/Proof_Classical.v
theories/Properties_Classical.v
theories/Spec_Classes.v
theories/Proof_Classes.v
theories/Properties_Classes.v
theories/Spec_Curvature.v
theories/Proof_Curvature.v
theories/Properties_Curvature.v
theories/Spec_Perfect.v
theories/Proof_Perfect.v
theories/Properties_Perfect.v
theories/Spec_Order.v
theories/Proof_Order.v
theories/Properties_Order.v
theories/Spec_Steps.v
theories/Proof_Steps.v
theories/Properties_Steps.v
theories/Spec_Angle.v
theories/Proof_Angle.v
theories/Properties_Angle.v
theories/Model_HBPrint.v
theories/Spec_HBPrint.v
theories/Spec_HBText.v
theories/Proof_HBPrint.v
theories/Proof_HBPrint2.v
theories/Proof_HBPrint3.v
theories/Proof_HBText.v
theories/Properties_HBPrint.v
theories/Properties_Printed.v
theories/Model_Said.v
theories/Model_RespPrint.v
theories/Spec_RespPrint.v
theories/Proof_Said.v
theories/Proof_RespPrint.v
theories/Proof_RespPrint2.v
theories/Properties_RespPrint.v
theories/Model_ExpPrint.v
theories/Spec_ExpPrint.v
theories/Proof_ExpPrint.v
theories/Proof_ExpPrint2.v
theories/Proof_ExpPrint3.v
theories/Properties_ExpPrint.v
theories/Proof_CircuitErr.v
theories/Properties_CircuitErr.v
theories/Properties_ShownText.v
theories/Spec_Known.v
theories/Proof_Known.v
theories/Proof_KnownCase.v
theories/Properties_Known.v
theories/Model_QtPrint.v
theories/Spec_QtPrint.v
theories/Proof_QtPrint.v
theories/Properties_QtPrint.v
theories/Spec_Rise.v
theories/Proof_Rise.v
theories/Proof_Rise2.v
theories/Properties_Rise.v
theories/Model_RecoverAll.v
theories/Proof_RecoverAll.v
theories/Properties_RecoverAll.v
theories/Spec_Noisy.v
theories/Proof_Noisy.v
theories/Properties_Noisy.v
theories/Proof_Tells.v
theories/Proof_Tells2.v
theories/Properties_Tells.v
theories/Model_PumpedAll.v
theories/Proof_PumpedAll.v
theories/Proof_PumpedAll2.v
theories/Properties_PumpedAll.v
theories/Spec_HBConv.v
theories/Proof_HBConv.v
theories/Proof_HBConv2.v
theories/Proof_HBLip.v
theories/Proof_HBLip2.v
theories/Proof_HBConv3.v
theories/Properties_HBConv.v
theories/Proof_Lengths.v
theories/Properties_Lengths.v
theories/Proof_Lip1.v
theories/Proof_Lip1HB.v
theories/Properties_Lip1.v
theories/Proof_LipTrunc.v
theories/Properties_LipTrunc.v
theories/Proof_HBStable.v
theories/Properties_HBStable.v
theories/Spec_LipMany.v
theories/Proof_LipMany.v
theories/Properties_LipMany.v
theories/Spec_TruncMany.v
theories/Proof_TruncMany.v
theories/Properties_TruncMany.v
theories/Spec_BiasLip.v
theories/Proof_BiasLip.v
theories/Properties_BiasLip.v
theories/Proof_RunCurrent.v
theories/Properties_RunCurrent.v
theories/Proof_RunError.v
theories/Properties_RunError.v
theories/Proof_RunLimit.v
theories/Properties_RunLimit.v
theories/Proof_Sweep.v
theories/Properties_Sweep.v
theories/Proof_Embed.v
theories/Properties_Embed.v
