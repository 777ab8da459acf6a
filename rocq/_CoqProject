-Q theories Verif
theories/Rstruct.v
theories/Base.v
theories/Linalg.v
theories/Calc.v
theories/Prob.v
theories/Spec.v
theories/M_Utils.v
theories/M_Euler.v
theories/M_Filter.v
theories/M_Foster.v
theories/M_ItoStrat.v
theories/M_Ivp.v
theories/M_Lipschitz.v
theories/M_Prior.v
theories/M_OdeSolvers.v
theories/M_Scheme15.v
theories/M_SdeSolver.v
theories/M_Scripts.v
theories/M_Ssm.v
theories/M_Tests.v
theories/Expm.v
theories/L_Euler.v
theories/Lapack.v
theories/L_Filter.v
theories/L_Foster.v
theories/L_Ivp.v
theories/L_Prior.v
theories/L_Utils.v
theories/L_SdeSolver.v
theories/L_OdeSolvers.v
theories/L_Alg3.v
theories/L_Ssm.v
theories/L_Init.v
theories/L_Total.v
theories/L_Alg4.v
theories/L_Scheme15.v
theories/L_Chain.v
theories/L_ItoStrat.v
theories/L_Quad.v
theories/Spec3.v
theories/Spec4.v
theories/L_Gbm.v
theories/L_Proj.v
theories/L_Linear.v
theories/L_LinStep.v
theories/L_EndToEnd.v
theories/L_Alg4Law.v
theories/L_BmLaw.v
theories/L_More.v
theories/L_Scripts.v
theories/L_Scripts2.v
theories/L_Calibration.v
theories/L_RefVar.v
theories/L_Diag15Mean.v
theories/L_Lipschitz.v
theories/L_Pathwise.v
theories/L_Gronwall.v
theories/Spec5.v
theories/L_Strong.v
theories/Spec6.v
theories/L_Doss.v
theories/L_Ekf1.v
theories/L_EmOsc.v
theories/L_Problems.v
theories/L_Tests.v
theories/L_GbmTest.v
theories/L_Sym.v
theories/L_Invariance.v
theories/L_Stab.v
theories/L_MeanPath.v
theories/L_OscLocal.v
theories/Spec2.v
theories/L_Path.v
theories/L_Posterior.v
theories/L_Scripts3.v
theories/L_Scripts4.v
theories/L_Scripts5.v
theories/T_Alg3.v
theories/T_Alg4Law.v
theories/T_BmLaw.v
theories/T_Diag15Mean.v
theories/T_Doss.v
theories/T_Ekf1.v
theories/T_EmOsc.v
theories/T_EndToEnd.v
theories/T_Euler.v
theories/T_Extra.v
theories/T_Filter.v
theories/T_Foster.v
theories/T_Gbm.v
theories/T_GbmTest.v
theories/T_Invariance.v
theories/T_ItoStrat.v
theories/T_Ivp.v
theories/T_LinStep.v
theories/T_Linear.v
theories/T_Lipschitz.v
theories/T_MeanPath.v
theories/T_More.v
theories/T_OdeSolvers.v
theories/T_OscLocal.v
theories/T_Pathwise.v
theories/T_Prior.v
theories/T_Problems.v
theories/T_RefVar.v
theories/T_Runs.v
theories/T_Scheme15.v
theories/T_Scripts.v
theories/T_SdeSolver.v
theories/T_Ssm.v
theories/T_Strong.v
theories/T_Tests.v
theories/T_Total.v
theories/T_Utils.v
