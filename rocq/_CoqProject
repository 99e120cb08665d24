-Q theories Verif
theories/Py.v
theories/Slater.v
theories/SdList.v
theories/Alg.v
theories/WfnCI.v
theories/WfnHCI.v
theories/HamFac.v
theories/WfnFac.v
theories/WfnFacEx.v
theories/Graphs.v
theories/MathTools.v
theories/Geminal.v
theories/AP1roG.v
theories/Cache.v
theories/WfnCached.v
theories/BitSpec.v
theories/BitLemmas.v
theories/Fock.v
theories/FockLemmas.v
theories/Combos.v
theories/SignSpec.v
theories/SlaterBits.v
theories/SlaterBits2.v
theories/SignLemmas.v
theories/MatchSpec.v
theories/MatchLemmas.v
theories/BicliqueLemmas.v
theories/PermLemmas.v
theories/DetLemmas.v
theories/OrbSpec.v
theories/OrbLemmas.v
theories/FockInner.v
theories/OrbMain.v
theories/WedgeLemmas.v
theories/SpinSpec.v
theories/ParamSel.v
theories/EqnBase.v
theories/ParamSelSpec.v
theories/EqnSpec.v
theories/EqnObj.v
theories/EqnObjSpec.v
theories/ProjSpec.v
theories/Solver.v
theories/SolverSpec.v
theories/HamGen.v
theories/HamRes.v
theories/HamRot.v
theories/HamSpec.v
theories/HamRotLemmas.v
theories/HamRotMat.v
theories/HamRotAssign.v
theories/HamRotHist.v
theories/SolverHam.v
theories/EqnEx.v
theories/EqnReal.v
theories/EqnNorm.v
theories/EqnEx2.v
theories/EqnEx3.v
theories/HamEx.v
theories/HamRotEx.v
theories/SolverEx.v
theories/BulkLemmas.v
theories/SignVec.v
theories/SignVec2.v
theories/SignVec3.v
theories/CCSpec.v
theories/SenSpec.v
theories/GraphSpec.v
theories/SdSpec.v
theories/SdLemmas.v
theories/BulkAB.v
theories/P_Slater2.v
theories/BicliqueMain.v
theories/GeneralLemmas.v
theories/CoinLemmas.v
theories/PartLemmas.v
theories/PartMain.v
theories/P_Graphs.v
theories/CC.v
theories/CCRows.v
theories/CCRows2.v
theories/CCGen.v
theories/P_Slater1.v
theories/RyserLemmas.v
theories/BorchardtLemmas.v
theories/HamLemmas.v
theories/CreSpec.v
theories/CreLemmas.v
theories/GemSpec.v
theories/CCFock.v
theories/CCExp.v
theories/CCLemmas.v
theories/SenCC.v
theories/SenRows.v
theories/DensSpec.v
theories/CILemmas.v
theories/CCMain.v
theories/CCDeriv.v
theories/SenFock.v
theories/SenMain.v
theories/SenEx.v
theories/SdOrder.v
theories/SaveNames.v
theories/SaveNamesSpec.v
theories/SaveNamesEx.v
theories/SaveLemmas.v
theories/Composite.v
theories/Jacobi.v
theories/JacobiSpec.v
theories/Rbm.v
theories/RbmSpec.v
theories/RbmLemmas.v
theories/ParamSelLemmas.v
theories/P_ParamSel.v
theories/EqnLemmas.v
theories/RbmMain.v
theories/RbmVec.v
theories/RbmGrad.v
theories/Rank2.v
theories/Rank2Spec.v
theories/Rank2Ex.v
theories/RbmEx.v
theories/PermSpec.v
theories/GemPairs.v
theories/P_Permanent.v
theories/GemEx.v
theories/P_GemPairs.v
theories/GemMain.v
theories/GemSchemes.v
theories/GemOlp.v
theories/GemWf.v
theories/Mps.v
theories/MpsSpec.v
theories/MpsLemmas.v
theories/Rank2Lemmas.v
theories/Rank2Main.v
theories/Rank2Values.v
theories/CompSpec.v
theories/CompLemmas.v
theories/Nonorth.v
theories/NonorthSpec.v
theories/NonorthLemmas.v
theories/NonorthMain.v
theories/NonorthValues.v
theories/DetRatio.v
theories/DetRatioSpec.v
theories/DetRatioLemmas.v
theories/Quasi.v
theories/QuasiSpec.v
theories/GemFinal.v
theories/QuasiLemmas.v
theories/Density.v
theories/HamSC.v
theories/HamMain.v
theories/HamSpin.v
theories/DensLemmas.v
theories/DensCalls.v
theories/DensState.v
theories/DensMain.v
theories/DensEx.v
theories/P_Density.v
theories/CIEx.v
theories/P_CI.v
theories/P_Geminal.v
theories/Ap1Spec.v
theories/Ap1Lemmas.v
theories/Ap1Main.v
theories/Ap1Ex.v
theories/P_AP1roG.v
theories/QuasiMain.v
theories/QuasiTet.v
theories/QuasiEx.v
theories/Pspace.v
theories/PspaceSpec.v
theories/PspaceRealEx.v
theories/PspaceEx.v
theories/EqnMain.v
theories/P_Eqn.v
theories/EqnJac.v
theories/ProjAgree.v
theories/CCEx.v
theories/CCCache.v
theories/CCCacheSpec.v
theories/CacheSpec.v
theories/CacheLemmas.v
theories/CCCacheEx.v
theories/P_CCCache.v
theories/P_CC.v
theories/Pccd.v
theories/PccdSpec.v
theories/PccdRows.v
theories/PccdMain.v
theories/PccdExp.v
theories/PccdNew.v
theories/PccdTop.v
theories/PccdEx.v
theories/HamFacL.v
theories/HamFacEx.v
theories/P_WfnFac.v
theories/P_SolverCI.v
theories/P_SolverReal.v
theories/HamRotTaylor.v
theories/HamWfn.v
theories/P_Ham1.v
theories/P_Rot2.v
theories/P_SolverHam.v
theories/P_Projected.v
theories/P_Eqn2.v
theories/P_Projected2.v
theories/P_Projected3.v
theories/CompGrad.v
theories/LsSpec.v
theories/LsModel.v
theories/P_LeastSquares.v
theories/P_Solver.v
theories/P_Solver2.v
theories/P_SolverEx.v
theories/P_SenCC.v
theories/P_SdList.v
theories/P_SaveNames.v
theories/HamSpinSign.v
theories/HamSpinWfn.v
theories/HamSpinSum.v
theories/P_Ham2.v
theories/P_Rot.v
theories/Creation.v
theories/CreationSpec.v
theories/CreationLemmas.v
theories/CreationGood.v
theories/CreationPf.v
theories/CreationOlp.v
theories/CreationInit.v
theories/CreationEx.v
theories/P_Creation.v
theories/P_Rbm.v
theories/CacheEx.v
theories/P_Cache.v
theories/P_Rank2.v
theories/P_Rank2b.v
theories/P_Rank2c.v
theories/P_Quasi.v
theories/P_PspaceReal.v
theories/P_Pspace.v
theories/P_Pccd.v
theories/JacobiLemmas.v
theories/JacobiMain.v
theories/JacobiEx.v
theories/P_Jacobi.v
theories/NonorthValues2.v
theories/NonorthValues3.v
theories/NonorthProduct.v
theories/NonorthDeriv.v
theories/NonorthEx.v
theories/P_Nonorth.v
theories/P_Nonorth2.v
theories/NatOrb.v
theories/NatSpec.v
theories/NatFock.v
theories/NatEx.v
theories/P_NatOrb.v
theories/P_NatReal.v
theories/MpsMat.v
theories/MpsGrad.v
theories/MpsDefault.v
theories/MpsEx.v
theories/P_Mps.v
theories/MathAdj.v
theories/MathAdjSpec.v
theories/MathAdjL.v
theories/MathAdjEx.v
theories/P_MathAdj.v
theories/P_HamFac.v
theories/HamSen.v
theories/HamSenLemmas.v
theories/P_Ham3.v
theories/CISpaceLemmas.v
theories/P_CISpace.v
theories/HCILemmas.v
theories/HCIEx.v
theories/P_HCI.v
theories/CompMain.v
theories/CompMain2.v
theories/P_GemParams.v
theories/Fanci.v
theories/FanciSpec.v
theories/Fanpt.v
theories/FanptSpec.v
theories/FanptSpec2.v
theories/FanptPoly.v
theories/FanptLemmas.v
theories/FanptMain.v
theories/FanptOrders.v
theories/FanciLemmas.v
theories/FanptFree.v
theories/FanptEx.v
theories/FanptEx3.v
theories/P_FanptFree.v
theories/P_Fanpt.v
theories/FanciEx.v
theories/P_Fanci.v
theories/P_FanptDrive.v
theories/FanptEx2.v
theories/P_FanptCon.v
theories/EnergyCons.v
theories/EnergyConsSpec.v
theories/P_EnergyCons.v
theories/EmbCC.v
theories/EmbSpec.v
theories/EmbLemmas.v
theories/EmbDeriv.v
theories/EmbEx.v
theories/P_EmbCC.v
theories/DetRatioMain.v
theories/DetRatioEx.v
theories/P_DetRatio.v
theories/HamDeriv.v
theories/DerivSpec.v
theories/DerivHams.v
theories/DerivLemmas.v
theories/DerivGen.v
theories/DerivSpin.v
theories/DerivSpin2.v
theories/DerivSpin3.v
theories/DerivSpin4.v
theories/DerivTan.v
theories/DerivEx.v
theories/P_Deriv2.v
theories/P_Deriv.v
theories/P_Density2.v
theories/CompEx.v
theories/P_Composite.v
theories/P_CCRef.v
