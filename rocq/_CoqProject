-Q theories Verif
theories/Ext.v
theories/Scalar.v
theories/IntervalModel.v
theories/IntervalSpec.v
theories/IntervalProofs.v
theories/IntervalEncl.v
theories/IntervalSets.v
theories/IntervalDivPow.v
theories/Fp64.v
theories/RDoubleHw.v
theories/IntervalMore.v
theories/Ex64.v
theories/PropsInterval.v
theories/NohwModel.v
theories/NohwReal.v
theories/NohwBase.v
theories/NohwProd.v
theories/NohwProofs.v
theories/NohwDiv.v
theories/IntervalParam.v
theories/Expr.v
theories/IntervalTight.v
theories/IntervalMid.v
theories/Backends.v
theories/ExprIso.v
theories/PropsRounding.v
theories/PropsTight.v
theories/ElemModel.v
theories/RealFun.v
theories/RealConst.v
theories/RealInv.v
theories/ElemGen.v
theories/ElemExp.v
theories/ElemLog.v
theories/ElemTrig.v
theories/ElemAtan2.v
theories/ElemConst.v
theories/Elem64.v
theories/ElemMore.v
theories/ExprFun.v
theories/PropsElem.v
theories/ElemParam.v
theories/PropsBackends.v
theories/LinAlg.v
theories/RealRn.v
theories/VecModel.v
theories/VecProofs.v
theories/KrawProofs.v
theories/VecMore.v
theories/VecInst.v
theories/PropsLin.v
theories/ADModel.v
theories/ADReal.v
theories/ADProofs.v
theories/ADInst.v
theories/ADSys.v
theories/PropsAD.v
theories/PropsSys.v
theories/CplxModel.v
theories/CplxReal.v
theories/CplxProofs.v
theories/PropsCplx.v
theories/SeriesModel.v
theories/SeriesReal.v
theories/SeriesProofs.v
theories/PropsSeries.v
theories/PolyModel.v
theories/PolyReal.v
theories/PolyProofs.v
theories/DkaProofs.v
theories/PropsPoly.v
theories/PsaModel.v
theories/PsaReal.v
theories/PsaProofs.v
theories/PsaExpr.v
theories/PsaInt.v
theories/PsaUse.v
theories/PsaUseProofs.v
theories/PsaHist.v
theories/PsaHistProofs.v
theories/PsaHistRep.v
theories/PsaHistKeep.v
theories/PsaInst.v
theories/PropsPsa.v
theories/AffModel.v
theories/AffSpec.v
theories/AffProofs.v
theories/AffFun.v
theories/AffRed.v
theories/AffLang.v
theories/AffProg.v
theories/AffMore.v
theories/PropsAff.v
theories/LpModel.v
theories/LpProofs.v
theories/PropsLp.v
theories/ADOpen.v
theories/OptModel.v
theories/OptProofs.v
theories/OptInst.v
theories/PropsOpt.v
theories/ConvModel.v
theories/ConvSpec.v
theories/ConvProofs.v
theories/ConvIn.v
theories/ConvIn2.v
theories/ConvRead.v
theories/ConvOut.v
theories/ConvFmt.v
theories/ConvIv.v
theories/PropsConv.v
theories/DdModel.v
theories/DdSpec.v
theories/DdProofs.v
theories/DdArith.v
theories/DdDiv.v
theories/DdSqrt.v
theories/DdCmp.v
theories/PropsDd.v
theories/OdeLip.v
theories/OdePicard.v
theories/OdeModel.v
theories/OdeSeries.v
theories/OdeStep.v
theories/OdeSpec.v
theories/OdeHist.v
theories/OdeProofs.v
theories/OdeGlue.v
theories/OdeLong.v
theories/PropsOde.v
theories/OdeIndep.v
theories/PropsPsaHist.v
theories/DefintAuto.v
theories/DefintAutoProofs.v
theories/PropsDefint.v
theories/BesselModel.v
theories/PropsBessel.v
theories/AllsolModel.v
theories/AllsolRec.v
theories/AllsolProofs.v
theories/PropsAllsol.v
theories/KktModel.v
theories/KktProofs.v
theories/PropsKkt.v
theories/EigModel.v
theories/EigProofs.v
theories/EigCases.v
theories/PropsEig.v
theories/NcReal.v
theories/NcModel.v
theories/NcRule.v
theories/NcProofs.v
theories/PropsNc.v
theories/SingReal.v
theories/SingModel.v
theories/SingProofs.v
theories/PropsSing.v
theories/SingAuto.v
theories/SingAutoProofs.v
theories/PowEnv.v
theories/PropsSingAuto.v
theories/PropsPowPar.v
theories/SingLog.v
theories/SingLogProofs.v
theories/PropsSingLog.v
theories/DblModel.v
theories/DblBase.v
theories/DblInt.v
theories/DblProofs.v
theories/DblFun.v
theories/PropsDbl.v
theories/GammaReal.v
theories/GammaNeg.v
theories/GammaModel.v
theories/GammaProofs.v
theories/PropsGamma.v
theories/GammaMin.v
theories/PropsLgamma.v
theories/BetaReal.v
theories/BetaModel.v
theories/BetaProofs.v
theories/PropsBeta.v
theories/TriReal.v
theories/TriModel.v
theories/TriProofs.v
theories/PropsTri.v
theories/LobReal.v
theories/LobModel.v
theories/LobProofs.v
theories/PropsLob.v
theories/OdescaleModel.v
theories/PropsOdescale.v
theories/DncModel.v
theories/DncProofs.v
theories/DncRange.v
theories/PropsDnc.v
theories/CurvedModel.v
theories/PropsCurved.v
