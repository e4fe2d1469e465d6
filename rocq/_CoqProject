-Q theories Verif
theories/Base.v
theories/ModelBasic.v
theories/ModelInt.v
theories/ModelElem.v
theories/ModelSpecial.v
theories/ModelApi.v
theories/FltLemmas.v
theories/Spec.v
theories/IntProofs.v
theories/BasicProofs.v
theories/ConvLemmas.v
theories/PF.v
theories/FPErr.v
theories/FmodProofs.v
theories/SignBits.v
theories/SymLemmas.v
theories/ScaleProofs.v
theories/CxxProofs.v
theories/TotalProofs.v
theories/ExpTotal.v
theories/PowAcc.v
theories/ExpReal.v
theories/ExpAcc.v
theories/EdgeProofs.v
theories/DomainProofs.v
theories/LimitProofs.v
theories/SymProofs.v
theories/RangeProofs.v
theories/MiscProofs.v
theories/CFReal.v
theories/CFBound.v
theories/CFTrunc.v
theories/CFAcc.v
theories/TanAcc.v
theories/SinAcc.v
theories/TanhAcc.v
theories/AtanAcc.v
theories/TrigApi.v
theories/SqrtAcc.v
theories/SqrtSimp.v
theories/InvSqrtAcc.v
theories/HypotAcc.v
theories/LogAcc.v
theories/LogApi.v
theories/LogMore.v
theories/LogBad.v
theories/Log1pAcc.v
theories/Expm1Acc.v
theories/PowReal.v
theories/SinhAcc.v
theories/InvTrig.v
theories/Atan2Acc.v
theories/InvHyp.v
theories/SpecErf.v
theories/ErfReal.v
theories/ErfBound.v
theories/ErfRuns.v
theories/ErfSmall.v
theories/ErfAcc.v
theories/ErfLarge.v
theories/ErfApi.v
theories/ErfInvReal.v
theories/ErfInvAcc.v
theories/SpecGamma.v
theories/PolyPos.v
theories/PolyBig.v
theories/Lanczos.v
theories/GammaInt.v
theories/GammaReal.v
theories/GammaCoef.v
theories/GammaRnd.v
theories/GammaAcc.v
theories/TgammaAcc.v
theories/GammaApi.v
theories/BetaAcc.v
theories/LmgammaAcc.v
theories/BetaApi.v
theories/SpecInc.v
theories/TgammaNeg.v
theories/IncBeta.v
theories/IncBad.v
theories/IncFlat.v
theories/IncGamReal.v
theories/IncGamAcc.v
theories/IncGamUp.v
theories/IncGamUpAcc.v
theories/IncGamApi.v
theories/IncBetaCF.v
theories/IncBetaReal.v
theories/IncBetaAcc.v
theories/IncBetaApi.v
theories/IncBetaBad.v
theories/BetaEuler.v
theories/IncBetaAbs.v
theories/PropsInt.v
theories/PropsBasic.v
theories/PropsEdge.v
theories/PropsAcc.v
theories/PropsTrig.v
theories/PropsSqrt.v
theories/PropsLog.v
theories/PropsPow.v
theories/PropsInv.v
theories/PropsErf.v
theories/PropsErfInv.v
theories/PropsGamma.v
theories/PropsBeta.v
theories/PropsInc.v
theories/PropsIncAcc.v
theories/PropsIncBeta.v
theories/TrigReal.v
theories/TrigAng.v
theories/TrigWide.v
theories/TrigPole.v
theories/TrigRed.v
theories/TrigLarge.v
theories/PropsTrig2.v
theories/Exact.v
theories/RoundTrip.v
theories/Special.v
theories/PropsExact.v
theories/PropsRound.v
theories/IntFlt.v
theories/PropsIntFlt.v
theories/IncInvReal.v
theories/IncInvAcc.v
theories/IncInvApi.v
theories/PropsIncInv.v
theories/RoundTrip2.v
theories/PropsRound2.v
theories/ModelMore.v
theories/LmgammaFlt.v
theories/PropsLmgamma.v
theories/IntBetaInv.v
theories/PropsIntBetaInv.v
theories/BetaInvUnif.v
theories/PropsBetaInv.v
theories/RoundTrip3.v
theories/PropsRound3.v
theories/LogExpLaws.v
theories/PropsLaws.v
theories/BetaLaws.v
theories/BetaTrip.v
theories/PropsBetaLaws.v
theories/IncLimits.v
theories/PropsIncLimits.v
theories/ExpDist.v
theories/PropsExpDist.v
theories/RoundTrip4.v
theories/PropsRound4.v
theories/Identities.v
theories/PropsIdent.v
theories/LogGam.v
theories/PropsLogGam.v
theories/ErfGamma.v
theories/PropsErfGamma.v
theories/Reflect.v
theories/PropsReflect.v
theories/TanLaw.v
theories/PropsTanLaw.v
theories/ExpSum.v
theories/PropsExpSum.v
theories/PowSum.v
theories/PropsPowSum.v
theories/Atan2Sum.v
theories/PropsAtan2Sum.v
theories/LogChoose.v
theories/PropsLogChoose.v
theories/FactGamma.v
theories/PropsFactGamma.v
