-Q theories Verif
theories/Base.v
theories/Num.v
theories/Distribution.v
theories/Regression.v
theories/Smooth.v
theories/Correlation.v
theories/Volume.v
theories/Volatility.v
theories/Trend.v
theories/Momentum.v
theories/B64.v
theories/Spec.v
theories/BaseFacts.v
theories/Tac.v
theories/SmoothShape.v
theories/DistShape.v
theories/Pascal.v
theories/VolShape.v
theories/TrendShape.v
theories/MomShape.v
theories/Prings.v
theories/XReal.v
theories/RSpec.v
theories/XRFacts.v
theories/SmoothVals.v
theories/SmoothReal.v
theories/SmoothReal2.v
theories/Convex.v
theories/DistReal.v
theories/Select.v
theories/Count.v
theories/OrderStat.v
theories/RegReal.v
theories/Rank.v
theories/CorrReal.v
theories/RankCorr.v
theories/Dcor.v
theories/Mic.v
theories/Bars.v
theories/VolumeReal.v
theories/VolatReal.v
theories/MomReal.v
theories/TrendReal.v
theories/HurstReal.v
theories/F64.v
theories/F64Facts.v
theories/F64Range.v
theories/F64Osc.v
theories/Flat.v
theories/NaN.v
theories/Poison.v
theories/Adaptive.v
theories/Refute.v
theories/Dispatch.v
theories/F64Err.v
theories/Extra.v
theories/Warm.v
theories/Local.v
theories/Panics.v
theories/Mama.v
theories/Ranges.v
theories/Entropy.v
theories/MamaF64.v
theories/F64Rec.v
theories/Scale.v
theories/ScaleRel.v
theories/ScaleVals.v
theories/Case.v
theories/Cases.v
theories/CasesF64.v
theories/CasesDirect.v
theories/CasesScale.v
theories/Typed.v
theories/TypedFacts.v
theories/More.v
theories/F64Win.v
theories/F64Var.v
theories/CasesMore.v
theories/Mono.v
theories/MamaExact.v
theories/CasesMono.v
theories/Shift.v
theories/ShiftRel.v
theories/ShiftStat.v
theories/ShiftVol.v
theories/ShiftTrend.v
theories/ShiftVals.v
theories/CasesShift.v
theories/Mirror.v
theories/MirRel.v
theories/MirBars.v
theories/MirVals.v
theories/MirExact.v
theories/CasesMirror.v
theories/Lazy.v
theories/LazyFacts.v
theories/CasesLazy.v
theories/Super.v
theories/CasesSuper.v
theories/Agree.v
theories/AgreeReal.v
theories/CasesAgree.v
theories/F64Rel.v
theories/F64Acc.v
theories/F64AccB.v
theories/F64AccC.v
theories/F64AccD.v
theories/F64Leaves.v
theories/F64OscB.v
theories/CasesOsc.v
theories/CasesAcc.v
theories/F64Tau.v
theories/F64Sign.v
theories/SuperVol.v
theories/Gap.v
theories/GapMore.v
theories/GapSkip.v
theories/CasesGap.v
theories/Forget.v
theories/CasesForget.v
theories/Stable.v
theories/CasesStable.v
theories/Line.v
theories/CasesLine.v
theories/Release.v
theories/ReleaseFacts.v
theories/CasesRelease.v
theories/F64RecB.v
theories/CasesRecB.v
theories/ReleaseB.v
theories/ReleaseBFacts.v
theories/CasesReleaseB.v
theories/Order.v
theories/CasesOrder.v
theories/ForgetB.v
theories/CasesForgetB.v
theories/ForgetC.v
theories/CasesForgetC.v
theories/Relabel.v
theories/CasesRelabel.v
theories/Resume.v
theories/CasesResume.v
theories/Limits.v
theories/CasesLimits.v
theories/LimitsB.v
theories/CasesLimitsB.v
theories/Trending.v
theories/CasesTrending.v
theories/TrendingB.v
theories/CasesTrendingB.v
theories/F64Trend.v
theories/CasesF64Trend.v
theories/F64TrendB.v
theories/CasesF64TrendB.v
theories/F64TrendC.v
theories/CasesF64TrendC.v
theories/F64TrendD.v
theories/CasesF64TrendD.v
theories/F64TrendE.v
theories/CasesF64TrendE.v
theories/F64TrendF.v
theories/CasesF64TrendF.v
theories/F64TrendG.v
theories/CasesF64TrendG.v
