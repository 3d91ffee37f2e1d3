-Q theories Verif
theories/Base.v
theories/Spec.v
theories/ModelStats.v
theories/LemStats.v
theories/PropStats.v
theories/ModelEstimators.v
theories/LemEstimators.v
theories/LemEst2.v
theories/PropEstimators.v
theories/ModelAlias.v
theories/PropAlias.v
theories/ModelTyping.v
theories/PropTyping.v
theories/ModelRandom.v
theories/ModelTrace.v
theories/LemTrace.v
theories/PropTrace.v
theories/PropUnbiased.v
theories/PropDiag.v
theories/ModelHutchpp.v
theories/PropHutchpp.v
theories/ModelXtrace.v
theories/LemXtrace.v
theories/LemXrun.v
theories/PropXtrace.v
theories/PropXdiag.v
theories/ModelLanczos.v
theories/LemLanczos.v
theories/SpecLanczos.v
theories/LemLanczos2.v
theories/LemLanczos3.v
theories/LemLanczos4.v
theories/PropLanczos.v
theories/PropLanczos2.v
theories/PropLanczos3.v
theories/PropLanczos4.v
theories/ModelTqli.v
theories/LemTqli.v
theories/SpecTridiag.v
theories/PropTqli.v
theories/ModelQuadrature.v
theories/LemSpectral.v
theories/SpecQuad.v
theories/LemQuad.v
theories/PropQuad.v
theories/ModelSpecial.v
theories/PropSpecial.v
theories/ModelOperators.v
theories/SpecOperators.v
theories/LemOperators.v
theories/PropOperators.v
theories/LemOperators2.v
theories/PropMatFun.v
theories/PropMatFun2.v
theories/PropMatFun3.v
theories/PropMatFun4.v
theories/ModelRandom2.v
theories/LemFill.v
theories/PropFill.v
theories/PropRandom.v
theories/PropRandom2.v
theories/ModelToeplitz.v
theories/LemToeplitz.v
theories/PropToeplitz.v
theories/ModelHeap.v
theories/LemHeap.v
theories/PropHeap.v
theories/ModelPylinop.v
theories/PropPylinop.v
theories/ModelLanczosRef.v
theories/PropLanczosRef.v
theories/PropLanczosBase.v
theories/ModelRound.v
theories/PropRound.v
theories/ModelReport.v
theories/PropReport.v
theories/PropAccuracy.v
theories/ModelSLQ.v
theories/PropSLQ.v
theories/PropSLQ2.v
theories/PropTail.v
theories/ModelNative.v
theories/PropNative.v
theories/ModelOpApps.v
theories/LemOpApps.v
theories/PropOpApps.v
theories/PropOpApps2.v
theories/PropOpApps3.v
theories/PropVariance.v
theories/PropVariance2.v
theories/PropStop.v
theories/PropStop2.v
theories/PropCalls.v
theories/ModelNonFinite.v
theories/LemNonFinite.v
theories/LemNonFinite2.v
theories/PropNonFinite.v
theories/ModelFunArray.v
theories/LemFunArray.v
theories/PropFunArray.v
theories/ModelSLQNonFinite.v
theories/PropSLQNonFinite.v
theories/ModelXtraceNonFinite.v
theories/LemXtraceNonFinite.v
theories/PropXtraceNonFinite.v
theories/ModelRoundHutch.v
theories/ModelRoundDiag.v
theories/PropRoundHutch.v
theories/PropRoundDiag.v
theories/PropRoundVar.v
