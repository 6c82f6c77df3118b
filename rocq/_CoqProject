-Q theories Verif

theories/Scalar.v
theories/Mem.v
theories/MemFacts.v
theories/Omp.v
theories/OmpFacts.v
theories/RealOps.v
theories/Spec.v
theories/DftFacts.v
theories/Lanes.v
theories/Butterfly.v
theories/ModelMixed.v
theories/Stage.v
theories/CoreStage.v
theories/MixedStage.v
theories/FactorFacts.v
theories/MixedDrive.v
theories/MixedRun.v
theories/ButterflyFacts.v
theories/FftSpec.v
theories/MixedSpec.v
theories/Object.v
theories/ObjectFacts.v
theories/Engine.v
theories/ModelMixedClass.v
theories/MixedClassFacts.v
theories/ApiSpec.v
theories/MixedExact.v
theories/Twid.v
theories/ModelDif4.v
theories/ModelDif8.v
theories/ModelDif16.v
theories/ModelDit4.v
theories/ModelDit8.v
theories/ModelDit16.v
theories/KernelFacts.v
theories/ModelPow.v
theories/PowDrive.v
theories/PowKern.v
theories/PowRun.v
theories/PowClassFacts.v
theories/PowButterfly.v
theories/PowSpec.v
theories/PowExact.v
theories/Steps.v
theories/ModelSix.v
theories/SixIndex.v
theories/SixRun.v
theories/SixPart.v
theories/SixEight.v
theories/SixClass.v
theories/SixExact.v
theories/ModelApi.v
theories/History.v
theories/ApiFacts.v
theories/ApiExact.v
theories/Footprint.v
theories/ComplexThms.v
theories/PropComplex.v
theories/Blocks.v
theories/ModelReal.v
theories/RealFacts.v
theories/RealRun.v
theories/RealExact.v
theories/GObj.v
theories/RealObj.v
theories/DctRun.v
theories/RealSpec.v
theories/DctExact.v
theories/RealThms.v
theories/PropReal.v
theories/PropSpectrum.v
theories/PropConvolution.v
theories/DctThms.v
theories/PropDct.v
theories/ModelBluestein.v
theories/BluesteinRun.v
theories/BluesteinExact.v
theories/PropBluestein.v
theories/PropResetup.v
theories/Undefined.v
theories/MixedFail.v
theories/Plan.v
theories/PropLimits.v
theories/PropEngines.v
theories/PropTables.v
theories/ModelFactory.v
theories/PropFactory.v
theories/ModelArray.v
theories/ArrayFacts.v
theories/PropArray.v
theories/ModelLength.v
theories/PropLength.v
theories/Simd.v
theories/SimdFacts.v
theories/Mysqrt.v
theories/Ieee.v
theories/PropBuilds.v
theories/PropHelpers.v
theories/PropMysqrt.v
theories/Norm.v
theories/Round.v
theories/RoundBf.v
theories/RoundTab.v
theories/RoundStage.v
theories/RoundPow.v
theories/RoundSix.v
theories/RoundMixed.v
theories/RoundApi.v
theories/PropAccuracy.v
theories/Param.v
theories/ParamKern.v
theories/ParamFft.v
theories/Vec.v
theories/ModelVec.v
theories/ModelVecApi.v
theories/VecFacts.v
theories/AlignFacts.v
theories/Performs.v
theories/Via.v
theories/PropAlign.v
theories/RoundReal.v
theories/PropRealAccuracy.v
theories/RoundDct.v
theories/PropDctAccuracy.v
theories/RoundBluestein.v
theories/PropBluesteinAccuracy.v
theories/Ieee64.v
theories/PropIeee.v
theories/PropNonfinite.v
theories/Grade.v
theories/GradeFft.v
theories/PropOverflow.v
theories/Odd.v
theories/OddFft.v
theories/PropOdd.v
theories/PropConvAccuracy.v
theories/PropRealConv.v
theories/PropTone.v
theories/PropParseval.v
theories/PropBatch.v
theories/PropCorrelation.v
theories/PropResample.v
theories/PropStability.v
theories/PropBatchAccuracy.v
theories/PropSymmetry.v
theories/PropCorrAccuracy.v
theories/PropImage.v
theories/PropImageAccuracy.v
theories/PropBatchBack.v
theories/PropBatchEnergy.v
theories/PropDct2.v
theories/PropStream.v
theories/PropStreamReal.v
theories/PropStreamIeee.v
theories/PropPacking.v
theories/ModelModq.v
theories/PropModq.v
theories/ModelComplexType.v
theories/PropComplexType.v
theories/PropSizes.v
theories/PropBytes.v
theories/Concurrent.v
theories/WritesIn.v
theories/PropConcurrent.v
theories/PropShare.v
theories/PropShareMore.v
