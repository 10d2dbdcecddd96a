-Q theories Verif
theories/Prelude.v
theories/Zmod.v
theories/LinAlg.v
theories/Numpy.v
theories/NumpyFacts.v
theories/Sklearn.v
theories/SklearnFacts.v
theories/Standard.v
theories/Model.v
theories/KfSpec.v
theories/StandardInit.v
theories/StandardFacts.v
theories/SpecL2.v
theories/L2Facts.v
theories/Lmmse.v
theories/Exists.v
theories/KfOptimal.v
theories/KfStruct.v
theories/KfStruct2.v
theories/KfModelFacts.v
theories/KfOnline.v
theories/KfEm.v
theories/KfEquiv.v
theories/GaussSpec.v
theories/KfLoglik.v
theories/Joint.v
theories/KfJoint.v
theories/KfGlue.v
theories/EmForm.v
theories/EmSpec.v
theories/EmMax.v
theories/EmStep.v
theories/EmGlue.v
theories/EmChain.v
theories/EmMono.v
theories/KfStackR.v
theories/Examples.v
theories/ExamplesEm.v
theories/Properties_KF.v
theories/Properties_Struct.v
theories/Properties_EM.v
theories/Rng.v
theories/Sample.v
theories/SampleSpec.v
theories/Client.v
theories/SampleFacts.v
theories/Properties_Sample.v
theories/Unscented.v
theories/UscSpec.v
theories/UscFacts.v
theories/UscRefine.v
theories/UscLoop.v
theories/UscInit.v
theories/UscMain.v
theories/UscLinear.v
theories/UscOnline.v
theories/UscShape.v
theories/UscProps.v
theories/UscPsd.v
theories/UscNeg.v
theories/ExamplesUsc.v
theories/Properties_Unscented.v
theories/Sqrt.v
theories/Cholesky.v
theories/SqrtFacts.v
theories/ChFacts.v
theories/SqrtSpec.v
theories/SqrtApi.v
theories/ChMain.v
theories/SqrtEm.v
theories/SqrtGlue.v
theories/ExamplesSqrt.v
theories/Properties_Sqrt.v
theories/Bierman.v
theories/BiUdu.v
theories/BiSingle.v
theories/BiBatch.v
theories/BiFacts.v
theories/BiMain.v
theories/Properties_Bierman.v
theories/SqrtUnscented.v
theories/CuFacts.v
theories/SuTri.v
theories/SuFacts.v
theories/SuStep.v
theories/SuMain.v
theories/SuNeg.v
theories/SuNeg2.v
theories/SuProps.v
theories/CuRank.v
theories/SuSmooth.v
theories/SuSmooth2.v
theories/SuSmoothMain.v
theories/SuProps2.v
theories/UscMask.v
theories/SuStruct.v
theories/Properties_SqrtUnscented.v
theories/Datasets.v
theories/DsFacts.v
theories/Properties_Datasets.v
theories/UscSampleSpec.v
theories/UscSample.v
theories/ByteOrder.v
theories/BoFacts.v
theories/Properties_UscSample.v
theories/Refute.v
theories/EmNeg.v
theories/Properties_Limits.v
theories/KfMoreSpec.v
theories/KfNoise.v
theories/KfMore.v
theories/KfBlock.v
theories/KfMoreGlue.v
theories/KfMoreGlue2.v
theories/SamplePrefix.v
theories/ExamplesMore.v
theories/Properties_More.v
theories/BiermanInt.v
theories/BiIntSpec.v
theories/BiIntFacts.v
theories/Properties_BiInt.v
theories/EmIdle.v
theories/Properties_EmIdle.v
theories/KfMergeSpec.v
theories/KfMerge.v
theories/KfSensors.v
theories/Properties_Merge.v
theories/TightSpec.v
theories/TightFacts.v
theories/Properties_Tight.v
theories/InPlace.v
theories/InPlaceSpec.v
theories/InPlaceFacts.v
theories/InPlaceSample.v
theories/InPlaceNeg.v
theories/Properties_InPlace.v
theories/Heap.v
theories/HeapSpec.v
theories/HeapFacts.v
theories/HeapFilter.v
theories/HeapEm.v
theories/HeapClass.v
theories/HeapClient.v
theories/HeapClientSpec.v
theories/HeapClientFacts.v
theories/HeapWrites.v
theories/HeapNeg.v
theories/HeapSample.v
theories/HeapSampleFacts.v
theories/Properties_Heap.v
theories/RealInstance.v
theories/RealSpec.v
theories/RealFacts.v
theories/Properties_Real.v
theories/UnitsSpec.v
theories/UscUnits.v
theories/UscUnitsApi.v
theories/Properties_Units.v
theories/Tight2Spec.v
theories/Tight2Facts.v
theories/Properties_Tight2.v
theories/KfLsSpec.v
theories/KfLs.v
theories/Properties_Ls.v
theories/EmEquiv.v
theories/ExamplesEmUnits.v
theories/Properties_EmUnits.v
theories/KfSuperSpec.v
theories/KfSuper.v
theories/KfSteady.v
theories/ExamplesSuper.v
theories/Properties_Super.v
theories/KfCurvSpec.v
theories/KfCurv.v
theories/KfReverse.v
theories/Properties_Curv.v
theories/KfInnovSpec.v
theories/KfInnov.v
theories/Properties_Innov.v
theories/RotSpec.v
theories/UscRecode.v
theories/ExamplesRot.v
theories/Properties_Rot.v
theories/SuffSpec.v
theories/KfSuff.v
theories/KfSuffApi.v
theories/ExamplesSuff.v
theories/Properties_Suff.v
theories/KfExact.v
theories/ExamplesExact.v
theories/Properties_Exact.v
theories/MemoSpec.v
theories/KfMemo.v
theories/Properties_Memo.v
theories/RedSpec.v
theories/KfRed.v
theories/Properties_Red.v
