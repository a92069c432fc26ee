-Q theories Verif
theories/Base.v
theories/BaseFacts.v
theories/Float.v
theories/Cplx.v
theories/Random.v
theories/Matrix.v
theories/Act.v
theories/Input.v
theories/Loss.v
theories/Dense.v
theories/Conv.v
theories/Layer.v
theories/Dataset.v
theories/Network.v
theories/SpecMatrix.v
theories/MatrixFacts.v
theories/MatrixFacts2.v
theories/ExOps.v
theories/PropMatrix.v
theories/RFloat.v
theories/BFloat.v
theories/CFacts.v
theories/BFacts.v
theories/Adjoint.v
theories/PropComplex.v
theories/PropRandom.v
theories/PropAdjoint.v
theories/SpecCalculus.v
theories/CalcFacts.v
theories/ActFacts.v
theories/PropAct.v
theories/SpecLoss.v
theories/LossFacts.v
theories/PropLoss.v
theories/SpecLayer.v
theories/DenseFacts.v
theories/LayerCalc.v
theories/LayerFacts.v
theories/PropDense.v
theories/SpecConv.v
theories/ConvFacts.v
theories/PropConv.v
theories/ConvCalc.v
theories/PropConvGrad.v
theories/PoolFacts.v
theories/PropPool.v
theories/SpecNet.v
theories/NetFacts.v
theories/PropNet.v
theories/MaxFacts.v
theories/SpecEval.v
theories/PropEval.v
theories/TrainFacts.v
theories/TrainDense.v
theories/PropTrain.v
theories/SpecGrad.v
theories/GradFacts.v
theories/GradFacts2.v
theories/PropGrad.v
theories/PropData.v
theories/MnistFacts.v
theories/SpecMnist.v
theories/PropMnist.v
theories/SignalFacts.v
theories/PropSignal.v
theories/SpecGeom.v
theories/GeomFacts.v
theories/Examples.v
theories/PropGeom.v
theories/SpecExamples.v
theories/ExampleFacts.v
theories/RecFacts.v
theories/PropExamples.v
theories/PropRec.v
theories/BuildFacts.v
theories/PoolCalc.v
theories/PoolTrain.v
theories/PropPoolGrad.v
theories/PeriodFacts.v
theories/PropPeriod.v
theories/TrainLaws.v
theories/PropLaws.v
theories/SpecRound.v
theories/RoundFacts.v
theories/RoundAct.v
theories/RoundNet.v
theories/PropRound.v
theories/SpecInit.v
theories/InitFloat.v
theories/PropInit.v
theories/SpecNan.v
theories/NanFacts.v
theories/NanCalc.v
theories/PropNan.v
theories/LossFloatFacts.v
theories/SpecLossFloat.v
theories/LossFloatCE.v
theories/LossFloatCalc.v
theories/PropLossFloat.v
theories/Release.v
theories/ReleaseFacts.v
theories/PropRelease.v
theories/SpecCrop.v
theories/CropFacts.v
theories/PropCrop.v
theories/SpecExact.v
theories/ExactFacts.v
theories/ExactNet.v
theories/ExactCalc.v
theories/PropExact.v
theories/SpecDead.v
theories/DeadFacts.v
theories/DeadNum.v
theories/PropDead.v
theories/SpecTwin.v
theories/TwinFacts.v
theories/TwinOut.v
theories/PropTwin.v
theories/SpecPerm.v
theories/PermFacts.v
theories/PropPerm.v
theories/SpecSame.v
theories/SameFacts.v
theories/PropSame.v
theories/SpecRel.v
theories/RelFacts.v
theories/RelNet.v
theories/SpecMirror.v
theories/MirrorFacts.v
theories/MirrorIEEE.v
theories/MirrorNet.v
theories/PropMirror.v
theories/PropLib.v
theories/SpecReal.v
theories/RealMatFacts.v
theories/PropRealMat.v
theories/SpecFit.v
theories/FitFacts.v
theories/FitNet.v
theories/PropFit.v
theories/SpecZero.v
theories/ZeroFacts.v
theories/ZeroNum.v
theories/PropZero.v
theories/SpecLip.v
theories/LipFacts.v
theories/LipNum.v
theories/PropLip.v
theories/ReleaseNet.v
theories/SpecRelease.v
theories/ReleaseNetFacts.v
theories/PropReleaseNet.v
theories/SpecClass.v
theories/ClassFacts.v
theories/ClassEx.v
theories/PropClass.v
theories/InPlace.v
theories/InPlaceFacts.v
theories/PropInPlace.v
theories/SpecNames.v
theories/NamesFacts.v
theories/NamesEval.v
theories/PropNames.v
theories/SpecBasis.v
theories/BasisFacts.v
theories/BasisEval.v
theories/PropBasis.v
theories/BasisOut.v
theories/PropOutBasis.v
theories/SpecPlain.v
theories/PlainFacts.v
theories/PropPlain.v
theories/SpecMemory.v
theories/MemoryFacts.v
theories/PropMemory.v
theories/SpecStill.v
theories/StillFacts.v
theories/StillNum.v
theories/PropStill.v
theories/PropStall.v
theories/PropOrder.v
theories/SpecBack.v
theories/RoundBack.v
theories/BackNum.v
theories/PropBack.v
theories/ApproxFacts.v
theories/PropApprox.v
theories/SpecApprox.v
theories/MaxNet.v
theories/TentNet.v
theories/UniversalFacts.v
theories/PropUniversal.v
theories/SpecWiden.v
theories/WidenFacts.v
theories/PropWiden.v
theories/SpecBalance.v
theories/BalanceFacts.v
theories/PropBalance.v
theories/SpecError.v
theories/ErrorFacts.v
theories/ErrorEx.v
theories/PropError.v
theories/SpecPooled.v
theories/PooledFacts.v
theories/PooledSweep.v
theories/PropPooled.v
theories/SpecFloor.v
theories/FloorFacts.v
theories/FloorEx.v
theories/PropFloor.v
theories/MiniFacts.v
theories/PropMini.v
theories/SpecOnline.v
theories/OnlineFacts.v
theories/PropOnline.v
theories/SpecGeometric.v
theories/GeometricFacts.v
theories/GeometricEx.v
theories/PropGeometric.v
theories/SpecRuns.v
theories/RunsFacts.v
theories/RunsEx.v
theories/PropRuns.v
theories/SpecNoise.v
theories/NoiseFacts.v
theories/NoiseEx.v
theories/PropNoise.v
