-Q theories Verif
theories/Base.v
theories/Float.v
theories/Operation.v
theories/Tape.v
theories/AContext.v
theories/Methods.v
theories/Function.v
theories/Spec.v
theories/Param.v
theories/TapeFacts.v
theories/AContextFacts.v
theories/Instances.v
theories/FunctionFacts.v
theories/RecordFacts.v
theories/ReplayFacts.v
theories/SweepFacts.v
theories/Api.v
theories/ApiFacts.v
theories/ApiFacts2.v
theories/FloatInst.v
theories/RealInst.v
theories/ApiFacts3.v
theories/PanicSeq.v
theories/Replay2.v
theories/Examples.v
theories/Props1.v
theories/Approx.v
theories/DerivSpec.v
theories/DerivFacts.v
theories/LinearFacts.v
theories/DerivFacts2.v
theories/Matrix.v
theories/Jacobian.v
theories/MatrixFacts.v
theories/JacobianFacts.v
theories/ExamplesR.v
theories/Props2.v
theories/MethodSpec.v
theories/MethodFacts.v
theories/Cast.v
theories/CastFacts.v
theories/ChainFacts.v
theories/AbsNormal.v
theories/AbsNormalFacts.v
theories/Props3.v
theories/AnfSpec.v
theories/RVec.v
theories/AnfFacts.v
theories/AnfFacts2.v
theories/ExamplesAnf.v
theories/Props4.v
theories/Checkpoint.v
theories/CheckSpec.v
theories/CheckFacts.v
theories/CheckRun.v
theories/CheckLoop.v
theories/Stirling.v
theories/CheckGen.v
theories/CheckMain.v
theories/CheckLimit.v
theories/Props5.v
theories/GenJac.v
theories/GenSpec.v
theories/GenFacts.v
theories/GenMain.v
theories/ExamplesGen.v
theories/Props6.v
theories/Ffi.v
theories/FfiSpec.v
theories/FfiFacts.v
theories/Props7.v
theories/Concurrent.v
theories/ConcSpec.v
theories/ConcFacts.v
theories/ConcInv.v
theories/ConcMain.v
theories/ConcBound.v
theories/Props8.v
theories/Shape.v
theories/SmoothPart.v
theories/SmallFacts.v
theories/Props9.v
theories/Nested.v
theories/NestedSpec.v
theories/NestedFacts.v
theories/NestedMain.v
theories/Props10.v
theories/Client.v
theories/Trace.v
theories/IsoFacts.v
theories/IsoOthers.v
theories/IsoSelf.v
theories/IsoSeq.v
theories/IsoMain.v
theories/TraceFacts.v
theories/Props11.v
theories/EstReal.v
theories/F64Facts.v
theories/EstF64.v
theories/Props12.v
theories/F64Ops.v
theories/F64Std.v
theories/Props13.v
theories/GenExplicit.v
theories/Samples.v
theories/SampleFacts.v
theories/Props14.v
theories/Build.v
theories/BuildFacts.v
theories/Programs.v
theories/FloydSpec.v
theories/FloydFacts.v
theories/FloydMain.v
theories/TapeSize.v
theories/PerceptronFacts.v
theories/Props15.v
theories/TapeDeriv.v
theories/FopsRel.v
theories/BallSpec.v
theories/BallFacts.v
theories/BallMain.v
theories/BallJac.v
theories/Props16.v
theories/FfiPanicSpec.v
theories/FfiPanics.v
theories/Native.v
theories/NativeFacts.v
theories/Props17.v
theories/Mixed.v
theories/MixedFacts.v
theories/SingleFacts.v
theories/SingleRound.v
theories/DescentSpec.v
theories/Descent.v
theories/DescentFacts.v
theories/Props18.v
theories/JointSpec.v
theories/JointFacts.v
theories/JointExample.v
theories/Props19.v
theories/LimitSpec.v
theories/LimitFacts.v
theories/LimitExample.v
theories/Props20.v
theories/ConcPoison.v
theories/PanicConc.v
theories/Props21.v
theories/UnitTests.v
theories/UnitFacts.v
theories/UnitFacts2.v
theories/UnitFacts3.v
theories/Props22.v
theories/DriverSpec.v
theories/DriverPanics.v
theories/Props23.v
theories/TapeShape.v
theories/StraightSpec.v
theories/StraightFacts.v
theories/StraightMain.v
theories/OnceMain.v
theories/Props24.v
theories/PairBuild.v
theories/FloydPair.v
theories/FloydGraph.v
theories/FloydGrad.v
theories/FloydEnvelope.v
theories/Props25.v
theories/FloydLoop.v
theories/FloydLoopSpec.v
theories/BuildRange.v
theories/FloydTotal.v
theories/FloydLoopFacts.v
theories/Props26.v
theories/OpSpec.v
theories/OpFacts.v
theories/Props27.v
theories/SwitchSpec.v
theories/SwitchFacts.v
theories/SwitchMain.v
theories/SwitchChain.v
theories/Props28.v
theories/Smooth.v
theories/Stable.v
theories/StableSpec.v
theories/StableMain.v
theories/StableLin.v
theories/StableEx.v
theories/Props29.v
theories/BuildSem.v
theories/Benches.v
theories/BenchFacts.v
theories/BenchMain.v
theories/Props30.v
theories/RelDrivers.v
theories/GenBallSpec.v
theories/RelGen.v
theories/GenBallFacts.v
theories/GenBallMain.v
theories/Props31.v
theories/NestedAffine.v
theories/Props32.v
theories/FfiRecSpec.v
theories/FfiRecord.v
theories/Props33.v
theories/SparseSpec.v
theories/SparseFacts.v
theories/SparseMain.v
theories/Props34.v
theories/ChainBallSpec.v
theories/ChainBall.v
theories/Props35.v
theories/OrderSpec.v
theories/OrderFacts.v
theories/OrderMain.v
theories/Props36.v
theories/Tapeless.v
theories/Angles.v
theories/AnglesMain.v
theories/Props37.v
theories/ConcWrite.v
theories/ConcErase.v
theories/ConcWriteMain.v
theories/Props38.v
theories/ConcHand.v
theories/ConcShape.v
theories/ConcHandMain.v
theories/Props39.v
theories/Nest.v
theories/NestSpec.v
theories/NestFacts.v
theories/NestMain.v
theories/NestExtra.v
theories/Props40.v
theories/Hess.v
theories/HessComp.v
theories/HessMain.v
theories/HessEx.v
theories/Props41.v
theories/ChainRuleSpec.v
theories/ChainRule.v
theories/Props42.v
theories/Symm.v
theories/NestedResolve.v
theories/SymmMain.v
theories/Props43.v
theories/Taylor2.v
theories/Props44.v
theories/FmaSpec.v
theories/FmaFacts.v
theories/FmaMain.v
theories/Props45.v
theories/CxxSpec.v
theories/CxxFacts.v
theories/CxxMain.v
theories/Props46.v
theories/FfiAlloc.v
theories/Props47.v
theories/Traits.v
theories/TraitsSpec.v
theories/TraitsFacts.v
theories/TraitsMin.v
theories/Props48.v
theories/CtxIds.v
theories/CtxIdFacts.v
theories/Props49.v
theories/Source.v
theories/SourceSpec.v
theories/SourceFacts.v
theories/SourceMain.v
theories/Props50.v
theories/SourceDeriv.v
theories/Props51.v
theories/SamePath.v
theories/Props52.v
theories/SourceChain.v
theories/ChainDeriv.v
theories/Props53.v
theories/SameStable.v
theories/Props54.v
theories/SameNest.v
theories/Props55.v
theories/SameQuad.v
theories/Props56.v
theories/DecideSpec.v
theories/DecideMain.v
theories/Props57.v
theories/DecideChainSpec.v
theories/DecideChain.v
theories/Props58.v
