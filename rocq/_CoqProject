-Q theories Verif

theories/Base.v
theories/Shape.v
theories/ShapeOps.v
theories/ShapeFacts.v
theories/PropsShape.v
theories/MemPool.v
theories/PropsPool.v
theories/Num.v
theories/Spec.v
theories/Kernels.v
theories/KLib.v
theories/KElem.v
theories/KLib2.v
theories/KRed.v
theories/KSort.v
theories/KMove.v
theories/KMove2.v
theories/KMat.v
theories/KConcat.v
theories/Elem.v
theories/Api.v
theories/Mode.v
theories/ApiFacts.v
theories/ApiElem.v
theories/ApiMove.v
theories/ApiBw.v
theories/ApiMore.v
theories/ApiMat.v
theories/ApiComp.v
theories/ApiCat.v
theories/PVocab.v
theories/PropsElem.v
theories/PropsMove.v
theories/Graph.v
theories/GraphFacts.v
theories/GraphFw.v
theories/GraphBw.v
theories/GraphMore.v
theories/GraphTie.v
theories/Ops.v
theories/OpsFacts.v
theories/PropsGraph.v
theories/Borrow.v
theories/PropsBorrow.v
theories/Typed.v
theories/Create.v
theories/BwSem.v
theories/GraphShape.v
theories/Agree.v
theories/NodeFacts.v
theories/PropsOps.v
theories/PropsBlocked.v
theories/PropsFailed.v
theories/Rnum.v
theories/RSum.v
theories/PropsReal.v
theories/Float32.v
theories/KNan.v
theories/PropsNan.v
theories/Rounding.v
theories/PropsFloat.v
theories/LseAcc.v
theories/PropsLse.v
theories/Optim.v
theories/PropsOptim.v
theories/AutoDiff.v
theories/LocalDiff.v
theories/GraphDiff.v
theories/GraphGrad.v
theories/GraphGrad2.v
theories/GraphGrad3.v
theories/PropsAutoDiff.v
theories/PropsOutputs.v
theories/Lifecycle.v
theories/LifeFacts.v
theories/PropsLife.v
theories/Safe.v
theories/Safe2.v
theories/Safe3.v
theories/Release.v
theories/Calls.v
theories/CallFacts.v
theories/CallRel.v
theories/CallDev.v
theories/PropsSafe.v
theories/SafeGraph.v
theories/SafeGraph2.v
theories/SafeGraph3.v
theories/SafeGraph4.v
theories/PropsSafeGraph.v
theories/Program.v
theories/PropsProgram.v
theories/PropsTrain.v
theories/PropsResidual.v
theories/PropsSoftmax.v
theories/KPerm.v
theories/Registry.v
theories/PropsDevice.v
theories/Init.v
theories/PropsInit.v
theories/Model.v
theories/ModelFacts.v
theories/PropsModel.v
theories/Contrib.v
theories/PropsContrib.v
theories/NodeContrib.v
theories/PropsContribNode.v
theories/RelGraph.v
theories/RelMore.v
theories/PropsRelease.v
theories/PropsReleaseGrad.v
theories/Fresh.v
theories/Fresh2.v
theories/Fresh3.v
theories/Fresh4.v
theories/Fresh5.v
theories/Fresh6.v
theories/Fresh7.v
theories/PropsFresh.v
theories/PropsCount.v
theories/PropsPeak.v
theories/PropsIdent.v
theories/PropsIdent2.v
theories/PropsPowi.v
theories/PropsOptimF32.v
theories/PropsClip.v
theories/PropsFixed.v
theories/Minibatch.v
theories/PropsMinibatch.v
theories/PropsMinibatchGrad.v
theories/PropsSteps.v
theories/PropsResume.v
theories/PropsEqual.v
theories/PropsDecay.v
theories/PropsByName.v
theories/PropsAccum.v
theories/PropsSkipped.v
theories/PropsShapeRelease.v
theories/PropsShapeHistory.v
theories/Derive.v
theories/PropsDerive.v
theories/Text.v
theories/PropsText.v
