-Q theories Verif
theories/Base.v
theories/BaseFacts.v
theories/Traits.v
theories/TraitsSpec.v
theories/TraitsFacts.v
theories/PropsTraits.v
theories/Scalar.v
theories/Demo.v
theories/LinAlg.v
theories/LinAlgFacts.v
theories/PropsLinAlg.v
theories/TensorFacts.v
theories/SumFacts.v
theories/Conv.v
theories/ConvSpec.v
theories/ConvFacts.v
theories/GradSpec.v
theories/ConvGradFacts.v
theories/PropsConv.v
theories/Conv1d.v
theories/Conv1dSpec.v
theories/Conv1dFacts.v
theories/PropsConv1d.v
theories/Transpose.v
theories/PropsTranspose.v
theories/Elem.v
theories/ElemSpec.v
theories/ElemFacts.v
theories/ElemGradFacts.v
theories/PropsElem.v
theories/RealScalar.v
theories/PropsNorm.v
theories/Activation.v
theories/ActivationSpec.v
theories/ActivationFacts.v
theories/RowFacts.v
theories/SoftmaxFacts.v
theories/PropsSoftmax.v
theories/Pool.v
theories/PoolSpec.v
theories/PoolFacts.v
theories/PropsPool.v
theories/Summary.v
theories/SummaryFacts.v
theories/PropsSummary.v
theories/Utility.v
theories/UtilityFacts.v
theories/PropsUtility.v
theories/Hash.v
theories/HashSpec.v
theories/HashFacts.v
theories/PropsHash.v
theories/Io.v
theories/IoSpec.v
theories/IoFacts.v
theories/TarFacts.v
theories/PropsIo.v
theories/Namescope.v
theories/NamescopeSpec.v
theories/PropsNamescope.v
theories/Layers.v
theories/LayersSpec.v
theories/LayersFacts.v
theories/LayerCalls.v
theories/PropsLayers.v
theories/PropsLayers2.v
theories/Shapes.v
theories/PropsShapes.v
theories/Reshape.v
theories/PropsReshape.v
theories/Init.v
theories/PropsInit.v
theories/PropsDefaults.v
theories/Train.v
theories/TrainSpec.v
theories/TrainFacts.v
theories/TrainGrad.v
theories/TrainEpoch.v
theories/TrainTest.v
theories/PropsTrain.v
theories/Vgg.v
theories/VggSpec.v
theories/VggFacts.v
theories/PropsVgg.v
theories/Examples.v
theories/ExamplesSpec.v
theories/ExamplesFacts.v
theories/PropsData.v
theories/VggScope.v
theories/PropsMain.v
theories/Float.v
theories/FloatSpec.v
theories/FloatFacts.v
theories/FloatNan.v
theories/PropsFloat.v
theories/IntScalar.v
theories/PropsInt.v
theories/ConvAlgSpec.v
theories/ConvAlgFacts.v
theories/PropsConvAlg.v
theories/PredictSpec.v
theories/PredictFacts.v
theories/PropsPredict.v
theories/ConvergeSpec.v
theories/ConvergeFacts.v
theories/PropsConverge.v
theories/SafeSpec.v
theories/SafeFacts.v
theories/PropsSafe.v
theories/Invoke.v
theories/PropsInvoke.v
theories/BatchSpec.v
theories/PropsBatch.v
theories/AliasFacts.v
theories/PropsAlias.v
theories/PoolAlgSpec.v
theories/PoolAlgFacts.v
theories/PropsPoolAlg.v
theories/MatAlgSpec.v
theories/PropsMatAlg.v
theories/Programs.v
theories/ProgramsSpec.v
theories/ProgramsFacts.v
theories/ProgramSteps.v
theories/ProgramsRaw.v
theories/PropsPrograms.v
theories/Tests.v
theories/TestsFacts.v
theories/TestSteps.v
theories/PropsTests.v
theories/Conformance.v
theories/ConvDualSpec.v
theories/ConvDualFacts.v
theories/PropsConvDual.v
theories/ConvStackSpec.v
theories/PropsConvStack.v
theories/FloatSumSpec.v
theories/FloatSumFacts.v
theories/FloatNormFacts.v
theories/FloatSoftSpec.v
theories/FloatSoftFacts.v
theories/PropsFloatSum.v
theories/PermSpec.v
theories/PropsPerm.v
theories/FloatGradSpec.v
theories/FloatGradFacts.v
theories/PropsFloatGrad.v
theories/Mixed.v
theories/MixedFacts.v
theories/PropsMixed.v
theories/Backprop.v
theories/BackpropSpec.v
theories/BackpropFacts.v
theories/BackpropRun.v
theories/PropsBackprop.v
theories/StableSpec.v
theories/StableFacts.v
theories/PropsStable.v
theories/NetFloatSpec.v
theories/NetFloatFacts.v
theories/PropsNetFloat.v
theories/Blas.v
theories/BlasSpec.v
theories/BlasFacts.v
theories/PropsBlas.v
theories/VggFloatSpec.v
theories/VggFloatFacts.v
theories/PropsVggFloat.v
theories/TrainFloatSpec.v
theories/TrainFloatFacts.v
theories/PropsTrainFloat.v
theories/TrainMain.v
theories/TrainMainFacts.v
theories/PropsTrainMain.v
theories/PropsAccuracy.v
theories/OnlineFacts.v
theories/PropsOnline.v
theories/MnistDump.v
theories/PropsDump.v
