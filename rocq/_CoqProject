-Q theories Verif
theories/Num.v
theories/SumSpec.v
theories/SumProofs.v
theories/Jax.v
theories/RSum.v
theories/JaxFacts.v
theories/DataModel.v
theories/MeanModel.v
theories/MeanSpec.v
theories/MeanProofs.v
theories/DataProofs.v
theories/DataMeanLemmas.v
theories/PropData.v
theories/ArgFacts.v
theories/GreedyModel.v
theories/GreedySpec.v
theories/GreedyProofs.v
theories/GreedyProofs2.v
theories/GreedyProofs3.v
theories/GreedyProofs4.v
theories/GreedyProofs5.v
theories/PropGreedy.v
theories/MetricModel.v
theories/MetricSpec.v
theories/MetricProofs.v
theories/MetricProofs2.v
theories/MetricProofs3.v
theories/PropMetric.v
theories/MapReduceModel.v
theories/MapReduceSpec.v
theories/MapReduceProofs.v
theories/MapReduceProofs2.v
theories/MapReduceProofs3.v
theories/PropMapReduce.v
theories/UtilModel.v
theories/UtilSpec.v
theories/UtilProofs.v
theories/PropUtil.v
theories/CholModel.v
theories/CholSpec.v
theories/CholProofs.v
theories/CholProofs2.v
theories/PropChol.v
theories/GKPModel.v
theories/GKPSpec.v
theories/GKPProofs.v
theories/GKPProofs2.v
theories/GKPProofs3.v
theories/GKPProofs4.v
theories/GKPProofs5.v
theories/GKPProofs6.v
theories/PropGKP.v
theories/KTModel.v
theories/KTSpec.v
theories/KTProofs.v
theories/KTProofs2.v
theories/KTProofs3.v
theories/KTProofs4.v
theories/PropKT.v
theories/RecModel.v
theories/RecSpec.v
theories/RecProofs.v
theories/RecProofs2.v
theories/RecProofs3.v
theories/RecProofs4.v
theories/RecProofs5.v
theories/RecProofs6.v
theories/RecProofs7.v
theories/RecProofs8.v
theories/RecProofs9.v
theories/PropRecomb.v
theories/KernelModel.v
theories/KernelSpec.v
theories/KernelProofs.v
theories/KernelProofs2.v
theories/KernelProofs3.v
theories/KernelProofs4.v
theories/KernelProofs5.v
theories/KernelProofs6.v
theories/KernelProofs7.v
theories/KernelProofs8.v
theories/PropKernel.v
theories/PsdSpec.v
theories/PsdProofs.v
theories/PsdProofs2.v
theories/PsdProofs3.v
theories/PsdProofs4.v
theories/PsdProofs5.v
theories/SteinPsdProofs.v
theories/PropPsd.v
theories/LsqModel.v
theories/LsqSpec.v
theories/LsqProofs.v
theories/LsqProofs2.v
theories/PropLsq.v
theories/ApproxModel.v
theories/ApproxSpec.v
theories/ApproxProofs.v
theories/PropApprox.v
theories/ScoreModel.v
theories/ScoreSpec.v
theories/ScoreProofs.v
theories/PropScore.v
theories/PropThin.v
theories/ThinProofs2.v
theories/ThinProofs.v
theories/ThinSpec.v
theories/ThinModel.v
theories/KsdModel.v
theories/PropKsd.v
theories/GaussProofs.v
theories/SqrtSpec.v
theories/SqrtProofs.v
theories/KTProofs5.v
theories/PropSqrt.v
theories/ScaleProofs.v
theories/PropScale.v
theories/BenchModel.v
theories/PropBench.v
theories/TempSpec.v
theories/TempProofs.v
theories/TempProofs2.v
theories/PropTemp.v
theories/PropIter.v
theories/SSMModel.v
theories/SSMSpec.v
theories/SSMProofs.v
theories/SSMProofs2.v
theories/PropSSM.v
theories/RateProofs.v
theories/RateProofs2.v
theories/RateProofs3.v
theories/PropRate.v
theories/HalvingSpec.v
theories/HalvingProofs.v
theories/PropHalving.v
theories/PivotSpec.v
theories/PivotProofs.v
theories/PivotProofs2.v
theories/PivotProofs3.v
theories/PropPivot.v
theories/Float.v
theories/FloatProofs.v
theories/FloatProofs2.v
theories/PropFloat.v
theories/FloatCholSpec.v
theories/FloatChol.v
theories/LoopProofs.v
theories/MeanGeneric.v
theories/FloatGreedy.v
theories/FloatGreedy2.v
theories/FloatIdxSpec.v
theories/PropFloatIdx.v
theories/FloatErrSpec.v
theories/FloatErr.v
theories/FloatMean.v
theories/FloatMMD.v
theories/PropFloatMMD.v
theories/PropOrder.v
theories/WeightsSpec.v
theories/WeightsProofs.v
theories/PropWeights.v
theories/MapReduceDepth.v
theories/MapReduceFloat.v
theories/PropMapReduce2.v
theories/InvSpec.v
theories/InvProofs.v
theories/InvProofs2.v
theories/PropInv.v
theories/InvKernelSpec.v
theories/InvKernel.v
theories/PropInv2.v
theories/LnBounds.v
theories/DepthModel.v
theories/DepthSpec.v
theories/DepthProofs.v
theories/DepthProofs2.v
theories/PropDepth.v
theories/BenchSolvers.v
theories/BenchSpec.v
theories/BenchProofs.v
theories/BenchSized.v
theories/BenchProofs2.v
theories/PropBench2.v
theories/RepSpec.v
theories/RepProofs.v
theories/PropRep.v
theories/SampleSpec.v
theories/SampleProofs.v
theories/SampleProofs2.v
theories/PropSample.v
theories/MrRateSpec.v
theories/MrRateProofs.v
theories/MrRateProofs2.v
theories/MrRateProofs3.v
theories/PropMrRate.v
theories/FloatRateSpec.v
theories/FloatRate.v
theories/FloatRate2.v
theories/FloatRate3.v
theories/FloatRate4.v
theories/PropFloatRate.v
theories/FloatStein.v
theories/FloatStein2.v
theories/PropFloatStein.v
theories/FloatKernSpec.v
theories/FloatKern.v
theories/FloatKern2.v
theories/FloatKern3.v
theories/FloatKern4.v
theories/FloatKern5.v
theories/PropFloatKern.v
theories/FloatNorm.v
theories/PropFloatNorm.v
theories/FloatJMMD.v
theories/PropFloatJMMD.v
theories/FloatRec.v
theories/PropFloatRec.v
theories/FloatCompSpec.v
theories/FloatComp.v
theories/PropFloatComp.v
theories/FloatMR.v
theories/PropFloatMR.v
theories/FloatGKP.v
theories/FloatGKPSpec.v
theories/FloatGKP2.v
theories/PropFloatGKP.v
theories/FloatKT.v
theories/PropFloatKT.v
theories/PropAuto.v
theories/FloatMed.v
theories/PropFloatMed.v
theories/PropBuild.v
theories/PropMinNorm.v
theories/PropUnbiased.v
theories/PropFair.v
theories/FloatScore.v
theories/PropFloatScore.v
theories/FloatSteinK.v
theories/PropSteinDefault.v
theories/FloatPad.v
theories/PropPad.v
theories/FloatPad2.v
theories/PropPad2.v
theories/FloatPad3.v
theories/PropPad3.v
theories/PropPad4.v
theories/PropPad5.v
