-Q theories Verif
theories/Num.v
theories/Graph.v
theories/GraphFacts.v
theories/Spec.v
theories/SpecFacts.v
theories/Circuit.v
theories/EvalFacts.v
theories/VarFacts.v
theories/Interval.v
theories/GaussInt.v
theories/GammaFn.v
theories/PropertiesQuery.v
theories/PropertiesOrder.v
theories/Dist.v
theories/DistFacts.v
theories/TreeProb.v
theories/PropertiesProb.v
theories/MomentFacts.v
theories/CondFacts.v
theories/PropertiesDist.v
theories/Simplify.v
theories/SimplifyFacts.v
theories/TreeLocal.v
theories/DagFacts.v
theories/NormalizeFacts.v
theories/PropertiesSimplify.v
theories/Restrict.v
theories/MarginalFacts.v
theories/PropertiesMarginal.v
theories/Conditional.v
theories/ConditionalFacts.v
theories/CondPass.v
theories/CondMain.v
theories/LeafCond.v
theories/CondBayes.v
theories/PropertiesConditional.v
theories/CondDag.v
theories/PropertiesConditionalDag.v
theories/Rename.v
theories/Copy.v
theories/CopyFacts.v
theories/EqFacts.v
theories/Heap.v
theories/HeapFacts.v
theories/HeapOps.v
theories/World.v
theories/WorldFacts.v
theories/PropertiesCopy.v
theories/Sample.v
theories/SampleFacts.v
theories/SampleMain.v
theories/SampleTree.v
theories/PropertiesSample.v
theories/Support.v
theories/SupportFacts.v
theories/ModeFacts.v
theories/PropertiesSupport.v
theories/GaussMoment.v
theories/GammaFacts.v
theories/TruncMoment.v
theories/CircuitMoment.v
theories/MixFacts.v
theories/PropertiesMoment.v
theories/MoveFacts.v
theories/PropertiesMove.v
theories/Layout.v
theories/LayoutFacts.v
theories/Multinomial.v
theories/MultinomialFacts.v
theories/PropertiesMultinomial.v
theories/Mixture.v
theories/MixtureFacts.v
theories/FromMixture.v
theories/PropertiesMixture.v
theories/Interaction.v
theories/InteractionFacts.v
theories/Mounting.v
theories/MountTree.v
theories/PropertiesInteraction.v
theories/Bayes.v
theories/BayesFacts.v
theories/PropertiesForward.v
theories/BayesNet.v
theories/BayesCircuit.v
theories/PropertiesBayes.v
theories/Star.v
theories/Nyga.v
theories/NygaFacts.v
theories/NygaGeometry.v
theories/PropertiesNyga.v
theories/UniformStar.v
theories/PropertiesUniform.v
theories/Jpt.v
theories/PropertiesJptParams.v
theories/JptFacts.v
theories/PropertiesJpt.v
theories/PropertiesJptModel.v
theories/JaxUtils.v
theories/PropertiesJaxUtils.v
theories/JaxLayer.v
theories/JaxLayerFacts.v
theories/JaxSpec.v
theories/JaxMeaning.v
theories/PropertiesJaxLayer.v
theories/RegionGraph.v
theories/RegionFacts.v
theories/RegionInv.v
theories/RegionCircuit.v
theories/PropertiesRegion.v
theories/JaxToNx.v
theories/JaxToNxFacts.v
theories/PropertiesJaxConvert.v
theories/Coupling.v
theories/PropertiesCoupling.v
theories/Classification.v
theories/PropertiesClassification.v
theories/PropertiesVariance.v
theories/MonteCarlo.v
theories/PropertiesMonteCarlo.v
theories/ConditionalEvent.v
theories/ConditionalEventFacts.v
theories/PropertiesConditionalEvent.v
theories/UniformMeasure.v
theories/UniformMeasureFacts.v
theories/PropertiesUniformMeasure.v
theories/Shallow.v
theories/ShallowFacts.v
theories/ShallowTree.v
theories/ShallowCircuit.v
theories/PropertiesShallow.v
theories/JaxFromNx.v
theories/JaxFromNxSpec.v
theories/JaxFromNxFacts.v
theories/JaxFromNxTotal.v
theories/PropertiesJaxFromNx.v
theories/JaxFromNxSolid.v
theories/PropertiesJaxRoundTrip.v
theories/TruncSample.v
theories/PropertiesTruncSample.v
theories/Helpers.v
theories/PropertiesHelpers.v
theories/StepFun.v
theories/L1.v
theories/L1Events.v
theories/L1Sub.v
theories/L1Step.v
theories/L1Main.v
theories/PropertiesL1.v
theories/NodeWeights.v
theories/NodeWeightsFacts.v
theories/PropertiesNodeWeights.v
theories/JptData.v
theories/PropertiesJptData.v
theories/FullyFactorized.v
theories/PropertiesFullyFactorized.v
theories/GraphValid.v
theories/GraphValidFacts.v
theories/PropertiesGraphValid.v
theories/JaxComponents.v
theories/JaxComponentsFacts.v
theories/PropertiesJaxComponents.v
theories/Settled.v
theories/WholeLeaf.v
theories/BayesHybrid.v
theories/BayesHybridFacts.v
theories/PropertiesBayesHybrid.v
theories/BayesFromUnit.v
theories/PropertiesBayesFromUnit.v
theories/DistEq.v
theories/PropertiesDistEq.v
theories/JaxJson.v
theories/PropertiesJaxJson.v
theories/MaxLikelihood.v
theories/MultinomialFit.v
theories/PropertiesMultinomialFit.v
theories/JptMarginal.v
theories/JptMarginalFacts.v
theories/PropertiesJptMarginal.v
theories/PropertiesRegionParameters.v
theories/Relate.v
theories/HeapRefine.v
theories/RenameTree.v
theories/MountDisjoint.v
theories/HeapEvent.v
theories/PropertiesRefine.v
theories/RejectionSample.v
theories/PropertiesRejection.v
theories/SparseSample.v
theories/PropertiesSparseSample.v
theories/JptImpurity.v
theories/PropertiesJptImpurity.v
theories/PropertiesNygaSplit.v
theories/PropertiesNygaHistogram.v
theories/PropertiesJptFrequency.v
theories/PropertiesJptLikelihood.v
theories/PropertiesJaxValidate.v
theories/PropertiesJptMoment.v
theories/BayesFromMulti.v
theories/PropertiesBayesFromMulti.v
