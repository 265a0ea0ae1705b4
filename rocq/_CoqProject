-Q theories Verif
theories/Base.v
theories/Tensor.v
theories/IntervalArith.v
theories/Polynomials.v
theories/Enclosure.v
theories/TestsArith.v
theories/TensorLemmas.v
theories/Spec.v
theories/IntervalProofs.v
theories/PowerProofs.v
theories/PolyProofs.v
theories/Graded.v
theories/EnclosureOps.v
theories/EnclosureProofs.v
theories/BilinearProofs.v
theories/ComposeProofs.v
theories/PropArith.v
theories/PropPoly.v
theories/PropEnclosure.v
theories/PropDegree.v
theories/GraphEditor.v
theories/GraphSpec.v
theories/GraphProofs.v
theories/PropGraph.v
theories/JaxprEditor.v
theories/JaxprSpec.v
theories/JaxprProofs.v
theories/PropJaxpr.v
theories/Elementwise.v
theories/Primitive.v
theories/ElementSpec.v
theories/Analysis.v
theories/EvenHessian.v
theories/ElementwiseProofs.v
theories/PrimitiveProofs.v
theories/PropElementwise.v
theories/PropRange.v
theories/PropPrimitive.v
theories/PropCentre.v
theories/NearMono.v
theories/ExpBounds.v
theories/Extrema.v
theories/NearTable.v
theories/PropNear.v
theories/PropClear.v
theories/PropPower.v
theories/PropPowerZero.v
theories/JaxBound.v
theories/JaxSpec.v
theories/JaxLemmas.v
theories/JaxIndex.v
theories/ConvIndex.v
theories/JaxGather.v
theories/JaxPush.v
theories/JaxDot.v
theories/ConvProofs.v
theories/ConvSpec.v
theories/JaxSize.v
theories/JaxOps.v
theories/JaxForward.v
theories/JaxRun.v
theories/JaxEval.v
theories/JaxInit.v
theories/PropJax.v
theories/JaxTable.v
theories/JaxTableProofs.v
theories/PropTable.v
theories/PropJaxLimits.v
theories/PropConv.v
theories/TestsJax.v
theories/ExamplesJax.v
theories/ExamplesConv.v
theories/JaxPipeline.v
theories/PipelineSpec.v
theories/PipelineProofs.v
theories/PropPipeline.v
theories/ExamplesPipeline.v
theories/ReplaceSpec.v
theories/ReplaceProofs.v
theories/PropReplace.v
theories/Total.v
theories/TotalSpec.v
theories/TotalForward.v
theories/TotalRun.v
theories/PropTotal.v
theories/PropTotalTable.v
theories/ExamplesTotal.v
theories/IsoSpec.v
theories/Iso.v
theories/IsoEnc.v
theories/IsoJax.v
theories/IsoRun.v
theories/IsoMain.v
theories/IsoScalar.v
theories/IsoTable.v
theories/PropIso.v
theories/PropGap.v
theories/ExamplesIso.v
theories/TaylorSpec.v
theories/PropTaylor.v
theories/ExamplesTaylor.v
theories/Notebooks.v
theories/NotebookSpec.v
theories/PropNotebooks.v
theories/ExamplesNotebooks.v
theories/DegreeSpec.v
theories/PropPolynomial.v
theories/ExamplesPolynomial.v
theories/FloatSpec.v
theories/FloatProofs.v
theories/PropFloat.v
theories/Binary32.v
theories/ExamplesFloat.v
theories/PropShapes.v
theories/PropSlope.v
theories/Mlp.v
theories/MlpProofs.v
theories/PropMlp.v
theories/ExamplesMlp.v
theories/Cnn.v
theories/CnnProofs.v
theories/PropCnn.v
theories/ExamplesCnn.v
theories/Quickstart.v
theories/PropQuickstart.v
theories/ScheduleSpec.v
theories/PropSchedule.v
theories/MemorySpec.v
theories/PropMemory.v
theories/Outside.v
theories/PropOutside.v
theories/DegreeZero.v
theories/DegreeZeroSpec.v
theories/DegreeZeroExact.v
theories/DegreeZeroRun.v
theories/PropDegreeZero.v
theories/DegreeZeroTable.v
theories/PropDegreeZeroTable.v
theories/Magnitude.v
theories/MagnitudeEnc.v
theories/MagnitudeJax.v
theories/MagnitudeTable.v
theories/PropConverge.v
theories/ExamplesConverge.v
theories/PropExported.v
theories/PropIntegralTotal.v
theories/ExamplesIntegralTotal.v
