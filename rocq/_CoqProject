-Q theories Verif
theories/Base.v
theories/SpecMulti.v
theories/MultiIndexModel.v
theories/MultiIndexProofs.v
theories/SpecLimiter.v
theories/LimiterModel.v
theories/LimiterProofs.v
theories/PropMulti.v
theories/MISetModel.v
theories/MISetInv.v
theories/MISetOps.v
theories/MISetForce.v
theories/SpecCount.v
theories/MISetLimFill.v
theories/MISetHist.v
theories/PropMISet.v
theories/FixedSetModel.v
theories/FixedSetProofs.v
theories/PropFixed.v
theories/SpecExpansion.v
theories/SpecPoly.v
theories/PolyModel.v
theories/PolyProofs.v
theories/LinProofs.v
theories/BijModel.v
theories/BijProofs.v
theories/PropPoly.v
theories/ExpansionModel.v
theories/ExpansionProofs.v
theories/ExpansionDeriv.v
theories/PropExpansion.v
theories/SpecQuad.v
theories/QuadModel.v
theories/QuadCC.v
theories/QuadWalk.v
theories/QuadSimpson.v
theories/QuadACC.v
theories/QuadProofs.v
theories/QuadLimits.v
theories/PropQuad.v
theories/SpecRoot.v
theories/RootModel.v
theories/RootProofs.v
theories/PropRoot.v
theories/SpecMono.v
theories/MonoModel.v
theories/MonoProofs.v
theories/MonoComp.v
theories/PropMono.v
theories/PropMonoRefute.v
theories/SpecMaps.v
theories/MapsModel.v
theories/LeafModel.v
theories/MapsContract.v
theories/MapsProofs.v
theories/CheckProofs.v
theories/ComposedProofs.v
theories/TruthProofs.v
theories/LeafProofs.v
theories/DetProofs.v
theories/PropMaps.v
theories/SpecMonoMap.v
theories/MonoMap.v
theories/PropLeaf.v
theories/HeapModel.v
theories/HeapProofs.v
theories/HeapInv.v
theories/HeapTree.v
theories/HeapOwn.v
theories/PropHeap.v
theories/SpecFactory.v
theories/FactoryModel.v
theories/FactoryProofs.v
theories/PropFactory.v
theories/FactoryBasis.v
theories/PropBuild.v
theories/PropDisc.v
theories/SpecTensor.v
theories/TensorModel.v
theories/PropTensor.v
theories/SpecDensity.v
theories/SpecGauss.v
theories/DensityModel.v
theories/ReduceModel.v
theories/GaussModel.v
theories/DensityProofs.v
theories/DetMul.v
theories/CholProofs.v
theories/ReduceProofs.v
theories/GaussProofs.v
theories/PropGauss.v
theories/PropDensity.v
theories/SpecSample.v
theories/SampleModel.v
theories/SampleProofs.v
theories/PropSample.v
theories/ObjectiveModel.v
theories/PropObjective.v
theories/MonoTrue.v
theories/PropTrue.v
theories/AdaptModel.v
theories/AdaptProofs.v
theories/PropAdapt.v
theories/SerialModel.v
theories/PropSerial.v
theories/SchedModel.v
theories/SchedProofs.v
theories/KernelModel.v
theories/MonoClean.v
theories/PropSched.v
theories/SpecLayout.v
theories/LayoutModel.v
theories/LayoutProofs.v
theories/PropLayout.v
theories/SpecDouble.v
theories/DoubleModel.v
theories/DoubleProofs.v
theories/PropDouble.v
theories/SpecInit.v
theories/InitModel.v
theories/PropInit.v
theories/SpecAdaptQuad.v
theories/AdaptQuad.v
theories/AdaptJump.v
theories/PropAdaptQuad.v
theories/PropAdaptBuild.v
theories/SpecDoubleRoot.v
theories/DoubleRootModel.v
theories/DoubleRootProofs.v
theories/PropDoubleRoot.v
theories/RootNanModel.v
theories/PropRootNan.v
theories/ConcModel.v
theories/PropConc.v
theories/SpecTorch.v
theories/TorchModel.v
theories/PropTorch.v
theories/SpecSeq.v
theories/BindModel.v
theories/PropBind.v
theories/SpecShape.v
theories/ShapeModel.v
theories/ShapeProofs.v
theories/PropShape.v
theories/SpecBytes.v
theories/MatCoeffModel.v
theories/PropMatCoeff.v
theories/JuliaModel.v
theories/PropJulia.v
theories/SpecMatlab.v
theories/MatSetModel.v
theories/PropMatSet.v
theories/SpecOpts.v
theories/OptsBindModel.v
theories/PropOptsBind.v
theories/DataModel.v
theories/PropData.v
