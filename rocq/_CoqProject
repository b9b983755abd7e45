-Q theories Verif

theories/Base.v
theories/OptionsModel.v
theories/OptionsSpec.v
theories/OptionsProofs.v
theories/OptionsProperties.v
theories/Dbl.v
theories/HandleModel.v
theories/HandleTable.v
theories/HandleWp.v
theories/HandleSetters.v
theories/HandleInv.v
theories/HandleSteps.v
theories/HandleGetters.v
theories/HandleSpec.v
theories/HandleFrame.v
theories/HandleGate.v
theories/HandleSolve.v
theories/HandleHist.v
theories/HandleCalls.v
theories/HandleHistory.v
theories/HandleGetSet.v
theories/HandleRange.v
theories/HandleProofs.v
theories/HandleReady.v
theories/HandleReady2.v
theories/HandleProperties.v
theories/DerivsModel.v
theories/DerivsSpec.v
theories/DerivsProofs.v
theories/DerivsProperties.v
theories/DblReal.v
theories/UtausModel.v
theories/UtausProofs.v
theories/UtausProperties.v
theories/DblOrder.v
theories/FourierModel.v
theories/FourierSpec.v
theories/FourierProofs.v
theories/FourierProperties.v
theories/NamesModel.v
theories/NamesSpec.v
theories/NamesProofs.v
theories/NamesProperties.v
theories/Solution2Model.v
theories/Solution2Spec.v
theories/Solution2Proofs.v
theories/Solution2Properties.v
theories/AATreeModel.v
theories/AATreeSpec.v
theories/AATreeProofs.v
theories/AATreeProperties.v
theories/SaveTreeModel.v
theories/SaveTreeSpec.v
theories/SaveTreeProofs.v
theories/SaveTreeProperties.v
theories/CacheModel.v
theories/CacheSpec.v
theories/CacheProofs.v
theories/CacheSteps.v
theories/CacheIdeal.v
theories/CacheHist.v
theories/CacheProperties.v
theories/WorkModel.v
theories/WorkProofs.v
theories/WorkFree.v
theories/WorkProperties.v
theories/StackModel.v
theories/StackProofs.v
theories/StackProperties.v
theories/StackStoreModel.v
theories/StackStoreProofs.v
theories/StackStoreHist.v
theories/StackStoreProperties.v
theories/DeltaMModel.v
theories/DeltaMSpec.v
theories/DeltaMProofs.v
theories/DeltaMProperties.v
theories/BeamModel.v
theories/BeamSpec.v
theories/BeamProofs.v
theories/BeamChapman.v
theories/BeamProperties.v
theories/SingularityProofs.v
theories/SingularityHist.v
theories/SingularityProperties.v
theories/DCListModel.v
theories/DCListSpec.v
theories/DCListProofs.v
theories/DCListHeap.v
theories/DCListRefine.v
theories/DCListProperties.v
theories/AddingModel.v
theories/AddingSpec.v
theories/AddingMat.v
theories/AddingJoin.v
theories/AddingDeriv.v
theories/AddingLin.v
theories/AddingCalls.v
theories/AddingProperties.v
theories/RadianceModel.v
theories/RadianceSpec.v
theories/RadianceProofs.v
theories/RadianceProperties.v
theories/DoublingModel.v
theories/DoublingSpec.v
theories/DoublingProofs.v
theories/DoublingLoop.v
theories/DoublingCalls.v
theories/DoublingProperties.v
theories/FdModel.v
theories/FdSpec.v
theories/FdProofs.v
theories/FdProperties.v
theories/FdSetModel.v
theories/FdSetSpec.v
theories/FdSetProofs.v
theories/FdSetProperties.v
theories/BoundModel.v
theories/BoundSpec.v
theories/BoundProofs.v
theories/BoundProperties.v
theories/SingleModel.v
theories/SingleSpec.v
theories/SingleProofs.v
theories/SingleProperties.v
theories/SingleAdjModel.v
theories/SingleAdjSpec.v
theories/SingleAdjProofs.v
theories/SingleAdjProperties.v
theories/AddingAdjModel.v
theories/AddingAdjSpec.v
theories/AddingAdjMat.v
theories/AddingAdjPair.v
theories/AddingAdjLoops.v
theories/AddingAdjRad.v
theories/AddingAdjProperties.v
theories/EigModel.v
theories/EigSpec.v
theories/EigMat.v
theories/EigCore.v
theories/EigProofs.v
theories/EigEnergy.v
theories/EigLayer.v
theories/EigProperties.v
theories/EigDModel.v
theories/EigDSpec.v
theories/EigDProofs.v
theories/EigPath.v
theories/EigDLayer.v
theories/EigDProperties.v
theories/AtmSpec.v
theories/AtmProofs.v
theories/AtmLight.v
theories/AtmProperties.v
theories/BvpModel.v
theories/BvpSpec.v
theories/BvpProofs.v
theories/BvpLight.v
theories/GaussProofs.v
theories/BvpProperties.v
theories/BvpDModel.v
theories/BvpDProofs.v
theories/BvpDPath.v
theories/BvpDSolve.v
theories/BvpDProperties.v
theories/ScatSpec.v
theories/ScatModel.v
theories/LegendreProofs.v
theories/ScatProofs.v
theories/ScatProperties.v
theories/SpectralProofs.v
theories/SpectralProperties.v
theories/BrdfSpec.v
theories/BrdfModel.v
theories/BrdfKernels.v
theories/BrdfProofs.v
theories/BrdfTheorems.v
theories/BrdfProperties.v
theories/FluxSpec.v
theories/FluxModel.v
theories/FluxProofs.v
theories/FluxOut.v
theories/FluxProperties.v
theories/FluxSurfaceProperties.v
theories/QuadSpec.v
theories/QuadModel.v
theories/QuadProofs.v
theories/QuadRoots.v
theories/QuadExact.v
theories/QuadIter.v
theories/QuadProperties.v
theories/TwoSpec.v
theories/TwoModel.v
theories/TwoProofs.v
theories/TwoLight.v
theories/TwoProperties.v
theories/TwoDSpec.v
theories/TwoDModel.v
theories/TwoDProofs.v
theories/TwoDSolve.v
theories/TwoDProperties.v
theories/ViewSpec.v
theories/ViewModel.v
theories/ViewProofs.v
theories/ViewSweep.v
theories/ViewLight.v
theories/ViewProperties.v
theories/ViewDSpec.v
theories/ViewDModel.v
theories/ViewDProofs.v
theories/ViewDSweep.v
theories/ViewDProperties.v
theories/SosSpec.v
theories/SosModel.v
theories/SosProofs.v
theories/SosProperties.v
theories/SosDSpec.v
theories/SosDModel.v
theories/SosDProofs.v
theories/SosDProperties.v
theories/SosPosProperties.v
theories/TwoOsSpec.v
theories/TwoOsModel.v
theories/TwoOsProofs.v
theories/TwoOsProperties.v
