-Q theories Verif
theories/Base.v
theories/Fock.v
theories/FermiModel.v
theories/FermiProofs.v
theories/FermiAlgebra.v
theories/FermiUnique.v
theories/FermiFold.v
theories/Props_Fermi.v
theories/FockMore.v
theories/OperatorsModel.v
theories/OperatorsProofs.v
theories/OperatorsSums.v
theories/OperatorsActs.v
theories/OperatorsActive.v
theories/OperatorsGen.v
theories/OperatorsKeys.v
theories/Props_Operators.v
theories/CIModel.v
theories/CIProofs.v
theories/CIExtended.v
theories/Props_CI.v
theories/StateModel.v
theories/StateBits.v
theories/StateProofs.v
theories/StateMore.v
theories/Props_State.v
theories/RRing.v
theories/ModeEmbed.v
theories/SaPoly.v
theories/GateAlgebra.v
theories/UPSModel.v
theories/UPSProofs.v
theories/UPSSingle.v
theories/UPSState.v
theories/UPSAnsatz.v
theories/UPSRows.v
theories/Props_UPS.v
theories/StructModel.v
theories/StructProofs.v
theories/StructInv.v
theories/Props_Struct.v
theories/Props_Ansatz.v
theories/DensityModel.v
theories/FockInner.v
theories/DensityProofs.v
theories/DensityExpect.v
theories/DensityResponse.v
theories/DensityFill.v
theories/DensityState.v
theories/Props_Density.v
theories/CliqueModel.v
theories/CliqueProofs.v
theories/CliquePost.v
theories/Props_Clique.v
theories/QubitModel.v
theories/QubitProofs.v
theories/CliqueSampler.v
theories/Props_Qubit.v
theories/QubitCirc.v
theories/QubitRef.v
theories/QubitDouble.v
theories/CircuitModel.v
theories/CircuitProofs.v
theories/Props_Circuit.v
theories/LayoutModel.v
theories/LayoutPath.v
theories/LayoutProofs.v
theories/Props_Layout.v
theories/RotoModel.v
theories/RotoProofs.v
theories/Props_Roto.v
theories/SpaceModel.v
theories/SpaceProofs.v
theories/Props_Space.v
theories/MatModel.v
theories/MatProofs.v
theories/Props_Transform.v
theories/MatExp.v
theories/WaveModel.v
theories/WaveProofs.v
theories/Props_Wave.v
theories/GradProofs.v
theories/Props_Gradient.v
theories/Props_Optimise.v
theories/IntegralModel.v
theories/IntegralProofs.v
theories/GaussProofs.v
theories/OneElectron.v
theories/TwoElectron.v
theories/Coulomb.v
theories/Normalise.v
theories/CoulombInt.v
theories/Props_Integral.v
theories/BoysModel.v
theories/BoysProofs.v
theories/Props_Boys.v
theories/HFModel.v
theories/HFProofs.v
theories/Props_HF.v
theories/ObjectModel.v
theories/ObjectProofs.v
theories/Props_Object.v
theories/QFormModel.v
theories/Props_QForm.v
theories/CsfModel.v
theories/CsfProofs.v
theories/Props_Csf.v
theories/OperatorsOne.v
theories/LRModel.v
theories/LRAlgebra.v
theories/LRProofs.v
theories/LRPools.v
theories/Props_Response.v
theories/LRPropModel.v
theories/Props_Excited.v
theories/LRProjModel.v
theories/LRProjProofs.v
theories/Props_Projected.v
theories/LRAllProjModel.v
theories/Props_AllProjected.v
theories/LRProjPropModel.v
theories/Props_ProjExcited.v
theories/VarModel.v
theories/VarProofs.v
theories/Props_Variance.v
theories/ShiftModel.v
theories/ShiftTrig.v
theories/ShiftProofs.v
theories/ShiftRows.v
theories/Props_Shift.v
theories/SAModel.v
theories/Props_SA.v
theories/SARdmModel.v
theories/Props_SARdm.v
theories/LRTransferModel.v
theories/Props_Transfer.v
theories/LRProjTransferModel.v
theories/Props_ProjTransfer.v
theories/LRTransferPropModel.v
theories/Props_TransferExcited.v
theories/TwoStepModel.v
theories/Props_TwoStep.v
theories/UccLayoutModel.v
theories/Props_UccLayout.v
theories/BasisModel.v
theories/Props_Basis.v
