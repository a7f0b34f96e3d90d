-Q theories Verif
theories/Base.v
theories/Bits.v
theories/Indexing.v
theories/IndexingProofs.v
theories/RemoveProofs.v
theories/Binom.v
theories/SsqProofs.v
theories/Qn.v
theories/PropIndexing.v
theories/DMIndex.v
theories/DMIndexProofs.v
theories/DMReach.v
theories/PropDMIndex.v
theories/CRing.v
theories/Fock.v
theories/Operators.v
theories/OperatorsProofs.v
theories/PropOperators.v
theories/Layout.v
theories/Coherences.v
theories/PropCoherences.v
theories/Kernel.v
theories/KernelProofs.v
theories/PauliProofs.v
theories/CohProofs.v
theories/CohKernels.v
theories/CohCurrents.v
theories/KernelGen.v
theories/PropKernel.v
theories/MatrixFree.v
theories/PropSolve.v
theories/MasterEq.v
theories/MasterGen.v
theories/PropMaster.v
theories/ElPh.v
theories/PropElPh.v
theories/SpecFunc.v
theories/Rates.v
theories/PropRates.v
theories/PropAgree.v
theories/PropPhonon.v
theories/Params.v
theories/ParamsProofs.v
theories/PropParams.v
theories/PropLeads.v
theories/SpinSwap.v
theories/SpinProofs.v
theories/PropSpin.v
theories/LeadParams.v
theories/PropLeadParams.v
theories/Selection.v
theories/PropSelection.v
theories/Energies.v
theories/EnergiesProofs.v
theories/PropEnergies.v
theories/Validation.v
theories/PropValidation.v
theories/SolveState.v
theories/PropSolveState.v
theories/VN2K.v
theories/PropVN2.v
theories/RTDK.v
theories/PropRTD.v
theories/Rotate.v
theories/RotateProofs.v
theories/PropRotate.v
theories/SpinFock.v
theories/SpinOps.v
theories/PropSpinOps.v
theories/LinR.v
theories/Tower.v
theories/Multiplets.v
theories/MultipletsExec.v
theories/MultipletsSpin.v
theories/MultipletsProofs.v
theories/PropMultiplets.v
theories/SsqNumbering.v
theories/PropSsqNumbering.v
theories/Integrals.v
theories/PropAmplitudes.v
theories/SpinInvariant.v
theories/SpinBlocks.v
theories/PropSpinInvariant.v
theories/PropSpinEigen.v
theories/RTDNd.v
theories/MasterUnits.v
theories/PropRTDCoh.v
theories/PropRTDCohR.v
theories/BasisChange.v
theories/PropBasis.v
theories/PropBasisR.v
theories/PropBasisVec.v
theories/Hilbert.v
theories/HilbertProofs.v
theories/PropHilbert.v
theories/VN2Grid.v
theories/VN2Iter.v
theories/PropVN2Grid.v
theories/VN2Eq.v
theories/VN2Solve.v
theories/PropVN2Iter.v
theories/PropVN2Coh.v
theories/VN2Run.v
theories/PropVN2Run.v
theories/RTDInt.v
theories/PropRTDInt.v
theories/CplxR.v
theories/Polygamma.v
theories/PropPolygamma.v
theories/PropDigamma.v
theories/Ozaki.v
theories/PropOzaki.v
theories/CKernelHandler.v
theories/CKernelProofs.v
theories/CKernelNumbers.v
theories/PropCKernel.v
theories/TunnelSquare.v
theories/RTDGen.v
theories/PropRTDBand.v
theories/PropRTDBandR.v
theories/PropRTDBandInt.v
theories/PropRTDBandAll.v
theories/ManyBody.v
theories/ManyBodyProofs.v
theories/PropManyBody.v
theories/PropBandFirst.v
theories/PropBandFirstR.v
theories/Markov.v
theories/PropStationary.v
theories/PropSecondLaw.v
theories/PropGauge.v
theories/PropGaugeHam.v
theories/PropRTDShift.v
theories/CDigamma.v
theories/PropCDigamma.v
theories/PropUnits.v
theories/PropUnitsInt.v
theories/PropUnitsCase.v
theories/PropMixLeads.v
theories/PropMixLeadsAmp.v
theories/PropPositive.v
theories/SingleMtr.v
theories/PropSingleMtr.v
theories/PropPhononLaw.v
