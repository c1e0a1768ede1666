-Q theories Verif
theories/CBase.v
theories/BlockDecomp.v
theories/WorkSplit.v
theories/P_BlockDecomp.v
theories/Mem.v
theories/NdGrid.v
theories/P_NdGrid.v
theories/D2D.v
theories/P_D2D.v
theories/Ring.v
theories/D2Dext.v
theories/D2DextLem.v
theories/D2DextMatch.v
theories/P_D2Dext.v
theories/Layout.v
theories/P_Layout.v
theories/DivCount.v
theories/Factors.v
theories/P_Factors.v
theories/Dims.v
theories/DimsLem.v
theories/DimsDiv.v
theories/P_Dims.v
theories/Text.v
theories/TextLem.v
theories/P_Text.v
theories/Path.v
theories/P_Path.v
theories/SeedRand.v
theories/P_SeedRand.v
theories/Tridiag.v
theories/Spline.v
theories/P_Spline.v
theories/Socket.v
theories/SocketLem.v
theories/P_Socket.v
theories/Wrap.v
theories/P_Wrap.v
theories/DyArray.v
theories/P_DyArray.v
theories/Fermi.v
theories/Occupation.v
theories/P_Fermi.v
theories/P_Occupation.v
theories/Mixing.v
theories/P_Mixing.v
theories/DensGuess.v
theories/P_DensGuess.v
theories/LinSolve.v
theories/P_LinSolve.v
theories/MD.v
theories/P_MD.v
theories/IsoPress.v
theories/P_IsoPress.v
theories/Restart.v
theories/P_Restart.v
theories/FDWeights.v
theories/P_FDWeights.v
theories/Kpoints.v
theories/KpointsHF.v
theories/P_Kpoints.v
theories/P_KpointsHF.v
theories/BandK.v
theories/P_BandK.v
theories/Lattice.v
theories/P_Lattice.v
theories/BandCell.v
theories/P_BandCell.v
theories/P_Cluster.v
theories/Kron.v
theories/KronLem.v
theories/KronCode.v
theories/P_Kron.v
theories/Lap1D.v
theories/P_Lap1D.v
theories/Collect.v
theories/P_Collect.v
theories/Cheb.v
theories/P_Cheb.v
theories/Halo.v
theories/HaloLem.v
theories/P_Halo.v
theories/NonOrth.v
theories/NonOrthLem.v
theories/P_NonOrth.v
theories/Lbfgs.v
theories/LbfgsLem.v
theories/P_Lbfgs.v
theories/Relax.v
theories/P_Relax.v
theories/Fire.v
theories/P_Fire.v
theories/Nlcg.v
theories/P_Nlcg.v
theories/CellRelax.v
theories/P_CellRelax.v
theories/ExxKernel.v
theories/P_ExxKernel.v
theories/ExxFft.v
theories/ExxFftLem.v
theories/P_ExxFft.v
theories/Xc.v
theories/XcLem.v
theories/P_Xc.v
theories/XcSpin.v
theories/XcSpinLem.v
theories/P_XcSpin.v
theories/XcGrid.v
theories/XcGridLem.v
theories/XcGridVar.v
theories/XcGridMain.v
theories/P_XcGrid.v
theories/MggaX.v
theories/MggaXLem.v
theories/P_MggaX.v
theories/SphHarmSpec.v
theories/SphHarm.v
theories/SphHarmLem.v
theories/SphHarmAdd.v
theories/P_SphHarm.v
theories/Nloc.v
theories/NlocSpec.v
theories/NlocLem.v
theories/P_Nloc.v
theories/VnlOp.v
theories/VnlLem.v
theories/VnlSpec.v
theories/VnlMain.v
theories/VnlKpt.v
theories/P_Vnl.v
theories/P_VnlKpt.v
theories/Dens.v
theories/DensSpec.v
theories/DensLem.v
theories/DensMain.v
theories/P_Dens.v
theories/Energy.v
theories/EnergySpec.v
theories/EnergyLem.v
theories/EnergyMain.v
theories/P_Energy.v
theories/HubInit.v
theories/HubInitSpec.v
theories/HubInitLem.v
theories/P_HubInit.v
theories/Hub.v
theories/HubSpec.v
theories/HubLem.v
theories/HubMain.v
theories/P_Hub.v
theories/HubOcc.v
theories/P_HubOcc.v
theories/P_HubKpt.v
theories/D3.v
theories/D3Spec.v
theories/D3Lem.v
theories/D3Der.v
theories/D3Main.v
theories/P_D3.v
theories/P_D3Img.v
theories/D3ESpec.v
theories/D3Energy.v
theories/P_D3Energy.v
theories/P_D3Cor.v
theories/SqGauss.v
theories/SqQl.v
theories/SqSpec.v
theories/SqLz.v
theories/SqMain.v
theories/SqHsub.v
theories/SqHsubLem.v
theories/P_SqGauss.v
theories/OfDft.v
theories/OfDftLem.v
theories/OfGrad.v
theories/P_OfDft.v
theories/Soap.v
theories/SoapSpec.v
theories/SoapLeg.v
theories/SoapLem.v
theories/SoapGrad.v
theories/SoapForce.v
theories/SoapMain.v
theories/SoapRot.v
theories/SoapSum.v
theories/SoapIdx.v
theories/P_Soap.v
theories/NlocForce.v
theories/NlocForceSpec.v
theories/NlocForceMain.v
theories/NlocForceGrp.v
theories/P_NlocForce.v
theories/P_NlocForceR.v
theories/LapMax.v
theories/LapMaxSpec.v
theories/LapMaxLem.v
theories/P_LapMax.v
theories/XcStress.v
theories/XcStressSpec.v
theories/XcStressLem.v
theories/P_XcStress.v
theories/Scf.v
theories/ScfSpec.v
theories/P_Scf.v
theories/EgsForces.v
theories/P_EgsForces.v
theories/AtomCheck.v
theories/P_AtomCheck.v
theories/P_SplineRuns.v
theories/PspTables.v
theories/P_PspTables.v
