-Q theories Verif
theories/Base.v
theories/BaseLemmas.v
theories/Instances.v
theories/Segs.v
theories/SplineModel.v
theories/SplineProofs.v
theories/SplineR.v
theories/PropertiesSpline.v
theories/RSums.v
theories/BlasModel.v
theories/BlasLemmas.v
theories/MlpModel.v
theories/MlpProofs.v
theories/MlpSpec.v
theories/MlpR.v
theories/PropertiesMlp.v
theories/ToolsModel.v
theories/ToolsSpec.v
theories/ToolsProofs.v
theories/ToolsProofs2.v
theories/ToolsProofs3.v
theories/ToolsLemmas.v
theories/PropertiesTools.v
theories/MpModel.v
theories/MpSpec.v
theories/MpCtor.v
theories/MpProofs.v
theories/MpR.v
theories/MpThms.v
theories/PropertiesMp.v
theories/ZblModel.v
theories/ZblR.v
theories/Sys.v
theories/SysLoops.v
theories/ZblProofs.v
theories/ZblThms.v
theories/PropertiesZbl.v
theories/MaceModel.v
theories/MaceGrid.v
theories/MacePure.v
theories/MaceStages1.v
theories/MaceStages2.v
theories/MaceStages3.v
theories/MaceStages4.v
theories/MaceStages5.v
theories/MaceStages6.v
theories/MaceStages7.v
theories/MaceStages8.v
theories/MacePipe.v
theories/MaceSpec.v
theories/MaceLoad.v
theories/MaceFlat.v
theories/MaceThms.v
theories/MaceHsrc.v
theories/MaceBlock.v
theories/MaceThms2.v
theories/RList.v
theories/MaceInert.v
theories/ExportModel.v
theories/ExportSpec.v
theories/ExportProofs.v
theories/PropertiesExport.v
theories/MaceSpec2.v
theories/MaceFlat2.v
theories/MaceTab.v
theories/MaceThms3.v
theories/MaceThms4.v
theories/MaceIso.v
theories/MaceExamples.v
theories/PropertiesMace.v
theories/GradSums.v
theories/MaceGrad.v
theories/MaceGradSpec.v
theories/MaceForces.v
theories/MaceYThms.v
theories/GradExamples.v
theories/PropertiesGrad.v
theories/AseModel.v
theories/AseSpec.v
theories/AseThms.v
theories/AseGrad.v
theories/AseExamples.v
theories/PropertiesAse.v
theories/PairModel.v
theories/PairMpiModel.v
theories/PairSpec.v
theories/PairThms.v
theories/PairTally.v
theories/PairMomentum.v
theories/PairGrad.v
theories/PairCommSpec.v
theories/PairComm.v
theories/PairKokkosModel.v
theories/PairKokkosComm.v
theories/PairCoeffSpec.v
theories/PairCoeff.v
theories/PairEatom.v
theories/PairExamples.v
theories/PropertiesPair.v
theories/SphModel.v
theories/SphSpec.v
theories/SphLemmas.v
theories/SphAngles.v
theories/SphProofs.v
theories/PropertiesSph.v
theories/DistPipe.v
theories/DistNbr.v
theories/DistAlg.v
theories/DistSpec.v
theories/DistTally.v
theories/DistSum.v
theories/DistTags.v
theories/DistJoin.v
theories/DistMpi.v
theories/DistThms.v
theories/DistMono.v
theories/DistNo.v
theories/DistNoNbr.v
theories/DistLin.v
theories/DistNoMpi.v
theories/DistNoThms.v
theories/DistGradSpec.v
theories/DistGrad.v
theories/DistGradThms.v
theories/DistExamples.v
theories/PropertiesDist.v
theories/PropertiesDistGrad.v
theories/KkSem.v
theories/KkSound.v
theories/KkWp.v
theories/KkWp2.v
theories/KkModel.v
theories/KkHost.v
theories/KkTac.v
theories/KkK1.v
theories/KkK2.v
theories/KkK3.v
theories/KkK4.v
theories/KkK5.v
theories/KkK6.v
theories/KkK7.v
theories/KkChain.v
theories/KkEq.v
theories/KkSim.v
theories/KkStage1.v
theories/KkStage2.v
theories/KkStage3.v
theories/KkStage4.v
theories/KkStage5.v
theories/KkStage6.v
theories/KkSpec.v
theories/KkLoad1.v
theories/KkLoad2.v
theories/KkLoad3.v
theories/KkLoad4.v
theories/KkTerm.v
theories/KkThms.v
theories/KkExamples.v
theories/PropertiesKokkos.v
theories/KkAseModel.v
theories/KkAseSpec.v
theories/KkAse.v
theories/KkAseGrad.v
theories/KkAseExamples.v
theories/PropertiesKkAse.v
theories/KkPairModel.v
theories/KkPairSetup.v
theories/KkPairKernels.v
theories/KkPairTally.v
theories/KkPairSpec.v
theories/KkPairThms.v
theories/KkPairExamples.v
theories/KkPairOrder.v
theories/PropertiesKkPair.v
theories/KkNoSim.v
theories/KkNoEval.v
theories/KkPairMpiModel.v
theories/KkNoPipe.v
theories/KkNoList.v
theories/KkPairMpiSpec.v
theories/KkNoThms.v
theories/PropertiesKkNo.v
theories/KkPairMpi2Model.v
theories/KkPairMpi2Spec.v
theories/KkMpiComm.v
theories/KkMpiPipe.v
theories/KkMpiRank.v
theories/KkMpiRun.v
theories/KkMpiThms.v
theories/PropertiesKkMpi.v
theories/ExportPolyModel.v
theories/ExportPolySpec.v
theories/ExportPoly.v
theories/ExportPolyThms.v
theories/PropertiesExportPoly.v
theories/EnergySpec.v
theories/EnergyProofs.v
theories/PropertiesEnergy.v
theories/TorchSpec.v
theories/ExportFullModel.v
theories/ExportFullPre.v
theories/ExportFullParts.v
theories/ExportFullCoupling.v
theories/ExportFullEnergy.v
theories/ExportFullThms.v
theories/ExportFullExamples.v
theories/ExportSubset.v
theories/PropertiesExportFull.v
theories/TorchGradSpec.v
theories/ExportForces.v
theories/ExportAse.v
theories/ExportLammps.v
theories/ExportGradExamples.v
theories/PropertiesExportGrad.v
theories/SymSpec.v
theories/TorchSymSpec.v
theories/SymProofs.v
theories/SymForces.v
theories/SymExport.v
theories/SymAse.v
theories/SymExamples.v
theories/SymTorchExamples.v
theories/PropertiesSym.v
theories/SymPairSpec.v
theories/SymPair.v
theories/PropertiesSymPair.v
theories/MpKkModel.v
theories/MpKkSpec.v
theories/MpKk.v
theories/MpKkThms.v
theories/PropertiesMpKk.v
theories/SplKkModel.v
theories/SplKkSpec.v
theories/SplKk.v
theories/SplKkThms.v
theories/PropertiesSplKk.v
theories/BindModel.v
theories/BindSpec.v
theories/BindProofs.v
theories/PropertiesBind.v
theories/CoverSpec.v
theories/Cover.v
theories/CoverForces.v
theories/PropertiesCover.v
theories/CoverAseSpec.v
theories/CoverAse.v
theories/CoverAseExamples.v
theories/PropertiesCoverAse.v
theories/CommSize.v
theories/PropertiesComm.v
theories/AgreeSpec.v
theories/Agree.v
theories/Agree2.v
theories/AgreeExamples.v
theories/PropertiesAgree.v
theories/IntModel.v
theories/IntSpec.v
theories/IntProofs.v
theories/IntLoad.v
theories/PropertiesInt.v
theories/KkAgreeSpec.v
theories/KkAgree.v
theories/PropertiesKkAgree.v
theories/KkDistGradSpec.v
theories/KkDistGrad.v
theories/PropertiesKkDistGrad.v
theories/ExportKk.v
theories/ExportKk2.v
theories/PropertiesExportKk.v
theories/KkSymSpec.v
theories/KkSym.v
theories/PropertiesKkSym.v
theories/ExportKkAse.v
theories/PropertiesExportKkAse.v
