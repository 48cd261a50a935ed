-Q theories Verif
theories/CInt.v
theories/DistModel.v
theories/DistSpec.v
theories/DivLemmas.v
theories/DistProofs.v
theories/DistProofs2.v
theories/DistBuilt.v
theories/DistThms.v
theories/DistCtor.v
theories/DistChecked.v
theories/DistSub.v
theories/Properties_Dist.v
theories/IndexModel.v
theories/Properties_Index.v
theories/Loop.v
theories/MemModel.v
theories/MemAxis.v
theories/MemProofs.v
theories/MemThms.v
theories/Properties_Mem.v
theories/MemHist.v
theories/Properties_MemHist.v
theories/ViewModel.v
theories/Properties_View.v
theories/Properties_Retile.v
theories/PipeModel.v
theories/Properties_Pipe.v
theories/AsyncModel.v
theories/AsyncProofs.v
theories/Properties_Async.v
theories/AsyncExec.v
theories/SubPipeModel.v
theories/SubPipeProofs.v
theories/Properties_Sub.v
theories/BandSizeModel.v
theories/CApiModel.v
theories/CommGridModel.v
theories/ConfigModel.v
theories/DataModel.v
theories/Properties_BandSize.v
theories/Properties_CApi.v
theories/Properties_CommGrid.v
theories/Properties_Config.v
theories/Properties_Data.v
theories/CholeskyModel.v
theories/CholeskyProofs.v
theories/DenseJobs.v
theories/DenseSpec.v
theories/Properties_Cholesky.v
theories/Properties_Triangular.v
theories/RefKernels.v
theories/StarField.v
theories/TileJobs.v
theories/Tiling.v
theories/TriangularModel.v
theories/TriangularProofs.v
theories/BlockJobs.v
theories/MultModel.v
theories/Properties_Mult.v
theories/AssembleProofs.v
theories/InverseModel.v
theories/InverseProofs.v
theories/Properties_Inverse.v
theories/GenToStdModel.v
theories/GenToStdProofs.v
theories/Properties_GenToStd.v
theories/DistGrid.v
theories/DistMachine.v
theories/PanelModel.v
theories/PanelProofs.v
theories/Properties_Panel.v
theories/Properties_Tridiag.v
theories/TridiagDeflation.v
theories/TridiagModel.v
theories/TridiagProofs.v
theories/PermAxis.v
theories/PermDist.v
theories/PermModel.v
theories/PermProofs.v
theories/PermRoute.v
theories/Properties_Perm.v
theories/CopyModel.v
theories/NormModel.v
theories/Properties_Norm.v
theories/CopyProofs.v
theories/Properties_Copy.v
theories/DistCholeskyModel.v
theories/DistCholeskyProofs.v
theories/DistMat.v
theories/DistSim.v
theories/Properties_DistCholesky.v
theories/DistLocal.v
theories/DistTriModel.v
theories/DistTriProofs.v
theories/Properties_DistTri.v
theories/DistInverseModel.v
theories/DistInverseProofs.v
theories/DistLift.v
theories/DistPhase.v
theories/DistProg.v
theories/Properties_DistInverse.v
theories/Reorder.v
theories/DistGenToStdModel.v
theories/DistGenToStdPhase.v
theories/DistGenToStdProofs.v
theories/Properties_DistGenToStd.v
theories/DistMultModel.v
theories/DistMultProofs.v
theories/Properties_DistMult.v
theories/CplxField.v
theories/HouseModel.v
theories/HouseProofs.v
theories/HouseQR.v
theories/HouseSpec.v
theories/MultiJobs.v
theories/Red2BandModel.v
theories/TFactorProofs.v
theories/Properties_Red2Band.v
theories/Red2BandProofs.v
theories/Red2BandSpec.v
theories/Red2BandTheory.v
theories/BtRed2BandModel.v
theories/BtRed2BandProofs.v
theories/Properties_BtRed2Band.v
theories/B2TFrame.v
theories/B2TModel.v
theories/B2TSched.v
theories/B2TSpec.v
theories/Properties_B2T.v
theories/SemModel.v
theories/SemProofs.v
theories/B2TAlg.v
theories/B2TCopy.v
theories/B2TFinal.v
theories/B2TNum.v
theories/B2TResult.v
theories/B2TStore.v
theories/Properties_B2TNum.v
theories/BtB2TApply.v
theories/BtB2TFinal.v
theories/BtB2TModel.v
theories/BtB2TProofs.v
theories/BtB2TTile.v
theories/Properties_BtB2T.v
theories/EigModel.v
theories/EigProofs.v
theories/EigSpec.v
theories/Properties_Eig.v
theories/DcCore.v
theories/DcDeflate.v
theories/DcEig.v
theories/DcLaed4.v
theories/DcMerge.v
theories/DcModel.v
theories/DcRank1.v
theories/DcSecular.v
theories/DcSolver.v
theories/DcSums.v
theories/Properties_Dc.v
theories/Properties_TileSub.v
theories/TileSubModel.v
theories/TileSubProofs.v
theories/Properties_UtilMat.v
theories/UtilMatModel.v
theories/UtilMatProofs.v
theories/DistBtR2BModel.v
theories/DistBtR2BProofs.v
theories/Properties_DistBtR2B.v
theories/DistR2BModel.v
theories/DistR2BIdx.v
theories/DistR2BPanel.v
theories/DistR2BStep.v
theories/DistR2BTrail.v
theories/DistR2BIter.v
theories/DistR2BProofs.v
theories/DistAdapt.v
theories/DistR2BAdapt.v
theories/Properties_DistR2B.v
theories/DistBtB2TFacts.v
theories/DistBtB2TIdx.v
theories/DistBtB2TModel.v
theories/DistBtB2TTile.v
theories/DistBtB2TEvents.v
theories/DistBtB2TProofs.v
theories/DistBtB2TFinal.v
theories/Properties_DistBtB2T.v
theories/DistEigModel.v
theories/Properties_DistEig.v
theories/B2TMsgCover.v
theories/B2TMsgMatch.v
theories/B2TMsgModel.v
theories/B2TMsgProofs.v
theories/B2TMsgSpec.v
theories/B2TMsgTags.v
theories/Properties_B2TMsg.v
theories/B2TDistFifo.v
theories/B2TDistFinal.v
theories/B2TDistKey.v
theories/B2TDistModel.v
theories/B2TDistOrder.v
theories/B2TDistProgress.v
theories/B2TDistSeq.v
theories/B2TDistStruct.v
theories/Properties_B2TDist.v
theories/B2TDistCopy.v
theories/B2TDistFrame.v
theories/B2TDistRing.v
theories/B2TDistSplit.v
theories/B2TDistStep.v
theories/B2TDistVal.v
theories/B2TDistSim.v
theories/Properties_B2TDistNum.v
theories/Properties_DistEigB2T.v
theories/DcDistCore.v
theories/DcDistMerge.v
theories/DcDistModel.v
theories/DcDistPart.v
theories/DcDistRank1.v
theories/DcDistSolver.v
theories/Properties_DcDist.v
theories/Properties_DistEigFull.v
theories/DcRotModel.v
theories/DcRotProofs.v
theories/Properties_DcRot.v
theories/DcCommModel.v
theories/DcCommProofs.v
theories/DcCommRank1.v
theories/Properties_DcComm.v
theories/MirrorModel.v
theories/Properties_Mirror.v
theories/WorkersModel.v
theories/Properties_Workers.v
theories/TempTileModel.v
theories/Properties_TempTile.v
theories/CEigModel.v
theories/Properties_CEig.v
