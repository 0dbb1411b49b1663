-Q theories Verif
theories/ScanModel.v
theories/ScanSpec.v
theories/ScanProofs.v
theories/ScanOrder.v
theories/Properties_Scan.v
theories/Ord.v
theories/FscModel.v
theories/FscSpec.v
theories/FscCore.v
theories/FscProofs.v
theories/FscProofs2.v
theories/FscProofs3.v
theories/FscProofs4.v
theories/Properties_Fsc.v
theories/MxBase.v
theories/LqtModel.v
theories/LqtSpec.v
theories/LqtCore.v
theories/LqtElem.v
theories/ScanUse.v
theories/LqtProofs.v
theories/LqtPar.v
theories/LqtMore.v
theories/LqtBatchModel.v
theories/LqtBatch.v
theories/LqtAsym.v
theories/LqtEx.v
theories/Properties_Lqt.v
theories/TfScan.v
theories/LqtTfModel.v
theories/LqtTfSpec.v
theories/LqtTf.v
theories/LqtTfMore.v
theories/Properties_LqtTf.v
theories/LqtCtorModel.v
theories/LqtCtorSpec.v
theories/LqtCtor.v
theories/Properties_Ctor.v
theories/VitModel.v
theories/VitSpec.v
theories/VitCore.v
theories/VitPar.v
theories/VitProofs.v
theories/VitEx.v
theories/Properties_Vit.v
theories/CondModel.v
theories/CondSpec.v
theories/CondProofs.v
theories/CondMain.v
theories/CondOpt.v
theories/CondEx.v
theories/Properties_Cond.v
theories/NlqtModel.v
theories/NlqtSpec.v
theories/NlqtProofs.v
theories/NlqtMain.v
theories/NlqtEx.v
theories/Properties_Nlqt.v
theories/SqpModel.v
theories/SqpSpec.v
theories/SqpProofs.v
theories/SqpBfgs.v
theories/SqpEx.v
theories/Properties_Sqp.v
theories/LinComb.v
theories/Rk4Model.v
theories/Rk4Spec.v
theories/Rk4Proofs.v
theories/Rk4Ex.v
theories/Properties_Rk4.v
theories/BracketSpec.v
theories/ScanRel.v
theories/Properties_Bracket.v
theories/ClqtModel.v
theories/ClqtPack.v
theories/ClqtFwd.v
theories/ClqtFwd2.v
theories/ClqtSpec.v
theories/ClqtExp.v
theories/ClqtBwd.v
theories/ClqtVal.v
theories/ClqtTfModel.v
theories/ClqtTf.v
theories/ClqtTf2.v
theories/ClqtTf3.v
theories/ClqtTf4.v
theories/ClqtEx.v
theories/ClqtHjb.v
theories/ClqtEx2.v
theories/Properties_Clqt.v
theories/PararealModel.v
theories/PararealCore.v
theories/PararealBwd.v
theories/PararealFwd.v
theories/PararealTf.v
theories/PararealEx.v
theories/Properties_Parareal.v
theories/HjbModel.v
theories/HjbSpec.v
theories/HjbProofs.v
theories/HjbInterp.v
theories/HjbPar.v
theories/HjbPasses.v
theories/HjbFd.v
theories/HjbMain.v
theories/HjbEx.v
theories/Properties_Hjb.v
theories/ModelsRModel.v
theories/ModelsRSpec.v
theories/ModelsRProofs.v
theories/ModelsRMore.v
theories/ModelsREx.v
theories/Properties_ModelsR.v
theories/LinModModel.v
theories/LinModSpec.v
theories/LinModProofs.v
theories/LinModTrack.v
theories/LinModMain.v
theories/LinModMass.v
theories/LinModEx.v
theories/Properties_LinMod.v
theories/MarkovModel.v
theories/MarkovSpec.v
theories/MarkovFm.v
theories/MarkovGe.v
theories/MarkovText.v
theories/MarkovText2.v
theories/MarkovText3.v
theories/MarkovText4.v
theories/MarkovMain.v
theories/MarkovEx.v
theories/Properties_Markov.v
theories/FscTfModel.v
theories/FscTfSpec.v
theories/FscTfProofs.v
theories/FscTfMain.v
theories/FscTfVit.v
theories/FscTfEx.v
theories/Properties_FscTf.v
theories/ClqrModel.v
theories/ClqrSpec.v
theories/ClqrProofs.v
theories/ClqrPar.v
theories/ClqrExact.v
theories/ClqrUse.v
theories/ClqrEx.v
theories/Properties_Clqr.v
theories/ShootModel.v
theories/ShootSpec.v
theories/ShootProofs.v
theories/ShootQuad.v
theories/ShootMain.v
theories/ShootAd.v
theories/ShootTable.v
theories/ShootBad.v
theories/ShootNan.v
theories/ShootEx.v
theories/ShootCor.v
theories/Properties_Shoot.v
theories/ModGridSpec.v
theories/ModGrid.v
theories/Properties_ModGrid.v
theories/RealF.v
theories/RealExpSpec.v
theories/RealExp.v
theories/RealAssm.v
theories/ClqrOptSpec.v
theories/ClqrOpt.v
theories/RealDisc.v
theories/ClqrOptEx.v
theories/Properties_ClqrOpt.v
theories/RkConvSpec.v
theories/RkQuadAlg.v
theories/RkConvA.v
theories/RkConvB.v
theories/RkConvC.v
theories/RkConv.v
theories/RkConvEx.v
theories/Properties_RkConv.v
theories/FwdAlg.v
theories/FwdConvA.v
theories/FwdConv.v
theories/Properties_FwdConv.v
theories/ScanSeg.v
theories/ScanSegEx.v
theories/Properties_ScanSeg.v
theories/ClqrElem.v
theories/ParAlg.v
theories/RkConvP.v
theories/ParConvA.v
theories/ParConvB.v
theories/ParConvC.v
theories/FwdConvG.v
theories/ParTraj.v
theories/Properties_ParConv.v
theories/FbAlg.v
theories/FbConvA.v
theories/FbConvB.v
theories/FbConvC.v
theories/FbConvD.v
theories/FbConvE.v
theories/FbTraj.v
theories/Properties_FbConv.v
theories/TrackSpec.v
theories/TrackExt.v
theories/TrackExt2.v
theories/TrackExt3.v
theories/TrackExt4.v
theories/TrackPar.v
theories/TrackEx.v
theories/Properties_Track.v
theories/TrackOptSpec.v
theories/TrackOpt.v
theories/TrackConvEx.v
theories/Properties_TrackConv.v
theories/TvarSpec.v
theories/TvarInv.v
theories/Tvar.v
theories/TvarEx.v
theories/Properties_Tvar.v
theories/TvarRk.v
theories/TvarLip.v
theories/TvarPack.v
theories/TvarBwd.v
theories/TvarFwd.v
theories/TvarFb.v
theories/TvarConvEx.v
theories/Properties_TvarConv.v
theories/OdeEx.v
theories/OdeLin.v
theories/TvarExistSpec.v
theories/TvarExist.v
theories/TvarCost.v
theories/TvarExistEx.v
theories/Properties_TvarExist.v
theories/TvarParA.v
theories/TvarParB.v
theories/TvarParC.v
theories/TvarParFw.v
theories/TvarParG.v
theories/TvarParD.v
theories/TvarParH.v
theories/TvarParE.v
theories/TvarParF.v
theories/TvarParEx.v
theories/Properties_TvarPar.v
theories/TvarParI.v
theories/TvarParJ.v
theories/Properties_TvarFbPar.v
