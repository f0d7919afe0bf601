-Q theories Verif
theories/BitsModel.v
theories/BitsSpec.v
theories/BitsProofs.v
theories/RankModel.v
theories/RankSpec.v
theories/RankProofs.v
theories/StaggeredProofs.v
theories/PropBits.v
theories/PropRank.v
theories/TrieModel.v
theories/TrieProofs.v
theories/TrieMain.v
theories/PropTrie.v
theories/DSModel.v
theories/DSSpec.v
theories/DSProofs.v
theories/DSNormalize.v
theories/PropDS.v
theories/SPModel.v
theories/SPSpec.v
theories/SPProofs.v
theories/SPMerge.v
theories/SPMain.v
theories/PropSP.v
theories/ExprModel.v
theories/ExprSpec.v
theories/ExprOrder.v
theories/ExprMap.v
theories/ExprEval.v
theories/ExprStd.v
theories/ExprCanon.v
theories/ExprMain.v
theories/ExprHom.v
theories/ExprMerge.v
theories/ExprThrow.v
theories/ExprInst.v
theories/PropExpr.v
theories/PropExpr2.v
theories/PropFactories.v
theories/HSModel.v
theories/HSSpec.v
theories/HSEnum.v
theories/HSProofs.v
theories/HSMain.v
theories/PropHS.v
theories/LOpModel.v
theories/LOpSpec.v
theories/LOpFermion.v
theories/LOpSite.v
theories/LOpActF.v
theories/LOpActB.v
theories/LOpActS.v
theories/LOpComm.v
theories/LOpApply.v
theories/LOpMatrix.v
theories/LOpThrow.v
theories/LOpReal.v
theories/LOpMain.v
theories/PropLOp.v
theories/PropLOp2.v
theories/LOpReject.v
theories/PropLOp3.v
theories/PropSV.v
theories/SectorModel.v
theories/SectorSpec.v
theories/SectorProofs.v
theories/SectorMain.v
theories/PropSector.v
theories/SectorGen.v
theories/SectorMulti.v
theories/SectorSpace.v
theories/PropMulti.v
theories/ViewModel.v
theories/ViewSpec.v
theories/ViewProofs.v
theories/ViewMapper.v
theories/PropView.v
theories/ViewComp.v
theories/PropComp.v
theories/SectorAct.v
theories/PropSectorAct.v
theories/FockSpec.v
theories/FockRep.v
theories/FockUnique.v
theories/PropUnique.v
theories/ExprConj.v
theories/PropConj.v
theories/RepExample.v
theories/PropAdjoint.v
theories/PropNest.v
theories/PropPopcount.v
theories/ExprLin.v
theories/LinSpec.v
theories/PropLin.v
theories/TolModel.v
theories/TolSpec.v
theories/TolProofs.v
theories/PropTol.v
theories/AssocSpec.v
theories/AssocProofs.v
theories/LieProofs.v
theories/UserModel.v
theories/PropAssoc.v
theories/PropVirasoro.v
theories/ConjUser.v
theories/PropConjUser.v
theories/MixSpec.v
theories/MixProofs.v
theories/PropMix.v
theories/PrintModel.v
theories/PrintSpec.v
theories/PrintProofs.v
theories/PropPrint.v
theories/UserActModel.v
theories/UserActSpec.v
theories/UserActProofs.v
theories/PropUserAct.v
theories/ExactModel.v
theories/ExactSpec.v
theories/ExactProofs.v
theories/PropExact.v
theories/WindowSpec.v
theories/PropWindow.v
theories/EigenModel.v
theories/EigenSpec.v
theories/PropEigen.v
theories/LOpFaithSpec.v
theories/LOpFaithful.v
theories/LOpFaithful2.v
theories/PropFaithful.v
theories/ReentModel.v
theories/ReentSpec.v
theories/ReentProofs.v
theories/PropReent.v
theories/NBitsModel.v
theories/NBitsSpec.v
theories/NBitsProofs.v
theories/PropNBits.v
theories/RoundModel.v
theories/RoundSpec.v
theories/RoundProofs.v
theories/RoundInst.v
theories/PropRound.v
theories/ConvModel.v
theories/ConvSpec.v
theories/ConvProofs.v
theories/PropConv.v
theories/CrashModel.v
theories/CrashProofs.v
theories/PropCrash.v
theories/PartCrashModel.v
theories/PartCrashProofs.v
theories/PropPartCrash.v
theories/AliasModel.v
theories/PropAlias.v
theories/MonModel.v
theories/MonSpec.v
theories/MonProofs.v
theories/PropMon.v
theories/DSDepth.v
theories/PropDSDepth.v
theories/UFock.v
theories/UFock2.v
theories/UFock3.v
theories/PropBos.v
theories/Cutoff.v
theories/PropCut.v
theories/HSCrashModel.v
theories/HSCrashProofs.v
theories/PropHSCrash.v
theories/HeisModel.v
theories/HeisSpec.v
theories/HeisSum.v
theories/HeisDen.v
theories/HeisLocal.v
theories/HeisProofs.v
theories/HeisPairs.v
theories/PropHeis.v
theories/PropNumber.v
theories/ERoundSpec.v
theories/ERoundProofs.v
theories/ERoundSize.v
theories/PropERound.v
theories/PartLModel.v
theories/PartLSpec.v
theories/PropPartL.v
theories/ViewExact.v
theories/PropViewX.v
theories/PropPartX.v
theories/LfModel.v
theories/LfSpec.v
theories/PropLf.v
theories/ConcModel.v
theories/ConcSpec.v
theories/ConcProofs.v
theories/PropConc.v
theories/ConcLoopModel.v
theories/ConcLoopSpec.v
theories/ConcLoopProofs.v
theories/PropConcLoop.v
theories/KanModel.v
theories/KanSpec.v
theories/KanDen.v
theories/KanVals.v
theories/KanLin.v
theories/PropKan.v
theories/MatrixModel.v
theories/PropMatrix.v
theories/PolyModel.v
theories/PolySpec.v
theories/PolyProofs.v
theories/PolyConv.v
theories/PolyExpr.v
theories/PropPoly.v
theories/PolyOsc.v
theories/PropParam.v
theories/JCModel.v
theories/JCSpec.v
theories/JCExpr.v
theories/JCAct.v
theories/PropJC.v
theories/HolModel.v
theories/HolSpec.v
theories/HolProofs.v
theories/PropHol.v
theories/HHModel.v
theories/HHSpec.v
theories/HHProofs.v
theories/PropHH.v
theories/ChModel.v
theories/ChProofs.v
theories/PropCh.v
theories/SrModel.v
theories/SrProofs.v
theories/PropSr.v
