-Q theories Verif
theories/Base.v
theories/BsComb.v
theories/BsMath.v
theories/BsNorm.v
theories/BsSym.v
theories/Combi.v
theories/LemAcc.v
theories/LemAccur.v
theories/LemBlim.v
theories/LemBobs.v
theories/LemBound.v
theories/LemCost.v
theories/LemCount.v
theories/LemDist.v
theories/LemFactory.v
theories/LemFixed.v
theories/LemFloat.v
theories/LemFloatBobs.v
theories/LemFloatDist.v
theories/LemFloatFixed.v
theories/LemFloatGcc.v
theories/LemFloatGccB.v
theories/LemFloatGccU.v
theories/LemFloatLState.v
theories/LemFloatNet.v
theories/LemFloatNetSvd.v
theories/LemFloatSub.v
theories/LemGcc.v
theories/LemHeap.v
theories/LemInt64.v
theories/LemLState.v
theories/LemLim.v
theories/LemMat.v
theories/LemNet.v
theories/LemPerm.v
theories/LemPert.v
theories/LemPhase.v
theories/LemQC.v
theories/LemR.v
theories/LemRound.v
theories/LemSample.v
theories/LemSep.v
theories/LemStates.v
theories/LemSym.v
theories/ModelBobs.v
theories/ModelBound.v
theories/ModelCount.v
theories/ModelDist.v
theories/ModelFactory.v
theories/ModelFixed.v
theories/ModelFloat.v
theories/ModelFloatBobs.v
theories/ModelFloatDist.v
theories/ModelFloatFixed.v
theories/ModelFloatGcc.v
theories/ModelFloatGccB.v
theories/ModelFloatGccU.v
theories/ModelFloatLState.v
theories/ModelFloatNet.v
theories/ModelFloatSub.v
theories/ModelGcc.v
theories/ModelGccB.v
theories/ModelHeap.v
theories/ModelInt64.v
theories/ModelLState.v
theories/ModelMat.v
theories/ModelNet.v
theories/ModelPerm.v
theories/ModelQC.v
theories/ModelR.v
theories/ModelRound.v
theories/ModelSample.v
theories/ModelSep.v
theories/ModelStates.v
theories/PermMath.v
theories/ProbMath.v
theories/ProbTame.v
theories/ProofBlim1.v
theories/ProofBlim2.v
theories/ProofBlim3.v
theories/ProofBlim4.v
theories/ProofBlim5.v
theories/ProofBobs1.v
theories/ProofBobs2.v
theories/ProofBobs3.v
theories/ProofBobs4.v
theories/ProofBobs5.v
theories/ProofBobs6.v
theories/ProofBound.v
theories/ProofCost1.v
theories/ProofCost2.v
theories/ProofCount.v
theories/ProofDist1.v
theories/ProofFactory1.v
theories/ProofFactory2.v
theories/ProofFactory3.v
theories/ProofFactory4.v
theories/ProofFixed1.v
theories/ProofFixed2.v
theories/ProofFixed3.v
theories/ProofFixed4.v
theories/ProofFloat.v
theories/ProofFloat2.v
theories/ProofFloat3.v
theories/ProofFloat4.v
theories/ProofFloatBobs1.v
theories/ProofFloatBobs2.v
theories/ProofFloatBobs3.v
theories/ProofFloatBobs4.v
theories/ProofFloatBobs5.v
theories/ProofFloatBobs6.v
theories/ProofFloatBobs7.v
theories/ProofFloatBobs8.v
theories/ProofFloatDist.v
theories/ProofFloatDist2.v
theories/ProofFloatFixed1.v
theories/ProofFloatFixed2.v
theories/ProofFloatFixed3.v
theories/ProofFloatFixed4.v
theories/ProofFloatGcc1.v
theories/ProofFloatGcc2.v
theories/ProofFloatGcc3.v
theories/ProofFloatGcc4.v
theories/ProofFloatGccB1.v
theories/ProofFloatGccB2.v
theories/ProofFloatGccB3.v
theories/ProofFloatGccB4.v
theories/ProofFloatGccU1.v
theories/ProofFloatGccU2.v
theories/ProofFloatGccU3.v
theories/ProofFloatLState1.v
theories/ProofFloatLState2.v
theories/ProofFloatLState3.v
theories/ProofFloatLState4.v
theories/ProofFloatLState5.v
theories/ProofFloatLState6.v
theories/ProofFloatNet1.v
theories/ProofFloatNet2.v
theories/ProofFloatNet3.v
theories/ProofFloatNet4.v
theories/ProofFloatNet5.v
theories/ProofFloatSel.v
theories/ProofFloatSelB.v
theories/ProofFloatSub.v
theories/ProofFloatSub2.v
theories/ProofGcc1.v
theories/ProofGcc2.v
theories/ProofGcc3.v
theories/ProofGcc4.v
theories/ProofGcc5.v
theories/ProofGcc6.v
theories/ProofGcc7.v
theories/ProofGcc8.v
theories/ProofGccB1.v
theories/ProofGccB2.v
theories/ProofGccB3.v
theories/ProofGccU.v
theories/ProofHeap1.v
theories/ProofHeap2.v
theories/ProofHeap3.v
theories/ProofHeap4.v
theories/ProofHoeff1.v
theories/ProofHoeff2.v
theories/ProofInt64.v
theories/ProofLS1.v
theories/ProofLS2.v
theories/ProofLS3.v
theories/ProofLS4.v
theories/ProofLS5.v
theories/ProofLS6.v
theories/ProofLim1.v
theories/ProofLim2.v
theories/ProofLim3.v
theories/ProofLim4.v
theories/ProofLim5.v
theories/ProofLim6.v
theories/ProofMat.v
theories/ProofNet1.v
theories/ProofNet2.v
theories/ProofNet3.v
theories/ProofNet4.v
theories/ProofNet5.v
theories/ProofNet6.v
theories/ProofNet7.v
theories/ProofPerm1.v
theories/ProofPerm2.v
theories/ProofPerm3.v
theories/ProofPerm4.v
theories/ProofPerm5.v
theories/ProofPerm6.v
theories/ProofPert1.v
theories/ProofPert2.v
theories/ProofPert3.v
theories/ProofQC1.v
theories/ProofQC2.v
theories/ProofR1.v
theories/ProofR2.v
theories/ProofR3.v
theories/ProofR4.v
theories/ProofR5.v
theories/ProofRound1.v
theories/ProofRound2.v
theories/ProofRound3.v
theories/ProofRound4.v
theories/ProofSample1.v
theories/ProofSel.v
theories/ProofSep1.v
theories/ProofSep2.v
theories/ProofSep3.v
theories/ProofStates1.v
theories/ProofStates2.v
theories/ProofStates3.v
theories/ProofStates4.v
theories/ProofStates5.v
theories/ProofSvd.v
theories/ProofSym1.v
theories/ProofSym2.v
theories/ProofSym3.v
theories/ProofSym4.v
theories/ProofSym5.v
theories/ProofSym6.v
theories/ProofThin.v
theories/PropAcc.v
theories/PropAccur.v
theories/PropBlim.v
theories/PropBobs.v
theories/PropBound.v
theories/PropCost.v
theories/PropCount.v
theories/PropDist.v
theories/PropFactory.v
theories/PropFixed.v
theories/PropFloat.v
theories/PropFloatBobs.v
theories/PropFloatDist.v
theories/PropFloatFixed.v
theories/PropFloatGcc.v
theories/PropFloatGccB.v
theories/PropFloatGccU.v
theories/PropFloatLState.v
theories/PropFloatNet.v
theories/PropFloatNetSvd.v
theories/PropFloatSub.v
theories/PropGcc.v
theories/PropHeap.v
theories/PropInt64.v
theories/PropLState.v
theories/PropLim.v
theories/PropMat.v
theories/PropNet.v
theories/PropPerm.v
theories/PropPert.v
theories/PropPhase.v
theories/PropQC.v
theories/PropR.v
theories/PropRound.v
theories/PropSample.v
theories/PropSep.v
theories/PropStates.v
theories/PropSym.v
theories/RealCis.v
theories/RealInst.v
theories/RealLim.v
theories/SampMath.v
theories/SpecBS.v
theories/SpecBlim.v
theories/SpecBobs.v
theories/SpecCost.v
theories/SpecFactory.v
theories/SpecFixed.v
theories/SpecFloat.v
theories/SpecFloatBobs.v
theories/SpecFloatFixed.v
theories/SpecFloatGcc.v
theories/SpecFloatGccB.v
theories/SpecFloatGccU.v
theories/SpecFloatLState.v
theories/SpecFloatNet.v
theories/SpecFloatSub.v
theories/SpecGcc.v
theories/SpecHeap.v
theories/SpecLState.v
theories/SpecLim.v
theories/SpecMat.v
theories/SpecNet.v
theories/SpecPerm.v
theories/SpecProb.v
theories/SpecQC.v
theories/SpecR.v
theories/SpecRound.v
theories/SpecSample.v
theories/SpecSep.v
theories/SpecStates.v
theories/SpecSym.v
theories/Witness.v
