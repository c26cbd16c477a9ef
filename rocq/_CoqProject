-Q theories Verif
theories/Num.v
theories/Py.v
theories/SNum.v
theories/LSum.v
theories/MTools.v
theories/LTools.v
theories/PTools.v
theories/MSet.v
theories/SSet.v
theories/LSet.v
theories/PSet.v
theories/SPath.v
theories/MModels.v
theories/MLik.v
theories/MBW.v
theories/LFB.v
theories/LEM.v
theories/SBW.v
theories/LBW.v
theories/LBWSet.v
theories/LBWMC.v
theories/SLik.v
theories/LPath.v
theories/LLik.v
theories/LLik2.v
theories/PLik.v
theories/PLik2.v
theories/LBWLoop.v
theories/LBWPath.v
theories/SExp.v
theories/PBWMC.v
theories/LEMGen.v
theories/LBWHMM.v
theories/LFit.v
theories/PBWHMM.v
theories/LBWMDP.v
theories/PBWMDP.v
theories/LBWCT.v
theories/PBWCT.v
theories/PBWCTU.v
theories/LBWGO.v
theories/PBWGO.v
theories/MPool.v
theories/LPool.v
theories/PPool.v
theories/MCtor.v
theories/MRun.v
theories/MRandom.v
theories/SCtor.v
theories/LCtor.v
theories/PCtor.v
theories/PCtor2.v
theories/SRun.v
theories/LRun.v
theories/PRun.v
theories/PRandom.v
theories/MAlergia.v
theories/SAlergia.v
theories/LAlergia.v
theories/LAlergia2.v
theories/LAlergia3.v
theories/LAlergia4.v
theories/LAlergia5.v
theories/PAlergia.v
theories/MText.v
theories/SText.v
theories/LText.v
theories/PText.v
theories/MPrism.v
theories/SPrism.v
theories/LPrism.v
theories/PPrism.v
theories/MPrep.v
theories/PPrep.v
theories/MPctmc.v
theories/SPctmc.v
theories/LPctmc.v
theories/PPctmc.v
theories/PPctmc2.v
theories/PPctmc3.v
theories/MCompose.v
theories/SCompose.v
theories/LCompose.v
theories/PCompose.v
theories/MPCompose.v
theories/SPCompose.v
theories/LPCompose.v
theories/PPCompose.v
theories/MIOAlergia.v
theories/SIOAlergia.v
theories/LIOAlergia.v
theories/LIOAlergia2.v
theories/LIOAlergia3.v
theories/LIOAlergia4.v
theories/LIOAlergia5.v
theories/PIOAlergia.v
theories/PIOAlergia2.v
theories/MActive.v
theories/SActive.v
theories/PActive.v
theories/PActive2.v
theories/PActive3.v
theories/MPLearn.v
theories/SPLearn.v
theories/LMM.v
theories/LPLearn.v
theories/LPLearn2.v
theories/LPLearn3.v
theories/LPLearn4.v
theories/LPLearn5.v
theories/LPLearn6.v
theories/PPLearn.v
theories/PPLearn2.v
theories/PPLearn3.v
theories/MPRoot.v
theories/SPRoot.v
theories/PPRoot.v
theories/SPPrune.v
theories/LPPrune.v
theories/PPPrune.v
theories/MBWObj.v
theories/PBWObj.v
theories/MPText.v
theories/PPText.v
theories/MPPrism.v
theories/SPPrism.v
theories/PPPrism.v
theories/MStorm.v
theories/SStorm.v
theories/LStorm.v
theories/PStorm.v
theories/PStorm2.v
theories/PStorm3.v
theories/MInit.v
theories/LInit.v
theories/PInit.v
theories/PInit2.v
theories/PInit3.v
theories/PInit4.v
theories/PUse.v
theories/PInit5.v
theories/MFloat.v
theories/PFloat.v
theories/LAny.v
theories/PFloat2.v
theories/MPrint.v
theories/SPrint.v
theories/LPrint.v
theories/PPrint.v
theories/SLaw.v
theories/PLaw.v
theories/MAlph.v
theories/PAlph.v
theories/MPPrint.v
theories/PPrint2.v
theories/MPAcc.v
theories/PPAcc.v
theories/MSetNum.v
theories/PSetNum.v
theories/PLkl.v
theories/PRun3.v
theories/SSym.v
theories/LSym.v
theories/PSym.v
theories/PSym2.v
theories/PSym3.v
theories/PSymEx.v
theories/SGain.v
theories/LGain.v
theories/PGain.v
theories/PGain2.v
theories/PGainEx.v
theories/SGrad.v
theories/LGrad.v
theories/LGrad2.v
theories/PGrad.v
theories/PGrad2.v
theories/PGrad3.v
theories/PGradEx.v
theories/MRunFrom.v
theories/PRunFrom.v
theories/SLimit.v
theories/LLimit.v
theories/PLimit.v
theories/PLimit2.v
theories/PLimit3.v
theories/PLimitEx.v
theories/PLimit4.v
theories/PLimit4Ex.v
theories/PUse2.v
theories/SObs.v
theories/LObs.v
theories/PObs.v
theories/PObs2.v
theories/PObsEx.v
theories/SGibbs.v
theories/LGibbs.v
theories/PGibbs.v
theories/SRace.v
theories/PRace.v
theories/MExt.v
theories/MPScore.v
theories/LExt.v
theories/LExt2.v
theories/LExt3.v
theories/PExt.v
theories/PExt2.v
theories/PPScore.v
theories/PTight.v
theories/SGauss.v
theories/PGauss.v
theories/SSched.v
theories/PSched.v
theories/SExact.v
theories/LExact.v
theories/PExact.v
theories/LExact2.v
theories/PExact2.v
theories/PJoin.v
theories/SComp2.v
theories/PComp2.v
theories/PTight2.v
theories/SBest.v
theories/PBest.v
theories/PTight3.v
theories/SChance.v
theories/LChance.v
theories/LChance2.v
theories/PChance.v
theories/LChance3.v
theories/PConsist.v
theories/PConsist2.v
theories/PTight4.v
theories/LCut.v
theories/PCut.v
theories/PAnyFile.v
theories/SMany.v
theories/PMany.v
theories/PMany2.v
theories/PInstComp.v
theories/MPOrder.v
theories/PPOrder.v
theories/PEdge.v
theories/PEdge2.v
theories/PPSyncErr.v
theories/PObs3.v
theories/PObs4.v
theories/PObs5.v
theories/SVisible.v
theories/PVisible.v
theories/LStrict.v
theories/PStrict.v
theories/PGrad4.v
theories/LStrict2.v
theories/PStrict2.v
theories/PConst.v
theories/PConst2.v
theories/PConst3.v
theories/PConst4.v
