-Q theories Verif
theories/Base.v
theories/BaseLemmas.v
theories/Spec.v
theories/MTypes.v
theories/MKernel.v
theories/MPMinimal.v
theories/MLowerBounding.v
theories/MBiOptSat.v
theories/EncSpec.v
theories/Inst.v
theories/Wp.v
theories/Sem.v
theories/Kern.v
theories/Yield.v
theories/PMin.v
theories/PMinTop.v
theories/LBTop.v
theories/Linsu.v
theories/BiTop.v
theories/Init.v
theories/ApiSpec.v
theories/Ext.v
theories/Blk.v
theories/MRelease.v
theories/Struct.v
theories/Api.v
theories/Book.v
theories/StopAt.v
theories/FeasInv.v
theories/Intr.v
theories/LogSpec.v
theories/LogBal.v
theories/ExInst.v
theories/ApiThm.v
theories/ApiTop.v
theories/BookTop.v
theories/ReachTop.v
theories/PropFront.v
theories/PropRefuted.v
theories/PropBook.v
theories/PropMisc.v
theories/MPrepro.v
theories/PreSpec.v
theories/PreproThm.v
theories/ReindexThm.v
theories/MMain.v
theories/PreTop.v
theories/PreInst.v
theories/FileThm.v
theories/PropPre.v
theories/MOll.v
theories/TotSpec.v
theories/TotInst.v
theories/OllSide.v
theories/OllData.v
theories/OllThm.v
theories/OllRun.v
theories/OllRelax.v
theories/OllMain.v
theories/CbMerge.v
theories/CbTop.v
theories/CbSpec.v
theories/CbApi.v
theories/CbHist.v
theories/CbStop.v
theories/Diverge.v
theories/Static.v
theories/OllTop.v
theories/PropCore.v
theories/LogCb.v
theories/CbFront.v
theories/MTerm.v
theories/MCli.v
theories/CliSpec.v
theories/CliThm.v
theories/TermThm.v
theories/PropCli.v
theories/VeriPB.v
theories/VeriThm.v
theories/MProofs.v
theories/ProofThm.v
theories/ProofRun.v
theories/ProofCut.v
theories/ProofCert.v
theories/ProofFin.v
theories/PropProof.v
theories/MTracer.v
theories/TracerThm.v
theories/PropTracer.v
theories/MReform.v
theories/ReformSpec.v
theories/ReformThm.v
theories/ReformRun.v
theories/ReformInv.v
theories/ReformFin.v
theories/PropReform.v
theories/MProofAlg.v
theories/ReifSpec.v
theories/ReifThm.v
theories/ReifRun.v
theories/LinsuCert.v
theories/PropReif.v
theories/BlockSpec.v
theories/BlockThm.v
theories/PropBlock.v
theories/BosSpec.v
theories/BosThm.v
theories/PropBos.v
theories/RunSpec.v
theories/RunThm.v
theories/RunSol.v
theories/PropRun.v
theories/BosRunSpec.v
theories/BosRunThm.v
theories/PropBosRun.v
theories/BoostSpec.v
theories/BoostThm.v
theories/PropBoost.v
theories/MProofRun.v
theories/FrontThm.v
theories/PropFrontProof.v
theories/MProofBos.v
theories/BosFrontThm.v
theories/PropBosFront.v
theories/PropSame.v
theories/ResumeSpec.v
theories/ResumeTop.v
theories/PropResume.v
theories/MExit.v
theories/PropExit.v
theories/MProofPre.v
theories/PreProofSpec.v
theories/PreProofThm.v
theories/PreProofInst.v
theories/PropPreProof.v
theories/MCheck.v
theories/PropCheck.v
theories/PropCbStop.v
theories/FinalSpec.v
theories/Final.v
theories/PropFinal.v
theories/MMaxPre.v
theories/MaxPreSpec.v
theories/MaxPreThm.v
theories/PropMaxPre.v
theories/MInpro.v
theories/InproSpec.v
theories/InproThm.v
theories/PropInpro.v
theories/MTight.v
theories/TightSpec.v
theories/TightThm.v
theories/PropTight.v
theories/PropCbResume.v
theories/MPrint.v
theories/TextSpec.v
theories/TextThm.v
theories/PropText.v
theories/InproOkSpec.v
theories/InproSlots.v
theories/InproOk.v
theories/InproOkTop.v
theories/PropInproOk.v
theories/SyncSpec.v
theories/SyncThm.v
theories/PropSync.v
theories/SyncOll.v
theories/PropSyncCb.v
theories/InproLog.v
theories/PropInproLog.v
theories/MTightAlg.v
theories/TightAlgSpec.v
theories/TightRun.v
theories/TightSim.v
theories/PropTightAlg.v
theories/PropTightCb.v
theories/TightStale.v
theories/TightStaleTop.v
theories/TightStaleApi.v
theories/PropTightShared.v
theories/LogStruct.v
theories/LogTrue.v
theories/PropLogged.v
theories/LogBoost.v
theories/PropLoggedCb.v
theories/LogCount.v
theories/PropCount.v
