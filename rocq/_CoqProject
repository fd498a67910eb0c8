-Q theories Verif
theories/Spec.v
theories/Vec.v
theories/Net.v
theories/Graded.v
theories/Bits.v
theories/Util.v
theories/OutputSetModel.v
theories/OutputSetProofs.v
theories/PruneProofs.v
theories/PackProofs.v
theories/CountProofs.v
theories/PropOutputSet.v
theories/HuffmanModel.v
theories/HuffmanProofs.v
theories/PropHuffman.v
theories/VerifiedCheckerModel.v
theories/VerifiedCheckerProofs.v
theories/RefCheckerModel.v
theories/RefCheckerProofs.v
theories/PropChecker.v
theories/DecodeModel.v
theories/AgreeProofs.v
theories/DecodeProofs.v
theories/PropDecode.v
theories/AbsProofs.v
theories/AbsFull.v
theories/SubsumeModel.v
theories/SubsumeProofs.v
theories/SubsumeSearch.v
theories/PropSubsume.v
theories/CanonModel.v
theories/CanonBits.v
theories/CanonParts.v
theories/CanonProofs.v
theories/CanonSteps.v
theories/CanonLoop.v
theories/CanonNew.v
theories/PropCanon.v
theories/TreeModel.v
theories/TreeProofs.v
theories/TreeTraverse.v
theories/TreeMut.v
theories/TreeBuild.v
theories/IndexModel.v
theories/IndexSpec.v
theories/IndexTests.v
theories/IndexProofs.v
theories/IndexInsert.v
theories/IndexHist.v
theories/PropIndex.v
theories/StatesModel.v
theories/StatesProofs.v
theories/StatesBounds.v
theories/PropStates.v
theories/SearchModel.v
theories/SearchFacts.v
theories/SearchInv.v
theories/SearchEdges.v
theories/SearchStep.v
theories/SearchFrames.v
theories/SearchGlobal.v
theories/SearchRun.v
theories/SearchSafe.v
theories/SearchOrder.v
theories/SearchWaits.v
theories/SearchMain.v
theories/PropSearch.v
theories/FileModel.v
theories/LogModel.v
theories/ProofGenModel.v
theories/FileProofs.v
theories/DumpProofs.v
theories/PruneLogProofs.v
theories/CrashProofs.v
theories/PropLog.v
theories/GenLoad.v
theories/GenSteps.v
theories/GenEncode.v
theories/GenCheck.v
theories/GenMain.v
theories/GenAccept.v
theories/PropGen.v
theories/FixModel.v
theories/PropFix.v
theories/PoolModel.v
theories/PoolProofs.v
theories/PropPool.v
theories/GnpModel.v
theories/GnpProofs.v
theories/PropGnp.v
theories/SearchClosed.v
theories/SearchSlack.v
theories/SearchGood.v
theories/SearchQuiet.v
theories/SearchReach.v
theories/SearchNext.v
theories/SearchHuff.v
theories/SearchHold.v
theories/SearchLive.v
theories/PropLive.v
theories/SearchTop.v
theories/SearchLeft.v
theories/GenComplete.v
theories/PipeProofs.v
theories/PropPipe.v
theories/CliModel.v
theories/PropCli.v
theories/SearchReady.v
theories/SearchCost.v
theories/SearchSpend.v
theories/SearchWork.v
theories/SearchFair.v
theories/SearchPend.v
theories/SearchEnds.v
theories/PropFair.v
theories/CanonArenaModel.v
theories/CanonArenaProofs.v
theories/PropArena.v
theories/ExecModel.v
theories/ExecFacts.v
theories/ExecInv.v
theories/ExecStep.v
theories/ExecRun.v
theories/PropExec.v
theories/ExecOther.v
theories/ExecLive.v
theories/PropExecLive.v
theories/MachineModel.v
theories/MachineProofs.v
theories/PropMachine.v
theories/SubsumeMachModel.v
theories/SubsumeMachProofs.v
theories/PropSubsumeMach.v
theories/PropWhole.v
theories/FlatModel.v
theories/FlatProofs.v
theories/FlatIndex.v
theories/PropFlat.v
theories/IndexMachModel.v
theories/IndexMachProofs.v
theories/PropIndexMach.v
theories/CanonMachModel.v
theories/CanonMachParts.v
theories/CanonMachProofs.v
theories/PropCanonMach.v
theories/StatesMachModel.v
theories/StatesMachProofs.v
theories/PropStatesMach.v
theories/SearchMachModel.v
theories/SearchMachReq.v
theories/SearchMachProofs.v
theories/SearchMachRun.v
theories/PropSearchMach.v
theories/BackMachModel.v
theories/BackMachProofs.v
theories/PropBackMach.v
theories/ProgModel.v
theories/ProgProofs.v
theories/ProgLive.v
theories/PropProg.v
theories/PropAll.v
theories/SearchOwned.v
theories/SearchRest.v
theories/ExecRest.v
theories/ScopeModel.v
theories/ScopeProofs.v
theories/ScopeRest.v
theories/ScopeLive.v
theories/PropScope.v
theories/PropCert.v
theories/PropFinal.v
theories/JobsModel.v
theories/JobsProofs.v
theories/JobsAlone.v
theories/PropJobs.v
theories/GnpMachModel.v
theories/GnpMachProofs.v
theories/PropGnpMach.v
theories/CertModel.v
theories/CertProofs.v
theories/PropCertFile.v
theories/KillModel.v
theories/KillProofs.v
theories/PropKill.v
theories/DotModel.v
theories/DotProofs.v
theories/PropDot.v
theories/ScoreModel.v
theories/ScoreProofs.v
theories/PropScore.v
theories/RayonModel.v
theories/RayonProofs.v
theories/RayonOrder.v
theories/PropRayon.v
theories/PropChanAbs.v
