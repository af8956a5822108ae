-Q theories Verif
theories/Base.v
theories/SubscrModel.v
theories/OpsModel.v
theories/SubscrProofs.v
theories/OpsSpec.v
theories/OpsProofs.v
theories/OpsSem.v
theories/OpsMean.v
theories/OpsPipe.v
theories/PropPipelines.v
theories/OpsQuiet.v
theories/PropQuiet.v
theories/ObsModel.v
theories/ObsSim.v
theories/ObsPrint.v
theories/PropObs.v
theories/TrackModel.v
theories/TrackProofs.v
theories/PropTrack.v
theories/TSubjModel.v
theories/TSubjProofs.v
theories/TSubjCalls.v
theories/PropTSubj.v
theories/SharedModel.v
theories/SharedSpec.v
theories/SharedProofs.v
theories/PropShared.v
theories/SubjectModel.v
theories/SubjectSpec.v
theories/SubjectProofs.v
theories/SubjectMore.v
theories/SubjectAsync.v
theories/ProvModel.v
theories/ProvProofs.v
theories/PubPanicModel.v
theories/PubPanicProofs.v
theories/PropSubjects.v
theories/PropPubPanic.v
theories/PubConcModel.v
theories/PubConcSpec.v
theories/PubConcProofs.v
theories/PubConcTold.v
theories/PubConcTable.v
theories/PubConcOrder.v
theories/PubConcArrive.v
theories/PubConcHear.v
theories/PubConcEnd.v
theories/PubConcMain.v
theories/PubConcBefore.v
theories/PubConcClosed.v
theories/PropPubConc.v
theories/StoreConcModel.v
theories/StoreConcSpec.v
theories/StoreConcProofs.v
theories/StoreConcMain.v
theories/PropStoreConc.v
theories/StoreConcAsync.v
theories/PropStoreAsync.v
theories/SchedModel.v
theories/SchedSpec.v
theories/SchedProofs.v
theories/SchedExec.v
theories/SchedMore.v
theories/SchedTerm.v
theories/PropSched.v
theories/TimeModel.v
theories/TimeLift.v
theories/TimeSpec.v
theories/TimeProofs.v
theories/TimeDelay.v
theories/TimeObserve.v
theories/TimeDebounce.v
theories/TimeFallback.v
theories/TimeTimer.v
theories/TimeOnTick.v
theories/TimeInterval.v
theories/TimeThrottle.v
theories/TimeMore.v
theories/TimeFacts.v
theories/PropTime.v
theories/TimeReModel.v
theories/TimeReSpec.v
theories/TimeReProofs.v
theories/TimeReDelay.v
theories/TimeReObserve.v
theories/TimeReDebounce.v
theories/PropTimeRe.v
theories/TimeReMoreModel.v
theories/TimeReMoreSpec.v
theories/TimeReMoreProofs.v
theories/TimeReFallback.v
theories/TimeReThrottle.v
theories/PropTimeReMore.v
theories/LifeModel.v
theories/LifeProofs.v
theories/PropLife.v
theories/FloatModel.v
theories/FloatFacts.v
theories/AdsrModel.v
theories/AdsrProofs.v
theories/AdsrSpec.v
theories/AdsrTime.v
theories/AdsrAny.v
theories/AdsrValue.v
theories/PropAdsr.v
theories/PropAdsrValue.v
theories/CombModel.v
theories/CombSpec.v
theories/CombProofs.v
theories/CombZip.v
theories/CombMore.v
theories/PropComb.v
theories/CombSubModel.v
theories/CombSubSpec.v
theories/CombSubProofs.v
theories/PropCombSub.v
theories/HoModel.v
theories/HoSpec.v
theories/HoProofs.v
theories/HoConc.v
theories/HoConc2.v
theories/HoConc3.v
theories/HoConc4.v
theories/HoStop.v
theories/HoOne.v
theories/HoOne2.v
theories/HoOne3.v
theories/HoOne4.v
theories/HoAll.v
theories/PropHigh.v
theories/CatchModel.v
theories/CatchSpec.v
theories/CatchProofs.v
theories/PropCatch.v
theories/RetryModel.v
theories/RetrySpec.v
theories/RetryProofs.v
theories/RetrySync.v
theories/PropRetry.v
theories/ShareModel.v
theories/ShareSpec.v
theories/ShareProofs.v
theories/ShareRun.v
theories/PropShare.v
theories/SourceModel.v
theories/SourceProofs.v
theories/PropSource.v
theories/SubsnModel.v
theories/SubsnProofs.v
theories/SubsnShape.v
theories/SubsnDrop.v
theories/PropSubsn.v
theories/PollModel.v
theories/PollSpec.v
theories/PollProofs.v
theories/PollFacts.v
theories/PollMsg.v
theories/PropPoll.v
theories/PollReModel.v
theories/PollReSpec.v
theories/PollRe.v
theories/PropPollRe.v
theories/EcsModel.v
theories/EcsSpec.v
theories/EcsProofs.v
theories/EcsFacts.v
theories/PropEcs.v
theories/CompModel.v
theories/CompSpec.v
theories/CompProofs.v
theories/CompMain.v
theories/PropComp.v
theories/MergeModel.v
theories/MergeSpec.v
theories/HoMerge.v
theories/HoSync.v
theories/PropMerge.v
theories/SubOnModel.v
theories/SubOnSpec.v
theories/SubOn.v
theories/PropSubOn.v
theories/DestModel.v
theories/DestSpec.v
theories/Dest.v
theories/PropDest.v
theories/EvModel.v
theories/EvSpec.v
theories/EvWorld.v
theories/Ev.v
theories/PropEv.v
theories/PanicModel.v
theories/PanicSpec.v
theories/PanicProofs.v
theories/PropPanic.v
theories/FlatModel.v
theories/FlatSpec.v
theories/FlatProofs.v
theories/PropFlat.v
theories/TestModel.v
theories/TestProofs.v
theories/TestSim.v
theories/PropTest.v
