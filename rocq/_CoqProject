-Q theories Verif
theories/Base.v
theories/Spec.v
theories/BaseFacts.v
theories/VecDiff.v
theories/VecSpec.v
theories/LoopFacts.v
theories/Slot.v
theories/SlotFacts.v
theories/Sig.v
theories/SigSlots.v
theories/SigFacts.v
theories/SigSlotsFacts.v
theories/SigFutFacts.v
theories/SigFlatFacts.v
theories/MapMutFacts.v
theories/PropsSignal.v
theories/VecSimple.v
theories/VecFacts.v
theories/VecToSignal.v
theories/VecToSignalFacts.v
theories/VecSimpleFacts.v
theories/EnumerateFacts.v
theories/VecDiffFacts.v
theories/MutVec.v
theories/MutVecSpec.v
theories/MutVecFacts.v
theories/MutVecRun.v
theories/MutVecSends.v
theories/PropsSends.v
theories/SortSpec.v
theories/Sort.v
theories/SortFacts.v
theories/PropsSort.v
theories/VecSlotFacts.v
theories/Chain.v
theories/ChainFacts.v
theories/PropsChain.v
theories/PropsMutVec.v
theories/PropsVec.v
theories/PropsVecSignal.v
theories/WakeFacts.v
theories/PropsWake.v
theories/Flatten.v
theories/FlattenFacts.v
theories/PropsFlatten.v
theories/ElemSignal.v
theories/ElemSignalFacts.v
theories/PropsElemSignal.v
theories/DelaySpec.v
theories/DelayRemove.v
theories/DelayFacts.v
theories/PropsDelay.v
theories/SwitchVec.v
theories/SwitchVecFacts.v
theories/PropsSwitchVec.v
theories/MapDiff.v
theories/MapSpec.v
theories/MapFacts.v
theories/Mpsc.v
theories/MutMap.v
theories/MutMapSpec.v
theories/MutMapFacts.v
theories/MapComb.v
theories/MapCombFacts.v
theories/MapValueSignalFacts.v
theories/MapViewFacts.v
theories/PropsMap.v
theories/Conc.v
theories/AtomicOption.v
theories/AtomicOptionFacts.v
theories/Channel.v
theories/ChannelFacts.v
theories/PropsChannel.v
theories/Mutable.v
theories/MutableFacts.v
theories/MutableFacts2.v
theories/MutableFacts3.v
theories/MutableFacts4.v
theories/MutableFacts5.v
theories/MutableFacts6.v
theories/MutableFacts7.v
theories/MutableFacts8.v
theories/MutableFacts9.v
theories/MutableFacts10.v
theories/MutableFacts11.v
theories/MutableFacts12.v
theories/MutableFacts13.v
theories/MutableEx.v
theories/PropsMutable.v
theories/CancelFuture.v
theories/CancelFutureFacts.v
theories/PropsFuture.v
theories/Broadcaster.v
theories/BroadcasterFacts.v
theories/BroadcasterUse.v
theories/BroadcasterLeak.v
theories/PropsBroadcaster.v
theories/Executor.v
theories/ExecutorFacts.v
theories/ExecutorRun.v
theories/ExecutorLive.v
theories/ExecutorUse.v
theories/ExecutorEnd.v
theories/PropsExecutor.v
theories/ExecutorQuiet.v
theories/PropsQuiet.v
theories/ExecutorTidy.v
theories/PropsTidy.v
theories/VecCalm.v
theories/VecExec.v
theories/VecExecFacts.v
theories/VecExecRun.v
theories/VecExecEnd.v
theories/VecExecUse.v
theories/VecExecTame.v
theories/VecExecLive.v
theories/PropsVecExec.v
theories/Shared.v
theories/SharedFacts.v
theories/PropsShared.v
theories/Weak.v
theories/WeakFacts.v
theories/PropsWeak.v
theories/Economy.v
theories/MapEconomy.v
theories/PropsEconomy.v
theories/Views.v
theories/ViewsSpec.v
theories/ViewsFacts.v
theories/ViewsRun.v
theories/ViewsEnd.v
theories/ViewsMach.v
theories/ViewsProg.v
theories/ViewsPrompt.v
theories/ViewsAll.v
theories/Handles.v
theories/PropsViews.v
theories/Compose.v
theories/ComposeFacts.v
theories/PropsCompose.v
theories/Alert.v
theories/AlertFacts.v
theories/PropsAlert.v
theories/Rest.v
theories/RestFacts.v
theories/PropsRest.v
theories/FlattenSpec.v
theories/FlattenStep.v
theories/PropsFlattenStep.v
theories/FilterSignalSpec.v
theories/FilterSignalStep.v
theories/FilterSignalBad.v
theories/PropsFilterSignalStep.v
theories/FilterSpec.v
theories/FilterSince.v
theories/PropsFilterSince.v
theories/Poison.v
theories/PoisonFacts.v
theories/PoisonFacts2.v
theories/PropsPoison.v
theories/Caught.v
theories/CaughtFacts.v
theories/CaughtBack.v
theories/PropsCaught.v
theories/BroadPanic.v
theories/BroadPanicFacts.v
theories/PropsBroadPanic.v
theories/MapCaught.v
theories/MapCaughtFacts.v
theories/PropsMapCaught.v
theories/Locks.v
theories/LocksFacts.v
theories/PropsLocks.v
theories/CancelPanic.v
theories/CancelPanicFacts.v
theories/PropsCancelPanic.v
