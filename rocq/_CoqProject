-Q theories Verif
theories/AesCipherModel.v
theories/AesCipherProofs.v
theories/AesCipherProps.v
theories/AesExact.v
theories/AesModel.v
theories/AesProps.v
theories/AesSpecProps.v
theories/AesStdProps.v
theories/AgreeProps.v
theories/Base.v
theories/Base64Props.v
theories/BcryptModel.v
theories/BcryptProps.v
theories/BcryptRecModel.v
theories/BcryptRecProps.v
theories/BitSetModel.v
theories/BitSetProofs.v
theories/BitSetProps.v
theories/BitSetSpec.v
theories/CloseConcModel.v
theories/CloseConcProps.v
theories/CloseEndProps.v
theories/CloseFairProps.v
theories/CloseModel.v
theories/CloseNetEndProps.v
theories/CloseNetModel.v
theories/CloseNetProps.v
theories/CloseProofs.v
theories/CloseProps.v
theories/CloseTreeModel.v
theories/CloseTreeProps.v
theories/CmdModel.v
theories/CmdProps.v
theories/CmdWdModel.v
theories/CmdWdProps.v
theories/Conc.v
theories/ConvConcModel.v
theories/ConvConcProofs.v
theories/ConvConcProps.v
theories/ConvEndProps.v
theories/ConvExactProps.v
theories/ConvFloat.v
theories/ConvMainModel.v
theories/ConvMainProps.v
theories/ConvModel.v
theories/ConvNearest.v
theories/ConvNearestProps.v
theories/ConvProofs.v
theories/ConvProofs2.v
theories/ConvProps.v
theories/ConvRWEndProps.v
theories/ConvRWModel.v
theories/ConvRWProofs.v
theories/ConvRWProps.v
theories/ConvUtf8.v
theories/DecByteExec.v
theories/DecByteModel.v
theories/DecByteProofs.v
theories/DecByteProofs2.v
theories/DecByteProofs3.v
theories/DecByteProofs4.v
theories/DecByteProps.v
theories/DecExactProofs.v
theories/DecExactProps.v
theories/DecExactSpec.v
theories/DecMRModel.v
theories/DecMRProofs.v
theories/DecMRProps.v
theories/DecModel.v
theories/DecProofs.v
theories/DecProofs2.v
theories/DecProofs3.v
theories/DecProps.v
theories/DecReModel.v
theories/DecReProofs.v
theories/DecReProps.v
theories/DecRoomProofs.v
theories/DecRoomProps.v
theories/DecSoloProofs.v
theories/DecSoloProps.v
theories/DequeModel.v
theories/DequeProofs.v
theories/DequeProps.v
theories/DequeSafe.v
theories/DequeSpec.v
theories/DequeUseProofs.v
theories/DequeUseProofs2.v
theories/DequeUseProps.v
theories/DequeUseSpec.v
theories/Fair.v
theories/FuncModel.v
theories/FuncProps.v
theories/GPoolLinkProps.v
theories/GPoolModel.v
theories/GPoolProofs.v
theories/GPoolProps.v
theories/GPoolSpec.v
theories/GhashField.v
theories/GhashPrimes.v
theories/GoSlice.v
theories/InterExactProps.v
theories/InterModel.v
theories/InterProofs.v
theories/InterProps.v
theories/InterSpec.v
theories/KeepProps.v
theories/LazyEndProps.v
theories/LazyFairProps.v
theories/LazyModel.v
theories/LazyNetEndProps.v
theories/LazyNetModel.v
theories/LazyNetProps.v
theories/LazyProofs.v
theories/LazyProps.v
theories/LazyReModel.v
theories/LazyReProps.v
theories/LazySameProps.v
theories/Lin.v
theories/LinkedChain.v
theories/LinkedHeap.v
theories/LinkedIterModel.v
theories/LinkedIterProofs.v
theories/LinkedIterProps.v
theories/LinkedIterSpec.v
theories/LinkedListExact.v
theories/LinkedListExactSpec.v
theories/LinkedListModel.v
theories/LinkedListProofs.v
theories/LinkedListProps.v
theories/LinkedListSpec.v
theories/LinkedQueueModel.v
theories/LinkedQueueProofs.v
theories/LinkedQueueProofs2.v
theories/LinkedQueueProps.v
theories/LinkedQueueSpec.v
theories/LinkedStackModel.v
theories/LinkedStackProofs.v
theories/LinkedStackProps.v
theories/LinkedStackSpec.v
theories/ListIterProps.v
theories/LockFairProps.v
theories/LockModel.v
theories/LockNestModel.v
theories/LockNestProps.v
theories/LockProofs.v
theories/LockProps.v
theories/MutexDrain.v
theories/MutexModel.v
theories/MutexProofs.v
theories/MutexProps.v
theories/OrdAnyProofs.v
theories/OrdAnyProps.v
theories/OrdExactModel.v
theories/OrdExactProofs.v
theories/OrdExactProps.v
theories/OrdExactSpec.v
theories/OrdMapModel.v
theories/OrdMapProofs.v
theories/OrdMapProps.v
theories/OrdMapSpec.v
theories/OrdRangeModel.v
theories/OrdRangeProofs.v
theories/OrdRangeProps.v
theories/OwnMuModel.v
theories/OwnMuProps.v
theories/OwnMuReProps.v
theories/PDeqCount.v
theories/PDeqDrainProps.v
theories/PDeqModel.v
theories/PDeqProofs.v
theories/PDeqProps.v
theories/PDeqSpec.v
theories/PassModel.v
theories/PassProofs.v
theories/PassProps.v
theories/PassStrModel.v
theories/PassStrProps.v
theories/PdqModel.v
theories/PdqProofs.v
theories/PdqProps.v
theories/PdqStable.v
theories/PoolAgainProofs.v
theories/PoolAgainProps.v
theories/PoolExitModel.v
theories/PoolExitProps.v
theories/PoolFairProofs.v
theories/PoolFairProps.v
theories/PoolIdleProofs.v
theories/PoolIdleProps.v
theories/PoolModel.v
theories/PoolMuModel.v
theories/PoolMuProofs.v
theories/PoolMuProofs2.v
theories/PoolMuProps.v
theories/PoolOrderProps.v
theories/PoolOwnMuJobProps.v
theories/PoolOwnMuProps.v
theories/PoolProofs.v
theories/PoolProofs2.v
theories/PoolProofs3.v
theories/PoolProps.v
theories/PoolRaceProps.v
theories/PoolReModel.v
theories/PoolReProofs.v
theories/PoolReProps.v
theories/PoolRefuseProps.v
theories/RWFairProofs.v
theories/RWModel.v
theories/RWMuModel.v
theories/RWMuProofs.v
theories/RWMuProps.v
theories/RWProofs.v
theories/RaceSpec.v
theories/RecDecModel.v
theories/RecDecProps.v
theories/RecDecSpec.v
theories/RecModel.v
theories/RecProofs.v
theories/RecProps.v
theories/RecSpec.v
theories/RingModel.v
theories/RingProofs.v
theories/RingProps.v
theories/RingSpec.v
theories/SeqSpec.v
theories/ShaSpecProps.v
theories/SigModel.v
theories/SigProofs.v
theories/SigProps.v
theories/SklAnyProofs.v
theories/SklAnyProps.v
theories/SklAnySpec.v
theories/SklAverage.v
theories/SklExactModel.v
theories/SklExactProofs.v
theories/SklExactProps.v
theories/SklExactSpec.v
theories/SklIterProofs.v
theories/SklLevelModel.v
theories/SklLevelProofs.v
theories/SklLevelProps.v
theories/SklModel.v
theories/SklProofs.v
theories/SklProps.v
theories/SklReachProofs.v
theories/SklRefine.v
theories/SklSpec.v
theories/SleepFairProps.v
theories/SleepModel.v
theories/SleepProofs.v
theories/SleepProps.v
theories/SleepRaceProps.v
theories/SliceExactProps.v
theories/SliceHistory.v
theories/SliceModel.v
theories/SlicePanicModel.v
theories/SlicePanicProps.v
theories/SliceProofs.v
theories/SliceProofs2.v
theories/SliceProps.v
theories/SliceReModel.v
theories/SliceReProofs.v
theories/SliceReProps.v
theories/SliceShuffleProps.v
theories/SliceSpec.v
theories/SliceSpreadProps.v
theories/SliceStackModel.v
theories/SliceStackProofs.v
theories/SliceStackProps.v
theories/SliceStackSpec.v
theories/SortCostProofs.v
theories/SortEffModel.v
theories/SortEffProofs.v
theories/SortEffProps.v
theories/SortEffSim.v
theories/SortModel.v
theories/SortProofs.v
theories/SortProps.v
theories/SplitMixModel.v
theories/SplitMixProofs.v
theories/SplitMixProps.v
theories/StrUnderProps.v
theories/StrconvExpProps.v
theories/StrconvFormat.v
theories/StrconvModel.v
theories/StrconvParse.v
theories/StrconvProps.v
theories/StrconvRound.v
theories/StrconvShape.v
theories/StrconvSingle.v
theories/StrconvSingleProps.v
theories/SyncMapEndProps.v
theories/SyncMapEqModel.v
theories/SyncMapEqProofs.v
theories/SyncMapEqProps.v
theories/SyncMapKeyProps.v
theories/SyncMapModel.v
theories/SyncMapProofs.v
theories/SyncMapProps.v
theories/SyncMapRWFairProofs.v
theories/SyncMapRWModel.v
theories/SyncMapRWProofs.v
theories/SyncMapRWProps.v
theories/SyncPoolModel.v
theories/SyncPoolProps.v
theories/TimeAllProps.v
theories/TimeDivProofs.v
theories/TimeDivProps.v
theories/TimeEveryProps.v
theories/TimeModel.v
theories/TimeProofs.v
theories/TimeProps.v
theories/TimeSpec.v
theories/TimexModel.v
theories/TimexProps.v
theories/ZeroDecModel.v
theories/ZeroDecProps.v
theories/ZeroMapModel.v
theories/ZeroMapProps.v
theories/ZeroPoolModel.v
theories/ZeroPoolProps.v
theories/ZeroProps.v
theories/ZeroSpec.v
theories/ZeroSyncModel.v
theories/ZeroSyncPoolProps.v
theories/ZeroSyncProps.v
