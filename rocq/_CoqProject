-Q theories Verif
theories/Alloc.v
theories/AllocProofs.v
theories/Async.v
theories/AsyncNested.v
theories/AsyncProofs.v
theories/AsyncSpec.v
theories/AsyncTrunk.v
theories/Base.v
theories/Btree.v
theories/BtreeFlatProofs.v
theories/BtreeIter.v
theories/BtreeIterProofs.v
theories/BtreeLeafProofs.v
theories/BtreeMapProofs.v
theories/BtreeProofs.v
theories/BtreeRunProofs.v
theories/BtreeScanProofs.v
theories/CBtree.v
theories/CBtreeEnd.v
theories/CBtreeFin.v
theories/CBtreeInv.v
theories/CBtreeLin.v
theories/CBtreeLive.v
theories/CBtreeProofs.v
theories/CBtreeRest.v
theories/CBtreeSees.v
theories/CBtreeSpec.v
theories/CBtreeSplit.v
theories/CScan.v
theories/CScanLive.v
theories/CScanProofs.v
theories/CScanSees.v
theories/CScanSpec.v
theories/CTrunk.v
theories/CTrunkDrain.v
theories/CTrunkEnd.v
theories/CTrunkFilter.v
theories/CTrunkInv.v
theories/CTrunkLin.v
theories/CTrunkLive.v
theories/CTrunkOps.v
theories/CTrunkPath.v
theories/CTrunkProofs.v
theories/CTrunkSees.v
theories/CTrunkSpec.v
theories/CTrunkSteps.v
theories/CTrunkWay.v
theories/Cache.v
theories/CacheClean.v
theories/CacheData.v
theories/CacheDataProofs.v
theories/CacheDataSpec.v
theories/CacheFlush.v
theories/CacheLocal.v
theories/CacheMap.v
theories/CacheProofs.v
theories/CacheSpec.v
theories/Codec.v
theories/CodecProofs.v
theories/Config.v
theories/ConfigProofs.v
theories/Count.v
theories/CountProofs.v
theories/DataProofs.v
theories/Filter.v
theories/FilterEncProofs.v
theories/FilterProofs.v
theories/FilterSortProofs.v
theories/Hex.v
theories/HexProofs.v
theories/Keyed.v
theories/KeyedProofs.v
theories/Life.v
theories/LifeHistory.v
theories/LifeProofs.v
theories/LifeSpec.v
theories/Log.v
theories/LogProofs.v
theories/LogSpec.v
theories/Merge.v
theories/MergeCursorProofs.v
theories/MergeProofs.v
theories/MergeRawProofs.v
theories/MergeRunProofs.v
theories/MergeScanProofs.v
theories/Mini.v
theories/MiniProofs.v
theories/Mtable.v
theories/MtableHist.v
theories/MtableInv.v
theories/MtableKeep.v
theories/MtableLin.v
theories/MtableLive.v
theories/MtableProofs.v
theories/MtableSlot.v
theories/Pack.v
theories/PackCountProofs.v
theories/PackProofs.v
theories/PackedArr.v
theories/PackedArrProofs.v
theories/Page.v
theories/PageBytes.v
theories/PageBytesProofs.v
theories/PageProofs.v
theories/Parse.v
theories/ParseProofs.v
theories/Pcq.v
theories/PcqProofs.v
theories/Prop_Alloc.v
theories/Prop_Async.v
theories/Prop_AsyncNested.v
theories/Prop_Btree.v
theories/Prop_BtreeIter.v
theories/Prop_CBtree.v
theories/Prop_CScan.v
theories/Prop_CTrunk.v
theories/Prop_CTrunkDrain.v
theories/Prop_CTrunkFilter.v
theories/Prop_Cache.v
theories/Prop_CacheData.v
theories/Prop_Config.v
theories/Prop_Data.v
theories/Prop_Filter.v
theories/Prop_Keyed.v
theories/Prop_Life.v
theories/Prop_Log.v
theories/Prop_Merge.v
theories/Prop_Mini.v
theories/Prop_Mtable.v
theories/Prop_Pack.v
theories/Prop_PackedArr.v
theories/Prop_Page.v
theories/Prop_Parse.v
theories/Prop_Pcq.v
theories/Prop_Range.v
theories/Prop_Refs.v
theories/Prop_Ring.v
theories/Prop_Rwlock.v
theories/Prop_Search.v
theories/Prop_Shm.v
theories/Prop_Split.v
theories/Prop_Srq.v
theories/Prop_Task.v
theories/Prop_Tid.v
theories/Prop_Trunk.v
theories/Prop_WBuf.v
theories/Range.v
theories/RangeProofs.v
theories/RangeSpec.v
theories/Refs.v
theories/RefsCount.v
theories/RefsFlush.v
theories/RefsInv.v
theories/RefsJobs.v
theories/RefsLedger.v
theories/RefsProofs.v
theories/RefsSpec.v
theories/RefsSplit.v
theories/RefsUse.v
theories/Ring.v
theories/RingProofs.v
theories/Rwlock.v
theories/RwlockProofs.v
theories/Search.v
theories/SearchProofs.v
theories/Shm.v
theories/ShmProofs.v
theories/ShmSpec.v
theories/Spec.v
theories/Spec_Linear.v
theories/Spec_Merge.v
theories/Spec_Parse.v
theories/Spec_Queue.v
theories/Spec_Range.v
theories/Split.v
theories/SplitProofs.v
theories/Srq.v
theories/SrqProofs.v
theories/Task.v
theories/TaskProofs.v
theories/Tid.v
theories/TidProofs.v
theories/TrunkAlpha.v
theories/TrunkClear.v
theories/TrunkEffects.v
theories/TrunkFlush.v
theories/TrunkInstall.v
theories/TrunkInv.v
theories/TrunkInvBuild.v
theories/TrunkInvCompact.v
theories/TrunkInvFlush.v
theories/TrunkInvJob.v
theories/TrunkInvMem.v
theories/TrunkInvNode.v
theories/TrunkInvReplace.v
theories/TrunkInvSplit.v
theories/TrunkKeys.v
theories/TrunkLegal.v
theories/TrunkLookup.v
theories/TrunkNode.v
theories/TrunkOps.v
theories/TrunkRep.v
theories/TrunkReplace.v
theories/TrunkReset.v
theories/TrunkRing.v
theories/TrunkShape.v
theories/TrunkSplit.v
theories/TrunkSplitEff.v
theories/TrunkTree.v
theories/TrunkView.v
theories/WBuf.v
theories/WBufProofs.v
theories/Witness.v
