-Q theories Verif
theories/Base.v
theories/VecModel.v
theories/VecSpec.v
theories/VecProofs.v
theories/VecProofs2.v
theories/MiscModel.v
theories/MiscSpec.v
theories/MiscProofs.v
theories/VecExact.v
theories/Properties_Vec.v
theories/Properties_Misc.v
theories/MapSpec.v
theories/BTreeModel.v
theories/BTreeInv.v
theories/BTreeLemmas.v
theories/BTreeSearch.v
theories/BTreeInsert.v
theories/BTreeSurgery.v
theories/BTreeRemove.v
theories/BTreeIterModel.v
theories/BTreeIter.v
theories/BTreeStep.v
theories/IterSpec.v
theories/BTreeIterProofs.v
theories/BTreeRange.v
theories/BTreeBulkModel.v
theories/BTreeBorder.v
theories/BTreeSplit.v
theories/MergeSpec.v
theories/BTreeAppend.v
theories/BTreeClone.v
theories/BTreeOps.v
theories/SetSpec.v
theories/BTreeSetModel.v
theories/BTreeSets.v
theories/SpecFacts.v
theories/BTreeCollect.v
theories/BTreeCost.v
theories/LayoutModel.v
theories/Properties_Layout.v
theories/Properties_Parts.v
theories/Examples.v
theories/Properties_Set.v
theories/BTreeViewModel.v
theories/BTreeViews.v
theories/BTreeTorn.v
theories/Properties_BTree.v
theories/BTreeEntry.v
theories/BTreeWrites.v
theories/Properties_BTree2.v
theories/HistoryModel.v
theories/HistorySpec.v
theories/HistoryProofs.v
theories/Properties_History.v
theories/HeapModel.v
theories/HeapMapModel.v
theories/HeapArr.v
theories/HeapRep.v
theories/HeapWp.v
theories/HeapNode.v
theories/HeapOps.v
theories/HeapOps2.v
theories/HeapOps3.v
theories/HeapOps4.v
theories/HeapZip.v
theories/HeapRemove.v
theories/HeapSearch.v
theories/HeapInsert.v
theories/HeapRes.v
theories/HeapPart.v
theories/HeapMap.v
theories/HeapEntry.v
theories/HeapIter.v
theories/HeapInto.v
theories/HeapTorn.v
theories/HeapDisj.v
theories/HeapOps5.v
theories/HeapOps6.v
theories/HeapOps7.v
theories/HeapBorder.v
theories/HeapSplit.v
theories/HeapAppend.v
theories/HeapClone.v
theories/HeapHistory.v
theories/HeapSpec.v
theories/HeapMemory.v
theories/Properties_Heap.v
theories/HostileModel.v
theories/HostileSpec.v
theories/HostileOps.v
theories/HostileRange.v
theories/HostileSplit.v
theories/HostileAppend.v
theories/HostileHistory.v
theories/HostilePure.v
theories/Properties_Hostile.v
theories/DropModel.v
theories/DropSpec.v
theories/DropProofs.v
theories/DropAppend.v
theories/DropHistory.v
theories/Properties_Drop.v
theories/VecHistoryModel.v
theories/VecHistorySpec.v
theories/VecHistoryProofs.v
theories/VecConserve.v
theories/Properties_VecHistory.v
theories/SetHistoryModel.v
theories/SetHistorySpec.v
theories/SetHistoryProofs.v
theories/Properties_SetHistory.v
theories/SpaceSpec.v
theories/BTreeSpace.v
theories/Properties_Space.v
theories/MoreExamples.v
theories/LedgerModel.v
theories/LedgerSpec.v
theories/LedgerProofs.v
theories/LedgerBooks.v
theories/LedgerSteps.v
theories/LedgerRun.v
theories/Properties_Ledger.v
theories/HostileSetModel.v
theories/HostileSetSpec.v
theories/HostileSets.v
theories/HostileSetOps.v
theories/HostileSetHistory.v
theories/Properties_HostileSet.v
theories/LawfulSetSpec.v
theories/LawfulSets.v
theories/Properties_LawfulSet.v
theories/PtrModel.v
theories/PtrSpec.v
theories/PtrProofs.v
theories/PtrSteps.v
theories/Properties_Ptr.v
theories/LookModel.v
theories/LookSpec.v
theories/LookProofs.v
theories/Properties_Look.v
theories/CostHeap.v
theories/CostSpec.v
theories/CostLogic.v
theories/CostSteps.v
theories/CostSets.v
theories/CostSetSteps.v
theories/Properties_Cost.v
theories/LazyModel.v
theories/LazyCatch.v
theories/LazySpec.v
theories/LazyProofs.v
theories/Properties_Lazy.v
theories/HostileLazySpec.v
theories/HostileLazy.v
theories/Properties_HostileLazy.v
theories/HashHistoryModel.v
theories/HashHistorySpec.v
theories/HashHistoryProofs.v
theories/HashBooks.v
theories/Properties_Hash.v
theories/ContainSpec.v
theories/ContainProofs.v
theories/Properties_Contain.v
theories/ContainSetSpec.v
theories/Properties_ContainSet.v
theories/FrameSetSpec.v
theories/FrameSetProofs.v
theories/Properties_FrameSet.v
theories/Properties_Torn.v
theories/Properties_Split.v
theories/Properties_Append.v
theories/Properties_DropAppend.v
theories/Properties_Collect.v
theories/Properties_PanicSets.v
theories/FrameSpec.v
theories/FrameProofs.v
theories/Properties_Frame.v
theories/ShuffleSpec.v
theories/Properties_Shuffle.v
theories/TouchModel.v
theories/TouchSpec.v
theories/TouchBlind.v
theories/TouchProofs.v
theories/TouchWalk.v
theories/Properties_Touch.v
