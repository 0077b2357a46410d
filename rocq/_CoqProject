-Q theories Verif
theories/Common.v
theories/Bits.v
theories/BitsSpec.v
theories/BitsProofs.v
theories/BitsProps.v
theories/Champ.v
theories/Slots.v
theories/ChampSpec.v
theories/ChampProofs.v
theories/ChampHist.v
theories/ChampMap.v
theories/ChampIter.v
theories/ChampEq.v
theories/ChampDiff.v
theories/ChampCost.v
theories/ChampProps.v
theories/NList.v
theories/Rrb.v
theories/RrbInv.v
theories/RrbPos.v
theories/RrbOps.v
theories/RrbSlice.v
theories/RrbTree.v
theories/RrbShuffle.v
theories/RrbMerge.v
theories/RrbConcat.v
theories/RrbView.v
theories/RrbSpec.v
theories/RrbViewOk.v
theories/RrbVecEq.v
theories/RrbReach.v
theories/RrbStrict.v
theories/RrbFlexEq.v
theories/RrbWalk.v
theories/RrbLemmas.v
theories/RrbExec.v
theories/RrbProps.v
theories/RrbRefuted.v
theories/Array.v
theories/ArraySpec.v
theories/ArrayProofs.v
theories/ArrayProps.v
theories/AtomSpec.v
theories/Atom.v
theories/AtomProofs.v
theories/AtomGc.v
theories/AtomGcProofs.v
theories/AtomProps.v
theories/FreeListSpec.v
theories/FreeList.v
theories/FreeListProofs.v
theories/FreeListProps.v
theories/HeapSpec.v
theories/Heaps.v
theories/HeapProofs.v
theories/HeapProps.v
theories/RcHeap.v
theories/RcProofs.v
theories/BoxSpec.v
theories/Box.v
theories/BoxProofs.v
theories/BoxProps.v
theories/Token.v
theories/TokenSpec.v
theories/TokenProofs.v
theories/TokenProps.v
theories/RcExn.v
theories/RcExnProofs.v
theories/ChampHeap.v
theories/ChampShape.v
theories/ChampHeapProofs.v
theories/ProgVars.v
theories/ChampProgSpec.v
theories/ChampProg.v
theories/ChampProgProofs.v
theories/ChampHeapProps.v
theories/Lifetime.v
theories/LifetimeSpec.v
theories/LifetimeProofs.v
theories/LifetimeProps.v
theories/RcMove.v
theories/VecHeap.v
theories/VecPlan.v
theories/VecNodes.v
theories/VecMake.v
theories/VecGetMut.v
theories/VecPush.v
theories/VecSliceR.v
theories/VecSliceL.v
theories/VecTree.v
theories/VecTreeProofs.v
theories/VecCenter.v
theories/VecMerge.v
theories/VecProgSpec.v
theories/VecProg.v
theories/VecProgProofs.v
theories/VecHeapProps.v
theories/VecJoinProps.v
theories/GcConcat.v
theories/GcPlan.v
theories/GcRep.v
theories/GcAdd.v
theories/GcLeaf.v
theories/GcInner.v
theories/GcVisit.v
theories/GcLoop.v
theories/GcMerge.v
theories/GcTree.v
theories/GcSpec.v
theories/GcRead.v
theories/GcCheck.v
theories/GcVec.v
theories/GcVecRun.v
theories/GcVecTree.v
theories/GcVecUpd.v
theories/GcSlice.v
theories/GcSliceRun.v
theories/GcSliceLeft.v
theories/GcSliceTree.v
theories/GcVecTok.v
theories/GcProgSpec.v
theories/GcProg.v
theories/GcProgRep.v
theories/GcProgProofs.v
theories/GcProps.v
theories/GcProgProps.v
theories/Conc.v
theories/ConcProofs.v
theories/ConcPool.v
theories/ConcOrder.v
theories/ConcOrderProofs.v
theories/OrderProps.v
theories/ChampConc.v
theories/ChampConcProofs.v
theories/ChampConcProg.v
theories/ChampConcProps.v
theories/VecConc.v
theories/VecConcProofs.v
theories/VecConcGetMut.v
theories/VecConcPush.v
theories/VecConcSlice.v
theories/VecConcTree.v
theories/VecConcProg.v
theories/VecConcProps.v
theories/BoxConc.v
theories/BoxConcProofs.v
theories/BoxConcProps.v
theories/GcArray.v
theories/GcArraySpec.v
theories/GcArrayProofs.v
theories/GcArrayProps.v
theories/ArrConcSpec.v
theories/ArrConc.v
theories/ArrConcProofs.v
theories/ArrConcProps.v
theories/DvekSpec.v
theories/Dvek.v
theories/DvekProofs.v
theories/DvekProps.v
theories/WrapSpec.v
theories/Wrap.v
theories/WrapProps.v
theories/LockOrderSpec.v
theories/LockOrder.v
theories/LockOrderProps.v
theories/FacadeSpec.v
theories/Facade.v
theories/FacadeProps.v
theories/ChampFwd.v
theories/ChampFwdProps.v
theories/LayoutSpec.v
theories/Layout.v
theories/LayoutProps.v
theories/LayoutFree.v
theories/LayoutFreeProps.v
theories/HeapAlign.v
theories/HeapAlignProps.v
