-Q theories Verif
theories/Base.v
theories/Spec.v
theories/Sim.v
theories/ListModel.v
theories/ListProofs.v
theories/QueueCost.v
theories/Prop_Seq.v
theories/VectorModel.v
theories/VectorProofs.v
theories/VectorOps.v
theories/VectorIter.v
theories/VectorHist.v
theories/Prop_Vector.v
theories/SparseModel.v
theories/SparseProofs.v
theories/Prop_Sparse.v
theories/SpecMap.v
theories/HashModel.v
theories/HashProofs.v
theories/HashHist.v
theories/HashExtra.v
theories/HashExtraProofs.v
theories/HashIter.v
theories/Prop_Hash.v
theories/SpecOrd.v
theories/RBModel.v
theories/RBProofs.v
theories/RBHist.v
theories/RBIter.v
theories/SpecTrait.v
theories/IterStd.v
theories/RBExtra.v
theories/RBExtraProofs.v
theories/Prop_RB.v
theories/SpecSerde.v
theories/TraitModel.v
theories/TraitProofs.v
theories/Prop_Traits.v
theories/Prop_Serde.v
theories/PermSolve.v
theories/HeapModel.v
theories/HeapProofs.v
theories/HeapSafe.v
theories/HeapClient.v
theories/HeapWorld.v
theories/HeapDrive.v
theories/HeapLooks.v
theories/HeapList.v
theories/HeapListBoom.v
theories/HeapListProofs.v
theories/HeapSeqProofs.v
theories/Prop_HeapSeq.v
theories/HeapVec.v
theories/HeapVecProofs.v
theories/Prop_HeapVec.v
theories/HeapRB.v
theories/HeapRBProofs.v
theories/HeapRBIter.v
theories/HeapRBMap.v
theories/Prop_HeapRB.v
theories/HeapHash.v
theories/HeapHashProofs.v
theories/HeapHashNodes.v
theories/HeapHashIter.v
theories/HeapHashMap.v
theories/Prop_HeapHash.v
theories/HeapSet.v
theories/Prop_HeapSet.v
theories/HeapPtr.v
theories/HeapPtrMaps.v
theories/Prop_HeapPtr.v
theories/HeapDepth.v
theories/Prop_HeapDepth.v
theories/HeapNest.v
theories/CrashModel.v
theories/CrashProofs.v
theories/Prop_Crash.v
theories/CrashAfterModel.v
theories/CrashAfter.v
theories/Prop_CrashAfter.v
theories/Prop_HashShape.v
theories/SpecLoose.v
theories/LawlessModel.v
theories/LawlessRB.v
theories/LawlessHash.v
theories/LawlessIter.v
theories/LawlessAgree.v
theories/LawlessCrash.v
theories/Prop_Lawless.v
theories/LawlessCount.v
theories/Prop_HashCalls.v
theories/HeapNestHash.v
theories/Prop_HeapNest.v
theories/HeapWork.v
theories/HeapWorkSeq.v
theories/HeapWorkVec.v
theories/HeapWorkRB.v
theories/Prop_HeapWork.v
theories/HeapWorkHash.v
theories/HeapWorkHashMap.v
theories/Prop_HeapWorkHash.v
theories/HeapIterWorld.v
theories/HeapIterSeq.v
theories/HeapIterVec.v
theories/HeapIterRB.v
theories/HeapIterHash.v
theories/Prop_HeapIter.v
theories/HeapShare.v
theories/Prop_HeapShare.v
theories/HeapLock.v
theories/Prop_HeapLock.v
theories/HeapIn.v
theories/HeapInProofs.v
theories/HeapOf.v
theories/HeapOfProofs.v
theories/HeapHost.v
theories/HeapHostProofs.v
theories/HeapOfVec.v
theories/HeapOfVecProofs.v
theories/HeapOfMap.v
theories/HeapOfMapProofs.v
theories/HeapOfRB.v
theories/HeapOfRBProofs.v
theories/HeapOfHash.v
theories/HeapOfHashProofs.v
theories/Prop_HeapOf.v
theories/HeapSpace.v
theories/HeapSpaceColl.v
theories/Prop_HeapSpace.v
theories/HeapQueueWork.v
theories/Prop_HeapQueueWork.v
theories/HeapCrash.v
theories/HeapCrashRB.v
theories/HeapCrashRBProofs.v
theories/HeapCrashRBMap.v
theories/HeapCrashHash.v
theories/HeapCrashHashProofs.v
theories/HeapCrashHashNodes.v
theories/HeapCrashHashMap.v
theories/Prop_HeapCrash.v
theories/Prop_HeapCrashHash.v
theories/HeapCrashSeq.v
theories/Prop_HeapCrashSeq.v
theories/HeapCrashIter.v
theories/Prop_HeapCrashIter.v
theories/DropModel.v
theories/DropProofs.v
theories/DropRBProofs.v
theories/DropHashProofs.v
theories/Prop_Drop.v
theories/HeapAfterList.v
theories/HeapAfterNodes.v
theories/CrashAfterCalls.v
theories/HeapAfterModel.v
theories/HeapAfterMap.v
theories/Prop_HeapAfter.v
theories/SpecTalk.v
theories/LawlessRelModel.v
theories/LawlessRel.v
theories/LawlessRelHash.v
theories/LawlessRelAgree.v
theories/Prop_LawlessRel.v
theories/SpecRange.v
theories/RangeCalls.v
theories/Prop_RangeCalls.v
theories/DebugModel.v
theories/DebugProofs.v
theories/DebugText.v
theories/Prop_Debug.v
theories/HeapThrow.v
theories/HeapHolds.v
theories/HeapThrowProofs.v
theories/Prop_HeapThrow.v
theories/HeapThrowSafe.v
theories/Prop_HeapThrowThreads.v
