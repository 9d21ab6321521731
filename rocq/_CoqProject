-Q theories Verif
theories/Spec.v
theories/StdModel.v
theories/StdFacts.v
theories/Merge.v
theories/MergeFacts.v
theories/DedupModel.v
theories/DedupFacts.v
theories/VecSetModel.v
theories/VecSetFacts.v
theories/VecSetHist.v
theories/VecMapModel.v
theories/VecMapFacts.v
theories/VecMapSpec.v
theories/VecMapHist.v
theories/PropSet.v
theories/PropMap.v
theories/TotalModel.v
theories/PropTotal.v
theories/BTreeModel.v
theories/PropBTree.v
theories/RadixModel.v
theories/RadixSpec.v
theories/RadixFacts.v
theories/RadixMerge.v
theories/RadixComb.v
theories/RadixFind.v
theories/RadixPred.v
theories/RadixCanon.v
theories/RadixReach.v
theories/PropRadix.v
theories/HeapModel.v
theories/HeapSpec.v
theories/HeapFacts.v
theories/HeapRefine.v
theories/PropShared.v
theories/LazyModel.v
theories/LazySpec.v
theories/LazyFacts.v
theories/PropLazy.v
theories/KeyModel.v
theories/PropKey.v
theories/HeapOps.v
theories/HeapFrame.v
theories/HeapOpsFacts.v
theories/HeapOpsRefine.v
theories/HeapOpsPure.v
theories/HeapApi.v
theories/HeapApiRefine.v
theories/HeapApiSpec.v
theories/PropHeapOps.v
theories/OracleModel.v
theories/OracleFacts.v
theories/PropOracle.v
theories/RetainModel.v
theories/PropRetain.v
theories/RadixEffModel.v
theories/RadixEffSpec.v
theories/RadixEffFacts.v
theories/RadixEffMerge.v
theories/RadixEffComb.v
theories/RadixEffPrefix.v
theories/PropRadixEff.v
theories/PersistModel.v
theories/PersistSpec.v
theories/PersistFacts.v
theories/PersistIO.v
theories/PersistRegs.v
theories/PersistRefine.v
theories/PersistShare.v
theories/PropPersist.v
theories/ArchiveModel.v
theories/ArchiveFacts.v
theories/ArchiveTree.v
theories/ArchiveSave.v
theories/PropArchive.v
theories/CollectModel.v
theories/CollectFacts.v
theories/CostFacts.v
theories/PropCost.v
theories/HeapAlloc.v
theories/HeapCost.v
theories/PropAlloc.v
theories/PersistFrame.v
theories/HeapClosed.v
theories/PersistIncr.v
theories/PropIncr.v
theories/HeapEffModel.v
theories/HeapEffSpec.v
theories/HeapEffSim.v
theories/HeapEffFacts.v
theories/HeapEffRefine.v
theories/HeapEffWO.v
theories/PropHeapEff.v
theories/MultimapModel.v
theories/PropMultimap.v
theories/ApiModel.v
theories/PropApi.v
theories/ConcModel.v
theories/ConcSpec.v
theories/ConcLogic.v
theories/ConcRules.v
theories/ConcOps.v
theories/ConcCalls.v
theories/ConcSim.v
theories/ConcThreads.v
theories/ConcRun.v
theories/PropConc.v
theories/StorageModel.v
theories/StorageFacts.v
theories/PropStorage.v
theories/CloneModel.v
theories/CloneSpec.v
theories/CloneFacts.v
theories/PropClone.v
theories/PropTotalCalls.v
theories/RadixCostModel.v
theories/PropRadixCost.v
theories/BTreeEffModel.v
theories/PropBTreeEff.v
theories/RadixPureEffModel.v
theories/RadixPureEffSpec.v
theories/RadixPureEffFacts.v
theories/PropRadixPureEff.v
theories/FollowFacts.v
theories/OracleMapModel.v
theories/OracleMapFacts.v
theories/PropFollow.v
theories/PropOracleMap.v
theories/IterModel.v
theories/PropIter.v
theories/OwnIterModel.v
theories/PropOwnIter.v
theories/RadixWorkModel.v
theories/RadixWorkFacts.v
theories/RadixWorkComb.v
theories/PropRadixWork.v
theories/RadixUserModel.v
theories/RadixUserEngine.v
theories/RadixUserFacts.v
theories/RadixUserWith.v
theories/RadixUserPure.v
theories/RadixUserPlain.v
theories/PropRadixUser.v
theories/LazyTreeModel.v
theories/LazyTreeSpec.v
theories/LazyTreeFacts.v
theories/PropLazyTree.v
theories/RadixWorkTie.v
theories/PropRadixCalls.v
theories/PropAlgebra.v
theories/PropRadixAlgebra.v
theories/RadixLawEngine.v
theories/RadixLawMerge.v
theories/RadixLawSpec.v
theories/RadixLawWith.v
theories/RadixLawNode.v
theories/RadixLawOps.v
theories/PropRadixLaw.v
theories/RadixLawQuest.v
theories/RadixLawPure.v
theories/RadixLawMade.v
theories/RadixUserSetModel.v
theories/PropRadixMade.v
theories/VecUserModel.v
theories/VecUserSpec.v
theories/VecUserFacts.v
theories/VecUserLaw.v
theories/VecUserOps.v
theories/VecUserBlame.v
theories/PropVecUser.v
theories/TotalUserModel.v
theories/TotalUserSpec.v
theories/TotalUserFacts.v
theories/PropTotalUser.v
theories/LookUserModel.v
theories/LookUserSpec.v
theories/PropLookUser.v
theories/SerdeModel.v
theories/SerdeSpec.v
theories/PropSerde.v
theories/LconcModel.v
theories/LconcSpec.v
theories/LconcLogic.v
theories/LconcRules.v
theories/LconcOps.v
theories/LconcCalls.v
theories/LconcSim.v
theories/LconcThreads.v
theories/LconcRun.v
theories/PropLconc.v
theories/DebugModel.v
theories/PropDebug.v
theories/HeapThrowModel.v
theories/HeapThrowSpec.v
theories/HeapThrowFacts.v
theories/PropHeapThrow.v
theories/RadixRename.v
theories/RadixCoarse.v
theories/PropRename.v
theories/VecRename.v
theories/PropVecRename.v
theories/PropMapAlgebra.v
theories/PanicRadix.v
theories/PropPanic.v
theories/PanicVec.v
theories/PropPanicVec.v
theories/PropPanicLook.v
theories/PropRadixIdent.v
theories/PropTotalIdent.v
theories/PropRadixPrefix.v
theories/PropJoinsAgree.v
theories/PropRadixAsMap.v
theories/PropRadixAsSet.v
theories/PropKeys.v
theories/PropRadixAsMap2.v
theories/PropRadixSim.v
