-Q theories Verif
theories/Base.v
theories/SparseVecM.v
theories/EntityM.v
theories/CssM.v
theories/MaskM.v
theories/LayoutM.v
theories/GroupM.v
theories/StorageM.v
theories/WorldM.v
theories/QueryM.v
theories/ParM.v
theories/StepM.v
theories/BuilderM.v
theories/Lists.v
theories/SparseProofs.v
theories/CssProofs.v
theories/MaskProofs.v
theories/GroupProofs.v
theories/Spec.v
theories/SpecMore.v
theories/AtomicM.v
theories/SpecAtomic.v
theories/BorrowM.v
theories/SpecBorrow.v
theories/SpecQuery.v
theories/SpecLayout.v
theories/SpecSafety.v
theories/Demo.v
theories/EntityProofs.v
theories/LayoutProofs.v
theories/LayoutFacts.v
theories/StorageProofs.v
theories/StoreOps.v
theories/LayoutOps.v
theories/WorldProofs.v
theories/QueryProofs.v
theories/QueryRange.v
theories/QueryIter.v
theories/ForEachProofs.v
theories/History.v
theories/EntityRun.v
theories/EntityHistory.v
theories/Lockstep.v
theories/Contents.v
theories/Facts.v
theories/HandleFacts.v
theories/ReadFacts.v
theories/Grouped.v
theories/SliceFacts.v
theories/IterFacts.v
theories/QueryFacts.v
theories/StorageCount.v
theories/BuilderFacts.v
theories/LayoutDemo.v
theories/SafetyFacts.v
theories/AtomicProofs.v
theories/AtomicDemo.v
theories/MemLayoutM.v
theories/SpecMem.v
theories/MemProofs.v
theories/BorrowProofs.v
theories/Demo2.v
theories/DropPanicM.v
theories/DropPanicProofs.v
theories/SpecDrop.v
theories/DropExact.v
theories/DropDelete.v
theories/OrderProofs.v
theories/SparseVecSpec.v
theories/SparseVecProofs.v
theories/PropEntities.v
theories/PropComponents.v
theories/PropQueries.v
theories/PropLayout.v
theories/PropSafety.v
theories/PropAtomic.v
theories/PropBorrow.v
theories/PropMem.v
theories/DropWorld.v
theories/DropClear.v
theories/PropDrop.v
theories/PropOrder.v
theories/PropSparseVec.v
theories/BlindCss.v
theories/BlindStore.v
theories/BlindQuery.v
theories/BlindEnts.v
theories/BlindLayout.v
theories/BlindWrite.v
theories/BlindWorld.v
theories/BlindHist.v
theories/BlindDemo.v
theories/PropHistory.v
theories/WriteM.v
theories/SpecWrite.v
theories/WriteFacts.v
theories/PropWrite.v
theories/SpecDense.v
theories/DenseFacts.v
theories/SpecReuse.v
theories/ReuseFacts.v
theories/PropDense.v
theories/SpecGroups.v
theories/AddGroupFacts.v
theories/RejectFacts.v
theories/PropGroups.v
theories/SpecVisit.v
theories/VisitFacts.v
theories/PropVisit.v
theories/EveryFacts.v
theories/BorrowHist.v
theories/SpecSound.v
theories/ShapeFacts.v
theories/SoundFacts.v
theories/PropSound.v
theories/LoopM.v
theories/SpecLoop.v
theories/LoopFacts.v
theories/PropLoop.v
theories/SpecListing.v
theories/ListingFacts.v
theories/SpecMaintain.v
theories/MaintainFacts.v
theories/PropMaintain.v
theories/PropListing.v
theories/SpecOrder.v
theories/OrderFacts.v
theories/PropViewOrder.v
theories/SpecProgress.v
theories/ProgressFacts.v
theories/PropProgress.v
theories/SpecMembers.v
theories/MembersFacts.v
theories/MembersRun.v
theories/MembersQuery.v
theories/PropMembers.v
theories/SpecRepair.v
theories/RepairFacts.v
theories/PropRepair.v
theories/OneFacts.v
theories/PropOne.v
theories/SpecSpace.v
theories/SpaceFacts.v
theories/SpaceRun.v
theories/SpecIndex.v
theories/IndexFacts.v
theories/PropIndex.v
theories/PropSpace.v
theories/SpecLocal.v
theories/LocalFacts.v
theories/LocalExtend.v
theories/PropLocal.v
theories/SpecFair.v
theories/FairFacts.v
theories/FairDemo.v
theories/PropFair.v
theories/FairReads.v
theories/PropFairReads.v
theories/SpecMend.v
theories/MendFacts.v
theories/MendDemo.v
theories/PropMend.v
theories/SpecFairPair.v
theories/FairPair.v
theories/PropFairPair.v
theories/SpecPast.v
theories/PastFacts.v
theories/PastDemo.v
theories/PropPast.v
theories/RepoTests.v
