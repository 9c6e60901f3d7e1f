-Q theories Verif
theories/Rust.v
theories/BoundedInt.v
theories/Dir.v
theories/PosT.v
theories/Pos.v
theories/Grid.v
theories/Gridbool.v
theories/Display.v
theories/Views.v
theories/SetMap.v
theories/CameFrom.v
theories/Bf.v
theories/Heap.v
theories/Astar.v
theories/Ucs.v
theories/Queue.v
theories/Order.v
theories/Release.v
theories/Spec.v
theories/Lib.v
theories/Deque.v
theories/BoundedIntProofs.v
theories/PropBounded.v
theories/PosTProofs.v
theories/PosTProofs2.v
theories/PropPosProofs.v
theories/PropPos.v
theories/PropDirProofs.v
theories/PropDir.v
theories/GridProofs.v
theories/GridRotProofs.v
theories/GridProofs2.v
theories/PropGridProofs.v
theories/PropGrid.v
theories/GridboolProofs.v
theories/GridboolRotProofs.v
theories/PropGridboolProofs.v
theories/PropGridbool.v
theories/SpecHistory.v
theories/PropHistoryProofs.v
theories/PropHistory.v
theories/SetMapProofs.v
theories/SpecSearch.v
theories/Sim.v
theories/CameFromProofs.v
theories/PropSetMapProofs.v
theories/PropSetMap.v
theories/BfProofs.v
theories/PropBfProofs.v
theories/PropBf.v
theories/Fair.v
theories/BestFirst.v
theories/Ordered.v
theories/FairSearch.v
theories/SearchProofs.v
theories/UcsProofs.v
theories/AstarProofs.v
theories/BeelineProofs.v
theories/PropUcsProofs.v
theories/PropUcs.v
theories/PropAstarProofs.v
theories/PropAstar.v
theories/PropAgreeProofs.v
theories/PropAgree.v
theories/SpecSymmetry.v
theories/SpecMaze.v
theories/SpecFirst.v
theories/Closures.v
theories/SpecClosures.v
theories/Target.v
theories/TargetGrid.v
theories/SpecTarget.v
theories/SpecWrap.v
theories/SpecEmbed.v
theories/Hash.v
theories/SpecHash.v
theories/Debug.v
theories/SpecDebug.v
theories/SpecStorage.v
theories/Btree.v
theories/SpecBtree.v
theories/SpecRelease.v
theories/SpecPrice.v
theories/SpecQueue.v
theories/SpecOrder.v
theories/FairQueue.v
theories/SpecOrderPath.v
theories/SpecYield.v
theories/OrderedQueue.v
theories/PropSymmetryProofs.v
theories/PropSymmetry.v
theories/PropMapProofs.v
theories/PropMap.v
theories/SpecDisplay.v
theories/DisplayProofs.v
theories/PropDisplayProofs.v
theories/PropDisplay.v
theories/PropViewsProofs.v
theories/PropViews.v
theories/PropEntryProofs.v
theories/PropEntry.v
theories/PropFrameProofs.v
theories/PropFrame.v
theories/PropPriceProofs.v
theories/PropPrice.v
theories/PropQueueProofs.v
theories/PropQueue.v
theories/PropEffortProofs.v
theories/PropEffort.v
theories/PropMazeProofs.v
theories/PropMaze.v
theories/PropPathProofs.v
theories/PropPath.v
theories/PropFirstProofs.v
theories/PropFirst.v
theories/PropClosuresProofs.v
theories/PropClosures.v
theories/PropAnyClosuresProofs.v
theories/PropAnyClosures.v
theories/PropStrayProofs.v
theories/PropStray.v
theories/SpecSettle.v
theories/PropSettleProofs.v
theories/PropSettle.v
theories/PropReleaseProofs.v
theories/PropRelease.v
theories/TestSuite.v
theories/PropTargetProofs.v
theories/PropTarget.v
theories/PropTargetGridProofs.v
theories/PropTargetGrid.v
theories/PropWrapProofs.v
theories/PropWrap.v
theories/PropEmbedProofs.v
theories/PropEmbed.v
theories/PropHashProofs.v
theories/PropHash.v
theories/PropDebugProofs.v
theories/PropDebug.v
theories/PropStorageProofs.v
theories/PropStorage.v
theories/BtreeProofs.v
theories/PropBtreeProofs.v
theories/PropBtree.v
theories/SpecReplan.v
theories/PropReplanProofs.v
theories/PropReplan.v
theories/PropIterProofs.v
theories/PropIter.v
theories/PropAnyPosProofs.v
theories/PropAnyPos.v
theories/PropAnyStoreProofs.v
theories/PropAnyStore.v
theories/PropCostProofs.v
theories/PropCost.v
theories/SpecKeep.v
theories/Chrono.v
theories/Spine.v
theories/PropLocalProofs.v
theories/PropLocal.v
theories/PropKeepProofs.v
theories/PropKeep.v
theories/PropOrderProofs.v
theories/PropOrder.v
theories/PropOrderIterProofs.v
theories/PropOrderIter.v
theories/SpecTreeOrder.v
theories/PropTreeOrderProofs.v
theories/PropTreeOrder.v
theories/PropOrderWorkProofs.v
theories/PropOrderWork.v
theories/PropOrderPathProofs.v
theories/PropOrderPath.v
theories/PropYieldProofs.v
theories/PropYield.v
theories/PropOrderStayProofs.v
theories/PropOrderStay.v
theories/SpecKeepBy.v
theories/ChronoBy.v
theories/SpineBy.v
theories/KeepBy.v
theories/PropOrderKeepProofs.v
theories/PropOrderKeep.v
