-Q theories Verif

theories/GoStr.v
theories/Utf8.v
theories/Node.v
theories/NodeWf.v
theories/InsertProofs.v
theories/MatchProofs.v
theories/Trie.v
theories/Spec.v
theories/TreeOps.v
theories/Refine.v
theories/Climb.v
theories/ApiRefine.v
theories/Reach.v
theories/Effect.v
theories/Derived.v
theories/Derived2.v
theories/Derived3.v
theories/Derived4.v
theories/Derived5.v
theories/Derived6.v
theories/Refuted.v
theories/Samples.v
theories/PropsTree.v
theories/Pattern.v
theories/Route.v
theories/Route2.v
theories/PropsRoute.v
theories/Dur.v
theories/DurFloat.v
theories/DurSpec.v
theories/DurProofs.v
theories/DurFormat.v
theories/DurSound.v
theories/DurRound.v
theories/DurClose.v
theories/PropsDur.v
theories/PropsDurFrac.v
theories/Cvter.v
theories/Nested.v
theories/CvterProofs.v
theories/Export.v
theories/SizeProofs.v
theories/PropsCvter.v
theories/Store.v
theories/StoreProofs.v
theories/MergeProofs.v
theories/MergeSlices.v
theories/LoadProofs.v
theories/Loading.v
theories/PropsStore.v
theories/Ttl.v
theories/TtlProofs.v
theories/TtlRace.v
theories/TtlLive.v
theories/PropsTtl.v
theories/Misc.v
theories/MiscProofs.v
theories/CvtProofs.v
theories/PropsMisc.v
theories/Provider.v
theories/ProviderProofs.v
theories/WatchProofs.v
theories/PropsProvider.v
theories/Watch.v
theories/Follow.v
theories/PropsFollow.v
theories/Save.v
theories/SaveProofs.v
theories/PropsSave.v
theories/Getters.v
theories/GetterProofs.v
theories/PropsGetter.v
theories/Files.v
theories/FileProofs.v
theories/PropsFile.v
theories/Codecs.v
theories/Heap.v
theories/HeapProofs.v
theories/HeapWalk.v
theories/HeapRace.v
theories/PropsHeap.v
theories/Text.v
theories/TextProofs.v
theories/JsonProofs.v
theories/PropsText.v
theories/CodecProofs.v
theories/PropsCodec.v
theories/Locks.v
theories/LockProofs.v
theories/PropsLock.v
theories/HeapGet.v
theories/HeapGetProofs.v
theories/PropsHeapGet.v
theories/HeapRemove.v
theories/HeapRemoveProofs.v
theories/PropsHeapRemove.v
theories/HeapSee.v
theories/HeapSeeProofs.v
theories/PropsHeapSee.v
theories/HeapLin.v
theories/HeapLinProofs.v
theories/PropsHeapLin.v
theories/Pools.v
theories/PoolProofs.v
theories/PropsPool.v
theories/HeapOwn.v
theories/NoId.v
theories/HeapFair.v
theories/HeapSect.v
theories/HeapDup.v
theories/PropsHeapDup.v
theories/PropsHeapSect.v
theories/HeapExport.v
theories/HeapExportProofs.v
theories/PropsHeapExport.v
theories/Options.v
theories/OptionsProofs.v
theories/Dummy.v
theories/DummyProofs.v
theories/PropsOptions.v
theories/HeapEnds.v
theories/PropsHeapEnds.v
theories/Build.v
theories/BuildProofs.v
theories/PropsBuild.v
theories/HeapStore.v
theories/HeapStoreProofs.v
theories/PropsHeapStore.v
theories/HeapAsk.v
theories/HeapWork.v
theories/WorkSpec.v
theories/HeapWorkProofs.v
theories/PropsHeapWork.v
theories/PropsHeapAsk.v
theories/HeapCount.v
theories/PropsHeapCount.v
theories/HeapCalls.v
theories/HeapCallsProofs.v
theories/PropsHeapCalls.v
theories/ExportIn.v
theories/SizeLit.v
theories/PropsExportIn.v
theories/Torn.v
theories/TornProofs.v
theories/TornRace.v
theories/MemSpec.v
theories/MemSafe.v
theories/MemSafeProofs.v
theories/PropsTorn.v
theories/FileWatch.v
theories/FileWatchProofs.v
theories/FilePath.v
theories/FilePathProofs.v
theories/PropsFileWatch.v
theories/RemoteWatch.v
theories/RemoteWatchProofs.v
theories/PropsRemoteWatch.v
theories/Size.v
theories/Leak.v
theories/Cost.v
theories/CostSet.v
theories/CostRemove.v
theories/CostAll.v
theories/Maze.v
theories/MazeCost.v
theories/SizeText.v
theories/PropsSize.v
theories/Aside.v
theories/First.v
theories/RouteFirst.v
theories/PropsFirst.v
theories/Bind.v
theories/RouteClash.v
theories/RouteMany.v
theories/RouteTree.v
theories/SizeUnits.v
theories/KeyText.v
theories/PropsBind.v
theories/PropsMany.v
theories/PropsShared.v
theories/PropsUnits.v
theories/PropsKeyText.v
theories/Ints.v
theories/IntsProofs.v
theories/PropsInts.v
theories/Sections.v
theories/PropsSection.v
theories/Observer.v
theories/PropsObserver.v
theories/Fragment.v
theories/PropsFragment.v
theories/Layers.v
theories/PropsLayer.v
theories/Merges.v
theories/PropsMerges.v
theories/Order.v
theories/PropsOrder.v
theories/Order2.v
theories/PropsOrder2.v
theories/Order3.v
theories/PropsOrder3.v
theories/Order4.v
theories/PropsOrder4.v
theories/Handles.v
theories/HandlesProofs.v
theories/PropsHandles.v
theories/Family.v
theories/FamilyProofs.v
theories/PropsFamily.v
theories/ReadProofs.v
theories/PropsReads.v
theories/Session.v
theories/SessionProofs.v
theories/SessionQuiet.v
theories/PropsSession.v
