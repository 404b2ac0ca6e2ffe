-Q theories Verif
theories/Spec.v
theories/Base.v
theories/WalkFacts.v
theories/Graph.v
theories/GraphSpec.v
theories/GraphFacts.v
theories/OrderFacts.v
theories/PropGraph.v
theories/Path.v
theories/ConstraintSpec.v
theories/PathFacts.v
theories/Attr.v
theories/PropPath.v
theories/Queue.v
theories/Heap.v
theories/Iter.v
theories/IterFacts.v
theories/TreeFacts.v
theories/SearchFacts.v
theories/BestFacts.v
theories/ConstrainedFacts.v
theories/PropSearch.v
theories/Topo.v
theories/TopoFacts.v
theories/PropTopo.v
theories/ShortSpec.v
theories/ShortFacts.v
theories/DagFacts.v
theories/PropShort.v
theories/BellmanFacts.v
theories/PropBellman.v
theories/MaxFlow.v
theories/FlowSpec.v
theories/FlowFacts.v
theories/PropFlow.v
theories/Cycle.v
theories/CycleSpec.v
theories/CycleFacts.v
theories/PropCycle.v
theories/Text.v
theories/Format.v
theories/FormatSpec.v
theories/TextFacts.v
theories/FormatFacts.v
theories/PropFormat.v
theories/Store.v
theories/StoreSpec.v
theories/StoreFacts.v
theories/CrashFacts.v
theories/PropStore.v
theories/Writer.v
theories/WriterFacts.v
theories/PropWriter.v
theories/Cli.v
theories/CliSpec.v
theories/CliFacts.v
theories/RandomFacts.v
theories/PropCli.v
theories/Query.v
theories/QuerySpec.v
theories/QueryFacts.v
theories/PropQuery.v
theories/Utf8.v
theories/Utf8Spec.v
theories/Utf8Facts.v
theories/PropUtf8.v
theories/Release.v
theories/ReleaseFacts.v
theories/SpfaEnds.v
theories/PropRelease.v
theories/Reader.v
theories/ReaderFacts.v
theories/PropReader.v
theories/Score.v
theories/ScoreFacts.v
theories/PropScore.v
theories/Verbose.v
theories/PropKill.v
theories/Disk.v
theories/DiskFacts.v
theories/PropDisk.v
theories/Inode.v
theories/InodeFacts.v
theories/PropInode.v
theories/FlowBound.v
theories/PropFlowBound.v
theories/FlowMax.v
theories/PropFlowMax.v
theories/FlowGap.v
theories/FlowFamily.v
theories/PropFlowGap.v
theories/Work.v
theories/PropWork.v
theories/PropDraws.v
theories/PropSplice.v
theories/PropBeside.v
theories/PropDiskMore.v
theories/RandomMain.v
theories/PropRandomMain.v
theories/Print.v
theories/PropPrint.v
theories/Steps.v
theories/PropSteps.v
theories/SpfaWork.v
theories/Cascade.v
theories/PropSpfaWork.v
theories/PropAgree.v
theories/PropAgreeQuery.v
theories/LogSpec.v
theories/PropLog.v
theories/PropGrow.v
theories/Power.v
theories/PropPower.v
theories/RenameSpec.v
theories/RenameFacts.v
theories/PropRename.v
theories/Clap.v
theories/ClapSpec.v
theories/ClapManual.v
theories/ClapFacts.v
theories/Mains.v
theories/PropClap.v
theories/PropLines.v
theories/PropBuilds.v
theories/PropEdits.v
theories/PropLocal.v
theories/PropReverse.v
theories/PropKeep.v
theories/PropNarrow.v
theories/PropEquiv.v
theories/PropOnlyGrows.v
theories/PropSession.v
theories/Clients.v
theories/LinearSpec.v
theories/PropLinear.v
theories/EverySpec.v
theories/PropEvery.v
theories/PropSetup.v
theories/PropWait.v
theories/PropDesc.v
theories/VisitSpec.v
theories/VisitFacts.v
theories/PropVisit.v
theories/FillSpec.v
theories/PropFill.v
theories/RingSpec.v
theories/PropRing.v
theories/ReadySpec.v
theories/PropReady.v
theories/ForkSpec.v
theories/PropFork.v
theories/Refusal.v
theories/RefusalSpec.v
theories/PropRefusal.v
theories/UndoSpec.v
theories/PropUndo.v
theories/PropUnused.v
theories/Told.v
theories/PropTold.v
theories/PropJoin.v
theories/PropFlowLocal.v
theories/Stream.v
theories/PropStream.v
theories/Refuse.v
theories/PropRefuse.v
theories/Place.v
theories/PlaceFacts.v
theories/PropPlace.v
theories/Where.v
theories/PropWhere.v
theories/Hostile.v
theories/PropHostile.v
theories/Library.v
theories/PropLibrary.v
theories/Space.v
theories/PropSpace.v
theories/Further.v
theories/PropFurther.v
theories/Links.v
theories/PropLinks.v
theories/Compare.v
theories/PropCompare.v
theories/PropConvert.v
theories/TgfSave.v
theories/PropTorn.v
theories/PropRetry.v
theories/PropUnits.v
theories/PropSchedule.v
theories/PropLater.v
theories/PropSplit.v
theories/PropUsers.v
