-Q theories Verif
theories/Base/Order.v
theories/Base/Sub.v
theories/Base/Lex.v
theories/Model/OMap.v
theories/Model/KeyTs.v
theories/Model/MemTable.v
theories/Model/Immutable.v
theories/Model/SsTable.v
theories/Model/MergeStream.v
theories/Model/KeyBounds.v
theories/Model/Package.v
theories/Model/DbScan.v
theories/Model/Version.v
theories/Model/Db.v
theories/Model/Compact.v
theories/Model/Planner.v
theories/Model/DbCompact.v
theories/Model/Txn.v
theories/Spec/History.v
theories/Spec/KeySet.v
theories/Spec/LiveSet.v
theories/Spec/Plan.v
theories/Spec/Files.v
theories/Model/Run.v
theories/Spec/Valid.v
theories/Spec/Mvcc.v
theories/Spec/Ieee.v
theories/Spec/Tri.v
theories/Model/Float.v
theories/Model/Utf8.v
theories/Model/Key.v
theories/Model/Expr.v
theories/Model/Residual.v
theories/Model/Pred.v
theories/Model/RowSet.v
theories/Model/Policy.v
theories/Model/Backpressure.v
theories/Model/Columns.v
theories/Model/Frame.v
theories/Model/WalScan.v
theories/Model/Replay.v
theories/Spec/KeySpec.v
theories/Spec/PredSpec.v
theories/Spec/Sql.v
theories/Proof/OMapFacts.v
theories/Proof/MemFacts.v
theories/Proof/ViewFacts.v
theories/Proof/SstFacts.v
theories/Proof/MergeFacts.v
theories/Proof/KeyBoundsFacts.v
theories/Proof/ScanFacts.v
theories/Proof/HistFacts.v
theories/Proof/CompactFacts.v
theories/Proof/CompactLoop.v
theories/Proof/CompactOut.v
theories/Proof/VersionFacts.v
theories/Proof/LiveFacts.v
theories/Proof/VersionLog.v
theories/Proof/PlannerFacts.v
theories/Proof/DbFacts.v
theories/Proof/RunFacts.v
theories/Proof/Refine.v
theories/Proof/Reads.v
theories/Proof/NewerPages.v
theories/Proof/PackageFacts.v
theories/Proof/Demo.v
theories/Proof/Overlay.v
theories/Proof/TxnFacts.v
theories/Proof/TxnProps.v
theories/Proof/TxnWrap.v
theories/Proof/Findings1.v
theories/Proof/ReadProps.v
theories/Proof/Findings2.v
theories/Proof/StorageProps.v
theories/Proof/CompactAny.v
theories/Proof/CompactAnyWit.v
theories/Proof/Findings3.v
theories/Proof/Utf8Facts.v
theories/Proof/KeyFacts.v
theories/Proof/FloatFacts.v
theories/Proof/NumFacts.v
theories/Proof/PredFacts.v
theories/Proof/SplitFacts.v
theories/Proof/KeyInst.v
theories/Proof/BoundsFacts.v
theories/Spec/Table.v
theories/Proof/TableFacts.v
theories/Proof/Findings4.v
theories/Spec/RowSetSpec.v
theories/Proof/RowSetFacts.v
theories/Proof/PredProps.v
theories/Model/Metrics.v
theories/Spec/LimitSpec.v
theories/Proof/LimitFacts.v
theories/Proof/ColumnFacts.v
theories/Spec/WalSpec.v
theories/Proof/FrameFacts.v
theories/Spec/ReplaySpec.v
theories/Proof/ReplayFacts.v
theories/Proof/WalDemo.v
theories/Model/WalWriter.v
theories/Model/WalDb.v
theories/Proof/ReplayGen.v
theories/Proof/WriterFacts.v
theories/Proof/RecoverDb.v
theories/Proof/LogFacts.v
theories/Spec/Recover.v
theories/Proof/WalDbInv.v
theories/Proof/WalDbRun.v
theories/Proof/WalDbSteps.v
theories/Proof/WalDbProps.v
theories/Spec/WriterSpec.v
theories/Proof/WriterRun.v
theories/Proof/WriterLife.v
theories/Proof/WalDbDemo.v
theories/Proof/RecoverProps.v
theories/Model/Sessions.v
theories/Model/Manifest.v
theories/Spec/ManifestSpec.v
theories/Proof/SessionFacts.v
theories/Proof/ManifestFacts.v
theories/Proof/CatalogFacts.v
theories/Proof/ManifestMore.v
theories/Model/TimeTravel.v
theories/Proof/TimeFacts.v
theories/Proof/TimeDemo.v
theories/Model/Sched.v
theories/Spec/ConcSpec.v
theories/Proof/SchedLive.v
theories/Proof/SchedInv.v
theories/Proof/SchedReads.v
theories/Proof/SchedTxn.v
theories/Proof/SchedScan.v
theories/Proof/SchedDemo.v
theories/Proof/SchedWrap.v
theories/Model/LogRace.v
theories/Spec/RaceSpec.v
theories/Proof/RaceInv.v
theories/Proof/RaceLog.v
theories/Proof/RaceWit.v
theories/Model/Jobs.v
theories/Spec/JobSpec.v
theories/Proof/JobInv.v
theories/Proof/JobStep.v
theories/Proof/JobIds.v
theories/Proof/JobWit.v
theories/Model/Project.v
theories/Spec/Projection.v
theories/Proof/ProjectFacts.v
theories/Proof/ProjectScan.v
theories/Proof/ProjectProps.v
theories/Model/WalSync.v
theories/Spec/SyncSpec.v
theories/Proof/SyncFacts.v
theories/Proof/SyncInv.v
theories/Proof/SyncProps.v
theories/Proof/SyncBytes.v
theories/Proof/SyncWit.v
theories/Model/Worker.v
theories/Spec/RestSpec.v
theories/Proof/RestFacts.v
theories/Proof/RestProps.v
theories/Proof/RestWit.v
theories/Props/PReads.v
theories/Props/PTxn.v
theories/Props/PStorage.v
theories/Props/PPred.v
theories/Proof/MetricsFacts.v
theories/Props/PMisc.v
theories/Props/PWal.v
theories/Props/PRecovery.v
theories/Props/PManifest.v
theories/Props/PTime.v
theories/Props/PConc.v
theories/Props/PRace.v
theories/Props/PJobs.v
theories/Props/PProject.v
theories/Props/PSync.v
theories/Props/PWorker.v
theories/Model/Json.v
theories/Model/KeyDecl.v
theories/Model/TableDef.v
theories/Spec/KeyDeclSpec.v
theories/Spec/JsonSpec.v
theories/Proof/KeyDeclFacts.v
theories/Proof/JsonFacts.v
theories/Proof/TableDefFacts.v
theories/Proof/SchemaWit.v
theories/Props/PSchema.v
theories/Model/UnionKey.v
theories/Proof/UnionKeyFacts.v
theories/Model/Caches.v
theories/Spec/CacheSpec.v
theories/Proof/RangeFacts.v
theories/Proof/CacheFacts.v
theories/Proof/CacheWit.v
theories/Props/PCache.v
theories/Model/Records.v
theories/Spec/RecordSpec.v
theories/Proof/RecordFacts.v
theories/Proof/RecordLost.v
theories/Proof/RecordWit.v
theories/Proof/RecordOrder.v
theories/Props/PRecords.v
theories/Spec/QueueSpec.v
theories/Model/LogQueue.v
theories/Model/Stored.v
theories/Proof/LogQueueFacts.v
theories/Proof/LogQueueProps.v
theories/Proof/StoredFacts.v
theories/Props/PQueue.v
theories/Model/WriteCall.v
theories/Proof/WriteCallFacts.v
theories/Proof/WriteCallProps.v
theories/Props/PCalls.v
theories/Model/ReplayBatch.v
theories/Model/LogStock.v
theories/Model/WalBoot.v
theories/Spec/ReplayBatchSpec.v
theories/Spec/LogStockSpec.v
theories/Spec/DamageSpec.v
theories/Spec/PointSpec.v
theories/Spec/BootSpec.v
theories/Proof/ReplayBatchFacts.v
theories/Proof/LogStockFacts.v
theories/Proof/DamageFacts.v
theories/Proof/CrcFacts.v
theories/Proof/NoticeFacts.v
theories/Proof/NoticeWit.v
theories/Proof/PointFacts.v
theories/Proof/BootFacts.v
theories/Props/PReplay.v
theories/Props/PStock.v
theories/Props/PPoint.v
theories/Model/Minor.v
theories/Spec/MinorSpec.v
theories/Proof/MinorFacts.v
theories/Props/PMinor.v
theories/Model/WalNames.v
theories/Spec/NameSpec.v
theories/Proof/NameFacts.v
theories/Props/PNames.v
theories/Model/Options.v
theories/Spec/OptionSpec.v
theories/Proof/OptionFacts.v
theories/Props/POptions.v
theories/Model/WorkerSteps.v
theories/Spec/NudgeSpec.v
theories/Proof/NudgeFacts.v
theories/Proof/NudgeWit.v
theories/Props/PNudge.v
theories/Model/Stage.v
theories/Spec/StageSpec.v
theories/Proof/StageFacts.v
theories/Proof/StageWit.v
theories/Props/PStage.v
theories/Model/Listing.v
theories/Spec/ListingSpec.v
theories/Proof/ListingFacts.v
theories/Proof/ListingWit.v
theories/Props/PListing.v
theories/Model/KeySize.v
theories/Spec/ByteSpec.v
theories/Proof/ByteFacts.v
theories/Proof/ByteWit.v
theories/Props/PBytes.v
theories/Props/PNotice.v
