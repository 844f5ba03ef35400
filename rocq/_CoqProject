-Q theories Verif
theories/Base.v
theories/Spec.v
theories/ModelDistance.v
theories/SpecDistance.v
theories/AlignProofs.v
theories/DistProofs.v
theories/DistFacts.v
theories/PropsDistance.v
theories/ModelThreads.v
theories/SpecThreads.v
theories/ThreadProofs.v
theories/CostProofs.v
theories/PropsThreads.v
theories/ModelTransducer.v
theories/ConsumeProofs.v
theories/SpecLimits.v
theories/TransProofs.v
theories/StateProofs.v
theories/SpecTransducer.v
theories/SubsumeProofs.v
theories/ReadProofs.v
theories/PropsTransducer.v
theories/ModelHash.v
theories/HashFacts.v
theories/ModelDawg.v
theories/TreeProofs.v
theories/SpecDawg.v
theories/HeapProofs.v
theories/BuildProofs.v
theories/BuildProofs2.v
theories/IterProofs.v
theories/DawgProofs.v
theories/PropsDawg.v
theories/ModelSerial.v
theories/SpecSerial.v
theories/SerialProofs.v
theories/ModelQuery.v
theories/QueryProofs.v
theories/SpecQuery.v
theories/QueryFacts.v
theories/LimitProofs.v
theories/PropsQuery.v
theories/PropsLimits.v
theories/SpecBounds.v
theories/BoundProofs.v
theories/PropsBounds.v
theories/SpecCost.v
theories/DestroyProofs.v
theories/PropsCost.v
theories/PropsSerial.v
theories/ModelWire.v
theories/SpecWire.v
theories/WireProofs.v
theories/FileProofs.v
theories/PropsWire.v
theories/SpecFormat.v
theories/FormatProofs.v
theories/PropsFormat.v
theories/ModelDemo.v
theories/SpecDemo.v
theories/SizeProofs.v
theories/DemoProofs.v
theories/PropsDemo.v
theories/ModelState.v
theories/SpecState.v
theories/PointerProofs.v
theories/WalkProofs.v
theories/PropsState.v
theories/ModelMemory.v
theories/SpecMemory.v
theories/MemoryProofs.v
theories/RunProofs.v
theories/PropsMemory.v
theories/ModelShared.v
theories/SpecShared.v
theories/AloneProofs.v
theories/SharedProofs.v
theories/PropsShared.v
theories/ModelThrow.v
theories/SpecThrow.v
theories/ThrowProofs.v
theories/PropsThrow.v
theories/ModelBuildThrow.v
theories/SpecBuildThrow.v
theories/BuildThrowProofs.v
theories/PropsBuildThrow.v
theories/ModelDistThrow.v
theories/SpecDistThrow.v
theories/DistThrowProofs.v
theories/PropsDistThrow.v
theories/DepthProofs.v
theories/PropsDepth.v
theories/ModelMemo.v
theories/MemoProofs.v
theories/PropsMemo.v
theories/ModelIterator.v
theories/SpecIterator.v
theories/IteratorProofs.v
theories/PropsIterator.v
theories/ModelText.v
theories/SpecText.v
theories/TextProofs.v
theories/PropsText.v
theories/ModelSteps.v
theories/StepsAlone.v
theories/SpecSteps.v
theories/StepsProofs.v
theories/StepsSession.v
theories/StepsThreads.v
theories/PropsSteps.v
theories/ModelTests.v
theories/SpecTests.v
theories/TestsState.v
theories/TestsNode.v
theories/TestsDawg.v
theories/PropsTests.v
theories/ModelBuckets.v
theories/SpecBuckets.v
theories/BucketsProofs.v
theories/PropsBuckets.v
theories/SpecOutlive.v
theories/OutliveProofs.v
theories/GoneProofs.v
theories/PropsOutlive.v
theories/LastProofs.v
theories/PropsLast.v
theories/ModelIterThrow.v
theories/SpecIterThrow.v
theories/IterThrowProofs.v
theories/PropsIterThrow.v
theories/ModelSerialThrow.v
theories/SerialThrowProofs.v
theories/PropsSerialThrow.v
theories/ModelBuildCost.v
theories/BuildCostProofs.v
theories/PropsBuildCost.v
theories/SpecSnapshot.v
theories/SnapshotProofs.v
theories/PropsSnapshot.v
theories/PropsUnfinished.v
theories/SpecForeign.v
theories/ForeignProofs.v
theories/PropsForeign.v
theories/ModelTestTools.v
theories/SpecTestTools.v
theories/PropsTestTools.v
theories/SpecStream.v
theories/StreamProofs.v
theories/PropsStream.v
theories/ModelMurmur.v
theories/SpecMurmur.v
theories/MurmurProofs.v
theories/MurmurInj.v
theories/PropsMurmur.v
theories/TestsMurmur.v
theories/PropsRelated.v
theories/SpecHold.v
theories/HoldProofs.v
theories/IterHoldProofs.v
theories/PropsHold.v
theories/BuildHoldProofs.v
theories/PropsBuildHold.v
theories/ModelUseCost.v
theories/SpecUseCost.v
theories/UseCostProofs.v
theories/PropsUseCost.v
theories/SavedProofs.v
theories/PropsSaved.v
theories/SpecBall.v
theories/BallProofs.v
theories/PropsBall.v
theories/SpecAlloc.v
theories/AllocProofs.v
theories/PropsAlloc.v
theories/SeveralProofs.v
theories/PropsSeveral.v
theories/ModelReadCost.v
theories/ReadCostProofs.v
theories/PropsReadCost.v
theories/ModelMatchCost.v
theories/SpecMatchCost.v
theories/MatchCostProofs.v
theories/StalkProofs.v
theories/PropsMatchCost.v
theories/ModelHand.v
theories/SpecHand.v
theories/HandProofs.v
theories/PropsHand.v
theories/ModelHandMap.v
theories/SpecHandMap.v
theories/HandMapProofs.v
theories/PropsHandMap.v
theories/HandDawgProofs.v
theories/PropsHandDawg.v
theories/RoundProofs.v
theories/IterRoundProofs.v
theories/PropsRound.v
theories/MirrorProofs.v
theories/SpecAlike.v
theories/SaveRoundProofs.v
theories/PropsSaveRound.v
theories/SpecGraft.v
theories/GraftProofs.v
theories/ReplaceProofs.v
theories/PropsGraft.v
theories/SpecStory.v
theories/StoryProofs.v
theories/PropsStory.v
theories/SpecSame.v
theories/SameProofs.v
theories/PropsSame.v
theories/SpecResume.v
theories/ResumeProofs.v
theories/PropsResume.v
theories/ReopenProofs.v
theories/PropsReopen.v
theories/OverProofs.v
theories/PropsOver.v
theories/SpecMeaning.v
theories/MeaningProofs.v
theories/PropsMeaning.v
theories/SpecAlphabet.v
theories/AlphabetProofs.v
theories/PropsAlphabet.v
theories/PropsRebuild.v
theories/PropsNearest.v
theories/ModelCopies.v
theories/SpecCopies.v
theories/PropsCopies.v
theories/PropsParts.v
theories/ModelSavers.v
theories/PropsSavers.v
theories/PropsKeystroke.v
theories/PropsRuns.v
theories/PropsUnsubsume.v
