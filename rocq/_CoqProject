-Q theories Verif
theories/Base.v
theories/Bell.v
theories/Stage.v
theories/Parity.v
theories/Row.v
theories/Utils.v
theories/SameStageVec.v
theories/Block.v
theories/PlaceNot.v
theories/Music.v
theories/Mask.v
theories/Spec.v
theories/SpecAcc.v
theories/ListFacts.v
theories/BellFacts.v
theories/RowFacts.v
theories/MulFacts.v
theories/ParityFacts.v
theories/GroupFacts.v
theories/BellThms.v
theories/PropsBell.v
theories/RowThms.v
theories/PropsRow.v
theories/GroupFacts2.v
theories/GroupThms.v
theories/PropsGroup.v
theories/SpecVec.v
theories/SsvFacts.v
theories/SsvFacts2.v
theories/SsvThms.v
theories/PropsSsv.v
theories/SpecBlock.v
theories/BlockFacts.v
theories/BlockThms.v
theories/PropsBlock.v
theories/SpecPn.v
theories/PnFacts.v
theories/PnFacts2.v
theories/PnFacts3.v
theories/PnThms.v
theories/PropsPn.v
theories/SpecMask.v
theories/MaskFacts.v
theories/MaskFacts2.v
theories/MaskFacts3.v
theories/MaskLawFacts.v
theories/MusicFacts.v
theories/RegexLawFacts.v
theories/MusicFacts2.v
theories/MusicFacts3.v
theories/MaskThms.v
theories/PropsMask.v
theories/MusicThms.v
theories/PropsMusic.v
theories/Class.v
theories/Method.v
theories/Call.v
theories/MethodFacts.v
theories/TruthFacts.v
theories/SpecCost.v
theories/Steps.v
theories/Steps2.v
theories/StepFacts.v
theories/CostFacts.v
theories/SwapFacts.v
theories/SpecText.v
theories/TextFacts.v
theories/SpecOrder.v
theories/OrderFacts.v
theories/SpecAlike.v
theories/AlikeFacts.v
theories/SpecCover.v
theories/CoverFacts.v
theories/SpecConj.v
theories/ConjFacts.v
theories/SpecPanics.v
theories/PanicFacts.v
theories/PanicFacts2.v
theories/PanicFacts3.v
theories/Alloc.v
theories/SpecAlloc.v
theories/AllocFacts.v
theories/AllocFacts2.v
theories/AllocFacts3.v
theories/SpecMethod.v
theories/MethodThms.v
theories/PropsMethod.v
theories/SpecClass.v
theories/ClassFacts.v
theories/ClassFacts2.v
theories/ClassFacts3.v
theories/ClassThms.v
theories/PropsClass.v
theories/Library.v
theories/Serde.v
theories/Json.v
theories/SpecLib.v
theories/LibFacts.v
theories/SpecJson.v
theories/JsonFacts.v
theories/Closures.v
theories/SpecClosures.v
theories/ClosuresFacts.v
theories/Adapters.v
theories/SpecAdapters.v
theories/AdaptersFacts.v
theories/GrammarFacts.v
theories/FormFacts.v
theories/Utf8.v
theories/Cache.v
theories/SpecCache.v
theories/Utf8Facts.v
theories/CacheFacts.v
theories/LibThms.v
theories/PropsLib.v
theories/Program.v
theories/Machine.v
theories/Release.v
theories/SpecMachine.v
theories/MachineFacts.v
theories/MachineFacts2.v
theories/SpecLaws.v
theories/LawFacts.v
theories/LawFacts2.v
theories/SpecCycle.v
theories/SpecShare.v
theories/CycleFacts.v
theories/LawFacts3.v
theories/Unwind.v
theories/SpecProg.v
theories/SafeFacts.v
theories/SafeFacts2.v
theories/SpecEnds.v
theories/EndFacts.v
theories/SpecUnwind.v
theories/UnwindFacts.v
theories/UnwindFacts2.v
theories/UnwindFacts3.v
theories/UnwindFacts4.v
theories/EndFacts2.v
theories/Unsafe.v
theories/SpecUnsafe.v
theories/UnsafeFacts.v
theories/ProgThms.v
theories/PropsProg.v
theories/CtorFacts.v
theories/CtorThms.v
theories/PropsCtor.v
theories/Format.v
theories/Compare.v
theories/Conformance.v
theories/FormatFacts.v
theories/SpecFormat.v
theories/FormatThms.v
theories/PropsFormat.v
theories/UnwindThms.v
theories/PropsUnwind.v
theories/MachineThms.v
theories/PropsMachine.v
theories/LawsThms.v
theories/PropsLaws.v
theories/Laws2Thms.v
theories/PropsLaws2.v
theories/CacheThms.v
theories/PropsCache.v
theories/JsonThms.v
theories/PropsJson.v
theories/IterThms.v
theories/PropsIter.v
theories/ClosuresThms.v
theories/PropsClosures.v
theories/EndsThms.v
theories/PropsEnds.v
theories/UnsafeThms.v
theories/PropsUnsafe.v
theories/CcXml.v
theories/SpecXml.v
theories/XmlFacts.v
theories/XmlThms.v
theories/PropsXml.v
theories/SpecRelease.v
theories/WeakFacts.v
theories/WeakFacts2.v
theories/WeakFacts3.v
theories/ReleaseFacts.v
theories/ReleaseFacts2.v
theories/SpecTouch.v
theories/SpecSym.v
theories/SpecHunt.v
theories/SpecAffect.v
theories/TouchFacts.v
theories/AffectFacts.v
theories/SymFacts.v
theories/PathFacts.v
theories/SpecRuns.v
theories/SpecTally.v
theories/RunFacts.v
theories/Aliases.v
theories/Derived.v
theories/DerivedFacts.v
theories/SpecRename.v
theories/RenameFacts.v
theories/ExtentFacts.v
theories/DirectFacts.v
theories/SymFacts2.v
theories/SymFacts3.v
theories/SpecUpside.v
theories/UpsideFacts.v
theories/UpsideFacts2.v
theories/ShapeFacts.v
theories/SpecCoverPn.v
theories/CoverFacts2.v
theories/SpecCount.v
theories/ReachFacts.v
theories/EvenFacts.v
theories/QsplitFacts.v
theories/InsertFacts.v
theories/QjoinFacts.v
theories/GrandsireFacts.v
theories/StedmanFacts.v
theories/RoundFacts.v
theories/SpecRound.v
theories/RoundFacts2.v
theories/QsetFacts.v
theories/RoundFacts3.v
theories/CosetFacts.v
theories/PartFacts.v
theories/SortNetFacts.v
theories/FewFacts.v
theories/PlainChangesFacts.v
theories/DoubleFacts.v
theories/SpecGrandsire.v
theories/SpecStedman.v
theories/BetweenFacts.v
theories/HuntFacts.v
theories/BobFacts.v
theories/CalledBobFacts.v
theories/EvenBobFacts.v
theories/DiffFacts.v
theories/WorkFacts.v
theories/ShareFacts.v
theories/PlainFacts.v
theories/LeadLenFacts.v
theories/RepeatPlaceFacts.v
theories/CourseExtentFacts.v
theories/MultiFacts.v
theories/TallyFacts.v
theories/StillFacts.v
theories/BellPathFacts.v
theories/MirrorFacts.v
theories/Room.v
theories/RoomFacts.v
theories/SpecTotals.v
theories/ReleaseThms.v
theories/PropsRelease.v
theories/LawsMaskThms.v
theories/PropsLawsMask.v
theories/LawsRegexThms.v
theories/PropsLawsRegex.v
theories/CycleThms.v
theories/PropsCycle.v
theories/TouchThms.v
theories/PropsTouch.v
theories/SymThms.v
theories/PropsSym.v
theories/ClassKindsThms.v
theories/PropsClassKinds.v
theories/DirectThms.v
theories/PropsDirect.v
theories/RunsThms.v
theories/PropsRuns.v
theories/ExtentThms.v
theories/PropsExtent.v
theories/TruthThms.v
theories/PropsTruth.v
theories/CostThms.v
theories/PropsCost.v
theories/TextThms.v
theories/PropsText.v
theories/AllocThms.v
theories/PropsAlloc.v
theories/OrderThms.v
theories/PropsOrder.v
theories/AlikeThms.v
theories/PropsAlike.v
theories/CoverThms.v
theories/PropsCover.v
theories/PanicsThms.v
theories/PropsPanics.v
theories/UpsideThms.v
theories/PropsUpside.v
theories/ShapesThms.v
theories/PropsShapes.v
theories/RenameThms.v
theories/PropsRename.v
theories/AliasesThms.v
theories/PropsAliases.v
theories/DerivedThms.v
theories/PropsDerived.v
theories/ConjThms.v
theories/PropsConj.v
theories/CoverPnThms.v
theories/PropsCoverPn.v
theories/CountThms.v
theories/PropsCount.v
theories/EvenThms.v
theories/PropsEven.v
theories/JoinThms.v
theories/PropsJoin.v
theories/PathThms.v
theories/PropsPath.v
theories/MirrorThms.v
theories/PropsMirror.v
theories/RoomThms.v
theories/PropsRoom.v
theories/StillThms.v
theories/PropsStill.v
theories/MaskTextThms.v
theories/PropsMaskText.v
theories/BetweenThms.v
theories/PropsBetween.v
theories/MaskGroupThms.v
theories/PropsMaskGroup.v
theories/SortThms.v
theories/PropsSort.v
theories/HuntThms.v
theories/PropsHunt.v
theories/BobThms.v
theories/PropsBob.v
theories/DiffThms.v
theories/PropsDiff.v
theories/WorkThms.v
theories/PropsWork.v
theories/PlainThms.v
theories/PropsPlain.v
theories/LeadLenThms.v
theories/PropsLeadLen.v
theories/RepeatPlaceThms.v
theories/PropsRepeatPlace.v
theories/CourseExtentThms.v
theories/PropsCourseExtent.v
theories/AffectThms.v
theories/PropsAffect.v
theories/TallyThms.v
theories/PropsTally.v
theories/CalledBobThms.v
theories/PropsCalledBob.v
theories/EvenBobThms.v
theories/PropsEvenBob.v
theories/GrandsireThms.v
theories/PropsGrandsire.v
theories/SwapsThms.v
theories/PropsSwaps.v
theories/StedmanThms.v
theories/PropsStedman.v
theories/RoundThms.v
theories/PropsRound.v
theories/BobRoundThms.v
theories/PropsBobRound.v
theories/CosetThms.v
theories/PropsCoset.v
theories/PartThms.v
theories/PropsPart.v
theories/FewThms.v
theories/PropsFew.v
theories/PlainChangesThms.v
theories/PropsPlainChanges.v
theories/DoubleThms.v
theories/PropsDouble.v
theories/ShareThms.v
theories/PropsShare.v
theories/QsetThms.v
theories/PropsQset.v
theories/BoundThms.v
theories/PropsBound.v
theories/MultiThms.v
theories/PropsMulti.v
theories/QjoinThms.v
theories/PropsQjoin.v
theories/InsertThms.v
theories/PropsInsert.v
theories/QsplitThms.v
theories/PropsQsplit.v
