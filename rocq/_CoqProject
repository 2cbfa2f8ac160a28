-Q theories Verif
theories/Bytes.v
theories/Floats.v
theories/CTypes.v
theories/Schema.v
theories/Constraint.v
theories/Prog.v
theories/Streams.v
theories/Read.v
theories/Write.v
theories/Static.v
theories/Kinds.v
theories/Options.v
theories/Spec.v
theories/WSpec.v
theories/StaticSpec.v
theories/KindSpec.v
theories/OptionSpec.v
theories/Typing.v
theories/PropDefs.v
theories/Examples.v
theories/BytesFacts.v
theories/ProgFacts.v
theories/ReadFacts.v
theories/ReadMore.v
theories/Indep.v
theories/ReadLemmas.v
theories/StreamFacts.v
theories/LayoutFacts.v
theories/Safety.v
theories/ReadFinal.v
theories/CeilingFacts.v
theories/WriteFacts.v
theories/WriteMain.v
theories/WriteLoc.v
theories/WriteErr.v
theories/WriteRel.v
theories/WriteMore.v
theories/WriteFinal.v
theories/RTrip.v
theories/RTrip2.v
theories/Rewrite.v
theories/FloatSpec.v
theories/FloatFacts.v
theories/TightFacts.v
theories/DamageFacts.v
theories/PropsRead.v
theories/MixedFacts.v
theories/StaticFacts.v
theories/StaticDeps.v
theories/StaticWf.v
theories/StaticMore.v
theories/Narrow.v
theories/Ranges.v
theories/MoreSpec.v
theories/MoreDefs.v
theories/ConvFacts.v
theories/TotalFacts.v
theories/RangeFacts.v
theories/SeqFacts.v
theories/ContFacts.v
theories/AppendFacts.v
theories/WExact.v
theories/ExactFacts.v
theories/RExact.v
theories/RExactFacts.v
theories/PropsMisc.v
theories/PropsRound.v
theories/PropsWrite.v
theories/PropsStatic.v
theories/PropsMore.v
theories/KindFacts.v
theories/PropsExact.v
theories/PropsKinds.v
theories/Guides.v
theories/GuideSpec.v
theories/GuideFacts.v
theories/PropsGuides.v
theories/EquivSpec.v
theories/EquivFacts.v
theories/EquivFacts2.v
theories/PropsEquiv.v
theories/PropsFloats.v
theories/PropsMixed.v
theories/RStop.v
theories/RStopFacts.v
theories/PropsStop.v
theories/OptionFacts.v
theories/PropsOptions.v
theories/Conformance.v
theories/ConformanceStatic.v
theories/Laws.v
theories/LawFacts.v
theories/LawMore.v
theories/GroupSpec.v
theories/GroupFacts.v
theories/PropsLaws.v
theories/CallSpec.v
theories/CallFacts.v
theories/PropsCalls.v
theories/UserCode.v
theories/UserSpec.v
theories/UserFacts.v
theories/UserWrite.v
theories/UserLogSpec.v
theories/UserLog.v
theories/UserRead.v
theories/UserLogRead.v
theories/UserFailSpec.v
theories/UserFail.v
theories/UserHaltSpec.v
theories/UserHalt.v
theories/UserThrowSpec.v
theories/UserThrow.v
theories/PropsLog.v
theories/PropsThrow.v
theories/PropsUser.v
theories/Meta.v
theories/MetaSpec.v
theories/MetaFacts.v
theories/PropsMeta.v
theories/PropsGroup.v
theories/BuildSpec.v
theories/BuildFacts.v
theories/PropsBuild.v
theories/Amalgam.v
theories/AmalgamSpec.v
theories/AmalgamFacts.v
theories/ConformanceAmalgam.v
theories/PropsAmalgam.v
theories/RestateSpec.v
theories/RestateFacts.v
theories/PropsRestate.v
theories/ArrCmp.v
theories/ArrSpec.v
theories/ArrFacts.v
theories/PropsArr.v
theories/FileStream.v
theories/FileSpec.v
theories/FileFacts.v
theories/PropsFile.v
theories/DegenSpec.v
theories/DegenFacts.v
theories/PropsDegen.v
theories/DocTools.v
theories/DocSpec.v
theories/DocFacts.v
theories/PropsDoc.v
theories/ConformanceDocs.v
theories/AmalgamText.v
theories/AmalgamTextSpec.v
theories/AmalgamTextFacts.v
theories/AmalgamHeaderFacts.v
theories/AmalgamMoveFacts.v
theories/PropsAmalgamText.v
theories/SourceText.v
theories/ConformanceHeader.v
theories/DocText.v
theories/ConformanceDocTools.v
theories/GuardFacts.v
theories/PropsGuard.v
theories/RUndef.v
theories/RUndefFacts.v
theories/WUndef.v
theories/WUndefFacts.v
theories/PropsUndef.v
theories/Hello.v
theories/HelloSpec.v
theories/HelloFacts.v
theories/PropsHello.v
theories/Pipeline.v
theories/PipelineFacts.v
theories/WPipeline.v
theories/WPipelineFacts.v
theories/PropsPipeline.v
theories/FloatLen.v
theories/FloatLenSpec.v
theories/FloatLenFacts.v
theories/PropsFloatLen.v
theories/FloatDisc.v
theories/FloatDiscSpec.v
theories/FloatDiscFacts.v
theories/PropsFloatDisc.v
theories/MaybeBase.v
theories/MaybeBaseSpec.v
theories/MaybeBaseFacts.v
theories/PropsMaybeBase.v
theories/Names.v
theories/NamesSpec.v
theories/NamesFacts.v
theories/PropsNames.v
theories/Declare.v
theories/DeclareSpec.v
theories/DeclareFacts.v
theories/PropsDeclare.v
theories/TableSpec.v
theories/TableFacts.v
theories/PropsTable.v
theories/Copies.v
theories/CopySpec.v
theories/CopyFacts.v
theories/PropsCopy.v
theories/Live.v
theories/LiveSpec.v
theories/LiveFacts.v
theories/PropsLive.v
theories/CaseSpec.v
theories/CaseFacts.v
theories/PropsCase.v
theories/OrderFacts.v
theories/OrderSpec.v
theories/OrderMore.v
theories/OrderStatic.v
theories/PropsOrder.v
theories/RelaySpec.v
theories/RelayFacts.v
theories/PropsRelay.v
theories/TypedSpec.v
theories/TypedFacts.v
theories/PropsTyped.v
theories/PayloadSpec.v
theories/PayloadFacts.v
theories/PropsPayload.v
theories/EvolveFacts.v
theories/PropsEvolve.v
theories/EditSpec.v
theories/EditFacts.v
theories/PropsEdit.v
theories/DispatchSpec.v
theories/DispatchFacts.v
theories/PropsDispatch.v
theories/OneByOneSpec.v
theories/OneByOneFacts.v
theories/PropsOneByOne.v
theories/SplitSpec.v
theories/SplitFacts.v
theories/SplitMore.v
theories/PropsSplit.v
