-Q theories Verif
theories/RangeModel.v
theories/MDRangeModel.v
theories/Spec.v
theories/RangeProofs.v
theories/MDRangeProofs.v
theories/PropertiesRanges.v
theories/Result.v
theories/RTreeModel.v
theories/IndexSetModel.v
theories/TreeSpec.v
theories/IndexSetSpec.v
theories/ListTac.v
theories/RTreeSplitProofs.v
theories/RTreeQueryProofs.v
theories/BoxListProofs.v
theories/RTreeProofs.v
theories/IndexSetProofs.v
theories/IndexSetQueryProofs.v
theories/IndexSetBuildProofs.v
theories/IndexSetOpsProofs.v
theories/RTreeTotalProofs.v
theories/IndexSetRemoveProofs.v
theories/IndexSetProjProofs.v
theories/IndexSetIterModel.v
theories/IndexSetIterProofs.v
theories/IndexSetHistProofs.v
theories/IndexSetCompareProofs.v
theories/IndexSetWitness.v
theories/PropertiesIndexSet.v
theories/TreeHistProofs.v
theories/PropertiesTree.v
theories/BoxSetModel.v
theories/BoxSetProofs.v
theories/AccessModel.v
theories/AccessSpec.v
theories/AccessProofs.v
theories/AccessImageProofs.v
theories/AccessInverseProofs.v
theories/AccessPreimageProofs.v
theories/AccessInverseExactProofs.v
theories/AccessCombineProofs.v
theories/AccessReadProofs.v
theories/PropertiesAccess.v
theories/MCIMModel.v
theories/MCIMSpec.v
theories/MCIMProofs.v
theories/MCIMSetProofs.v
theories/MCIMOpsProofs.v
theories/MCIMSpaceProofs.v
theories/PropertiesMCIM.v
theories/LocalMatchingModel.v
theories/LocalMatchingProofs.v
theories/PropertiesLocalMatching.v
theories/WritesMapModel.v
theories/WritesMapProofs.v
theories/PropertiesWrites.v
theories/LoopModel.v
theories/LoopSpec.v
theories/LoopProofs.v
theories/PropertiesLoops.v
theories/SubscriptModel.v
theories/SubscriptSpec.v
theories/SubscriptProofs.v
theories/PropertiesSubscript.v
theories/LexerModel.v
theories/LexerSpec.v
theories/FloatLexerProofs.v
theories/LexerProofs.v
theories/PropertiesLexer.v
theories/VFModel.v
theories/VFSpec.v
theories/VFProofs.v
theories/PropertiesVF.v
theories/SymModel.v
theories/SymSpec.v
theories/SymProofs.v
theories/PropertiesSym.v
theories/GroupModel.v
theories/GroupSpec.v
theories/GroupProofs.v
theories/PropertiesGroup.v
theories/DerModel.v
theories/DerSpec.v
theories/DerProofs.v
theories/PropertiesDer.v
theories/ParModel.v
theories/ParSpec.v
theories/ParProofs.v
theories/PropertiesPar.v
theories/SchedModel.v
theories/SchedSpec.v
theories/PostOrderProofs.v
theories/SchedProofs.v
theories/DirectionProofs.v
theories/ScheduleProofs.v
theories/PropertiesSched.v
theories/DerMapModel.v
theories/DerMapSpec.v
theories/DerMapProofs.v
theories/PropertiesDerMap.v
theories/MatchModel.v
theories/MatchSpec.v
theories/MatchSetProofs.v
theories/MatchApplyProofs.v
theories/MatchSearchProofs.v
theories/MatchPathProofs.v
theories/MatchHKProofs.v
theories/MatchBuildProofs.v
theories/MatchLeafProofs.v
theories/MatchRunProofs.v
theories/MatchCaseProofs.v
theories/PropertiesMatch.v
theories/PantModel.v
theories/PantSpec.v
theories/PantProofs.v
theories/PantGraphProofs.v
theories/PantSafeProofs.v
theories/PantCaseProofs.v
theories/PantResultProofs.v
theories/PropertiesPant.v
theories/ParserModel.v
theories/ParserSpec.v
theories/ParserProofs.v
theories/ParserCompleteProofs.v
theories/PropertiesParser.v
theories/BlockParserModel.v
theories/BlockParserSpec.v
theories/BlockParserProofs.v
theories/PropertiesBlockParser.v
theories/ClassParserModel.v
theories/ClassParserSpec.v
theories/ClassParserProofs.v
theories/ClassParserCompleteProofs.v
theories/PropertiesClassParser.v
theories/RKModel.v
theories/RKSpec.v
theories/RKStatements.v
theories/RKExamples.v
theories/RKProofs.v
theories/RKOrderProofs.v
theories/RKRunProofs.v
theories/RKCaseProofs.v
theories/PropertiesRK.v
theories/FloatFacts.v
theories/ArithModel.v
theories/ArithSpec.v
theories/ArithProofs.v
theories/ArithFoldProofs.v
theories/ArithBuiltinProofs.v
theories/ArithReduceProofs.v
theories/PropertiesArith.v
theories/StmtModel.v
theories/StmtSpec.v
theories/StmtProofs.v
theories/StmtLowerProofs.v
theories/PropertiesStmt.v
theories/EqModel.v
theories/EqSpec.v
theories/EqSubstProofs.v
theories/EqSCCProofs.v
theories/EqSplitProofs.v
theories/PropertiesEq.v
theories/CallModel.v
theories/CallSpec.v
theories/CallProofs.v
theories/PropertiesCall.v
theories/CseModel.v
theories/CseSpec.v
theories/CseProofs.v
theories/PropertiesCse.v
theories/ForModel.v
theories/ForSpec.v
theories/ForProofs.v
theories/PropertiesFor.v
theories/SecModel.v
theories/SecSpec.v
theories/SecProofs.v
theories/PropertiesSec.v
theories/InitModel.v
theories/InitSpec.v
theories/InitProofs.v
theories/PropertiesInit.v
theories/InlineModel.v
theories/InlineSpec.v
theories/InlineProofs.v
theories/PropertiesInline.v
theories/PruneModel.v
theories/PruneSpec.v
theories/PruneProofs.v
theories/PropertiesPrune.v
theories/PromoteModel.v
theories/PromoteSpec.v
theories/PromoteProofs.v
theories/PropertiesPromote.v
theories/PropagateModel.v
theories/PropagateSpec.v
theories/PropagateProofs.v
theories/PropertiesPropagate.v
theories/VectorCallModel.v
theories/VectorCallSpec.v
theories/VectorCallProofs.v
theories/PropertiesVectorCall.v
theories/SliceModel.v
theories/SliceSpec.v
theories/SliceProofs.v
theories/PropertiesSlice.v
theories/StartOrderModel.v
theories/StartOrderSpec.v
theories/StartOrderProofs.v
theories/PropertiesStartOrder.v
theories/RecordRefModel.v
theories/RecordRefSpec.v
theories/RecordRefProofs.v
theories/PropertiesRecordRef.v
theories/RecordAssignModel.v
theories/RecordAssignSpec.v
theories/RecordAssignProofs.v
theories/PropertiesRecordAssign.v
theories/RecordCallModel.v
theories/RecordCallSpec.v
theories/RecordCallProofs.v
theories/PropertiesRecordCall.v
theories/ParRunModel.v
theories/ParRunSpec.v
theories/ParRunProofs.v
theories/PropertiesParRun.v
theories/RtCheckModel.v
theories/RtCheckSpec.v
theories/RtCheckProofs.v
theories/PropertiesRtCheck.v
theories/ArrayOpsModel.v
theories/ArrayOpsSpec.v
theories/ArrayOpsProofs.v
theories/PropertiesArrayOps.v
theories/ArrayGenModel.v
theories/ArrayGenSpec.v
theories/ArrayGenProofs.v
theories/PropertiesArrayGen.v
theories/MetadataModel.v
theories/MetadataSpec.v
theories/MetadataProofs.v
theories/PropertiesMetadata.v
theories/UnwrapModel.v
theories/UnwrapSpec.v
theories/UnwrapProofs.v
theories/PropertiesUnwrap.v
theories/DerInitModel.v
theories/DerInitSpec.v
theories/DerInitProofs.v
theories/PropertiesDerInit.v
theories/TokenSpec.v
theories/PropertiesToken.v
