-Q theories Verif
theories/Base.v
theories/ModelString.v
theories/ModelVlq.v
theories/ModelSm.v
theories/ModelSlm.v
theories/ModelRegex.v
theories/ModelSources.v
theories/ModelTree.v
theories/ModelWasm.v
theories/ModelHeap.v
theories/ModelJs.v
theories/Sanity.v
theories/Tactics.v
theories/StringFacts.v
theories/SortFacts.v
theories/SpecCalls.v
theories/SpecContents.v
theories/SpecGen.v
theories/SpecGiven.v
theories/SpecHashText.v
theories/SpecLeaf.v
theories/SpecLeafAttr.v
theories/SpecLines.v
theories/SpecLists.v
theories/SpecLoad.v
theories/SpecNode.v
theories/SpecOpt.v
theories/SpecOrder.v
theories/SpecQuery.v
theories/SpecReached.v
theories/SpecReadable.v
theories/SpecRun.v
theories/SpecSlice.v
theories/SpecSlm.v
theories/SpecSlmPieces.v
theories/SpecSlmTree.v
theories/SpecSlmWhole.v
theories/SpecSmall.v
theories/SpecSort.v
theories/SpecSorted.v
theories/SpecTree.v
theories/SpecTurn.v
theories/SpecView.v
theories/SpecText.v
theories/TextFacts.v
theories/EditFacts.v
theories/SliceFacts.v
theories/Utf8.v
theories/TreeText.v
theories/PropertiesText.v
theories/SpecMap.v
theories/VlqFacts.v
theories/MapFacts.v
theories/ParseFacts.v
theories/GenFacts.v
theories/LoadFacts.v
theories/MapProps.v
theories/ContentHist.v
theories/PropertiesMap.v
theories/SpecAttr.v
theories/SpecEdit.v
theories/NodeFacts.v
theories/LeafFacts.v
theories/ReplaceNode.v
theories/SmsNode.v
theories/SmsProps.v
theories/NodeTree.v
theories/PropertiesNode.v
theories/SpecList.v
theories/SlmFacts.v
theories/SlmMap.v
theories/SlmRead.v
theories/SlmReplace.v
theories/SlmTree.v
theories/SlmWhole.v
theories/SlmProps.v
theories/PropertiesList.v
theories/SpecLineEdit.v
theories/SlmEdits.v
theories/PropertiesEdit.v
theories/JsFacts.v
theories/SpecHeap.v
theories/HeapFacts.v
theories/HeapGraph.v
theories/HeapProps.v
theories/HeapSettle.v
theories/PropertiesHeap.v
theories/PropertiesJs.v
theories/SpecBuilt.v
theories/PanicFacts.v
theories/PanicProps.v
theories/PropertiesPanic.v
theories/Refeed.v
theories/RefeedInner.v
theories/RefeedContents.v
theories/PropertiesRefeed.v
theories/ModelJsApi.v
theories/SpecJs.v
theories/Utf16Facts.v
theories/JsTextProps.v
theories/SpecHash.v
theories/HashFacts.v
theories/PropertiesApi.v
theories/ModelJsResult.v
theories/SpecResult.v
theories/ResultFacts.v
theories/ResultProps.v
theories/PropertiesResult.v
theories/ModelPool.v
theories/SpecPool.v
theories/PoolFacts.v
theories/PoolProps.v
theories/PropertiesPool.v
theories/ModelEnd.v
theories/SpecEnd.v
theories/IdxFacts.v
theories/SlmLines.v
theories/EndFacts.v
theories/MadeFacts.v
theories/EndProps.v
theories/ContentFacts.v
theories/EndMap.v
theories/LineEnd.v
theories/PropertiesEnd.v
theories/ModelJsList.v
theories/SpecJsList.v
theories/JsListFacts.v
theories/JsListProps.v
theories/PropertiesJsList.v
theories/SpecEffect.v
theories/EffectFacts.v
theories/EffectOrder.v
theories/PropertiesEffect.v
theories/SpecLeast.v
theories/LeastFacts.v
theories/LeastEnd.v
theories/PropertiesLeast.v
theories/SpecSame.v
theories/ParaList.v
theories/ParaMap.v
theories/ParaNode.v
theories/ParaEnd.v
theories/ParaSame.v
theories/PropertiesSame.v
theories/ModelJsNode.v
theories/SpecJsNode.v
theories/JsNodeProps.v
theories/PropertiesJsNode.v
theories/SpecEdited.v
theories/EditedFacts.v
theories/EditedBuild.v
theories/EditedEnd.v
theories/EditedOrder.v
theories/PropertiesEdited.v
theories/SpecLineEdited.v
theories/LineEditedFacts.v
theories/LineEditedEnd.v
theories/PropertiesLineEdited.v
theories/ModelJsProg.v
theories/SpecProg.v
theories/ProgFacts.v
theories/ProgSteps.v
theories/ProgProps.v
theories/ProgEnd.v
theories/PropertiesProg.v
theories/SpecThrow.v
theories/ThrowProps.v
theories/HashProps.v
theories/PropertiesThrow.v
theories/ModelJsCached.v
theories/SpecCached.v
theories/CachedFacts.v
theories/CachedSteps.v
theories/CachedChain.v
theories/CachedOrigin.v
theories/CachedProps.v
theories/PropertiesCached.v
theories/ModelAgain.v
theories/SpecAgain.v
theories/AgainProps.v
theories/AgainLines.v
theories/AgainDirect.v
theories/PropertiesAgain.v
theories/ModelGlue.v
theories/SpecGlue.v
theories/GlueFacts.v
theories/GlueProps.v
theories/PropertiesGlue.v
theories/SpecJsListEdit.v
theories/JsListEdit.v
theories/PropertiesJsListEdit.v
theories/ModelPoolReuse.v
theories/SpecPoolReuse.v
theories/PoolReuse.v
theories/PropertiesPoolReuse.v
theories/SpecAlike.v
theories/AlikeFacts.v
theories/AlikeEnd.v
theories/PropertiesAlike.v
theories/SpecSplit.v
theories/SplitFacts.v
theories/SplitTree.v
theories/SplitEnd.v
theories/SplitLines.v
theories/PropertiesSplit.v
theories/AlikeEdit.v
theories/SpecRegroup.v
theories/RegroupFacts.v
theories/PropertiesAlikeEdit.v
theories/SpecStages.v
theories/StageFacts.v
theories/StageList.v
theories/StageEnd.v
theories/PropertiesStages.v
theories/SpecIdle.v
theories/IdleFacts.v
theories/IdleTree.v
theories/IdleLines.v
theories/PropertiesIdle.v
theories/SpecCoarse.v
theories/CoarseFacts.v
theories/CoarseEdit.v
theories/CoarsePrefix.v
theories/PropertiesCoarse.v
