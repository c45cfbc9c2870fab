-Q theories Verif
theories/Base.v
theories/Rlp.v
theories/NibblePath.v
theories/Node.v
theories/ProofObj.v
theories/Mpt.v
theories/Keccak.v
theories/BaseProofs.v
theories/RlpProofs.v
theories/NibbleProofs.v
theories/TestVectors.v
theories/Tree.v
theories/TreeEnc.v
theories/StoreProofs.v
theories/UpdateProofs.v
theories/DeleteProofs.v
theories/ReadProofs.v
theories/Spec.v
theories/KeccakProofs.v
theories/MptRefine.v
theories/MptProofs.v
theories/Examples.v
theories/MptRefutations.v
theories/PropertiesMpt.v
theories/SpecCodec.v
theories/CodecProofs.v
theories/PropertiesCodec.v
theories/SpecProof.v
theories/PoiProofs.v
theories/PoeProofs.v
theories/ProofRefutations.v
theories/PropertiesProof.v
theories/MptEq.v
theories/MptCodecProofs.v
theories/MptCodecRefutations.v
theories/PropertiesMptCodec.v
theories/Empt.v
theories/SpecEmpt.v
theories/EmptProofs.v
theories/EmptShared.v
theories/EmptProofs2.v
theories/EmptRefutations.v
theories/EmptExamples.v
theories/PropertiesEmpt.v
theories/MerkleTree.v
theories/SpecMt.v
theories/MtProofs.v
theories/MtProofs2.v
theories/MtSound.v
theories/MtRlp.v
theories/MtRefutations.v
theories/MtExamples.v
theories/PropertiesMt.v
theories/TestVectors2.v
theories/Json.v
theories/JsonProofs.v
theories/ProofJson.v
theories/ProofJsonProofs.v
theories/PropertiesJson.v
theories/Keypairs.v
theories/SpecKeys.v
theories/KeysProofs.v
theories/KeysExamples.v
theories/PropertiesKeys.v
theories/SpecGet.v
theories/MptGetExact.v
theories/SpecWalk.v
theories/WalkProofs.v
theories/PoeExact.v
theories/WalkExamples.v
theories/PropertiesWalk.v
theories/SpecSparse.v
theories/SparseProofs.v
theories/SpecChain.v
theories/ChainProofs.v
theories/SparseExamples.v
theories/PropertiesSparse.v
theories/SpecJson.v
theories/JsonGrammar.v
theories/SpecWire.v
theories/JsonExact.v
theories/PathIndex.v
theories/PropertiesWire.v
theories/SpecRlp.v
theories/RlpExact.v
theories/DecodeExact.v
theories/NodeSkeleton.v
theories/SkeletonProofs.v
theories/Malleable.v
theories/RlpExamples.v
theories/PropertiesRlp.v
theories/NibblePathPy.v
theories/SpecPath.v
theories/PathPyProofs.v
theories/Texts.v
theories/UtilsMisc.v
theories/SpecText.v
theories/TextProofs.v
theories/TextProofs2.v
theories/TextsExamples.v
theories/PropertiesTexts.v
theories/SpecYp.v
theories/YpProofs.v
theories/YpEmpt.v
theories/SpecCost.v
theories/CostProofs.v
theories/YpExamples.v
theories/PropertiesYp.v
theories/SpecShared.v
theories/SimProofs.v
theories/SharedProofs.v
theories/StatelessProofs.v
theories/GrowthProofs.v
theories/SpecAudit.v
theories/AuditProofs.v
theories/SpecAccept.v
theories/AcceptProofs.v
theories/SharedExamples.v
theories/PropertiesShared.v
theories/SpecMtObj.v
theories/MerkleTreePy.v
theories/MtTextProofs.v
theories/MtObjProofs.v
theories/MtStaleProofs.v
theories/MtPyProofs.v
theories/MtObjExamples.v
theories/PropertiesMtObj.v
theories/SpecInt.v
theories/MptHash.v
theories/IntProofs.v
theories/PropertiesInt.v
theories/SpecVerdict.v
theories/VerdictProofs.v
theories/PropertiesVerdict.v
theories/EmptPy.v
theories/SpecEvery.v
theories/EveryProofs.v
theories/EveryProofs2.v
theories/EveryExamples.v
theories/PropertiesEvery.v
theories/SpecDecode.v
theories/DecodeProofs.v
theories/SpecDepth.v
theories/DepthProofs.v
theories/SpecData.v
theories/DataProofs.v
theories/DataRefutations.v
theories/PropertiesDecode.v
theories/MptPy.v
theories/SpecMptEvery.v
theories/MptEveryProofs.v
theories/MptEveryExamples.v
theories/PropertiesMptEvery.v
theories/SpecLoose.v
theories/LooseProofs.v
theories/LooseThms.v
theories/LoosePoi.v
theories/LooseExamples.v
theories/LooseRefutations.v
theories/PropertiesLoose.v
theories/KeyCalls.v
theories/SpecKeyCalls.v
theories/KeyCallsProofs.v
theories/PropertiesKeyCalls.v
theories/UtilsPy.v
theories/SpecUtils.v
theories/UtilsProofs.v
theories/PropertiesUtils.v
theories/MerkleTools.v
theories/SpecTools.v
theories/ToolsProofs.v
theories/ToolsProofs2.v
theories/PropertiesTools.v
theories/EmptViews.v
theories/SpecViews.v
theories/ViewsProofs.v
theories/PropertiesViews.v
theories/Fleet.v
theories/SpecFleet.v
theories/FleetProofs.v
theories/FleetPoi.v
theories/FleetExamples.v
theories/ShippedProofs.v
theories/PropertiesFleet.v
theories/ShippedKeys.v
theories/ShippedKeysProofs.v
theories/EmptFault.v
theories/SpecFault.v
theories/EmptFaultProofs.v
theories/PropertiesScripts.v
theories/SpecReplica.v
theories/ReplicaProofs.v
theories/ReplicaExamples.v
theories/PropertiesReplica.v
theories/EmptLoop.v
theories/SpecLoop.v
theories/LoopProofs.v
theories/LoopProofs2.v
theories/PropertiesLoop.v
theories/EmptSets.v
theories/SpecSets.v
theories/SetsProofs.v
theories/PropertiesSets.v
theories/Threads.v
theories/SpecThreads.v
theories/ThreadsSeq.v
theories/ThreadsProofs.v
theories/ThreadsPool.v
theories/ThreadsSerial.v
theories/ThreadsAlone.v
theories/ThreadsRace.v
theories/ThreadsExamples.v
theories/PropertiesThreads.v
theories/MoreProofs.v
theories/PropertiesMore.v
theories/SpecErrors.v
theories/ErrorsProofs.v
theories/PropertiesErrors.v
theories/EThreads.v
theories/SpecEThreads.v
theories/EThreadsRun.v
theories/EThreadsSerial.v
theories/EThreadsAlone.v
theories/EThreadsTrace.v
theories/EThreadsRead.v
theories/EThreadsRace.v
theories/EThreadsExamples.v
theories/PropertiesEThreads.v
theories/SpecValues.v
theories/ValuesProofs.v
theories/PropertiesValues.v
theories/MtThreads.v
theories/SpecMtThreads.v
theories/MtThreadsRun.v
theories/MtThreadsSerial.v
theories/MtThreadsBuild.v
theories/MtThreadsOne.v
theories/MtThreadsKind.v
theories/MtThreadsRace.v
theories/MtThreadsClaims.v
theories/MtThreadsEnds.v
theories/MtThreadsExamples.v
theories/PropertiesMtThreads.v
theories/SpecTexts.v
theories/TextsExact.v
theories/PropertiesTextsExact.v
theories/Watch.v
theories/SpecWatch.v
theories/WatchProofs.v
theories/WatchScene.v
theories/WatchRoots.v
theories/WatchRace.v
theories/WatchExamples.v
theories/PropertiesWatch.v
theories/Several.v
theories/SpecSeveral.v
theories/SeveralProofs.v
theories/SeveralTurns.v
theories/SeveralExamples.v
theories/PropertiesSeveral.v
theories/Opening.v
theories/SpecOpening.v
theories/OpeningProofs.v
theories/OpeningSnap.v
theories/OpeningExamples.v
theories/PropertiesOpening.v
theories/SpecKeyTexts.v
theories/KeyTexts.v
theories/PropertiesKeyTexts.v
theories/Copying.v
theories/SpecCopying.v
theories/CopyingProofs.v
theories/CopyingMain.v
theories/CopyingExamples.v
theories/PropertiesCopying.v
theories/SpecETally.v
theories/ETallyProofs.v
theories/Walking.v
theories/SpecWalking.v
theories/WalkingProofs.v
theories/WalkingMain.v
theories/WalkingExamples.v
theories/PropertiesWalking.v
theories/SpecKeyEq.v
theories/KeyEq.v
theories/PropertiesKeyEq.v
theories/Mixins.v
theories/SpecMixins.v
theories/MixinsProofs.v
theories/MixinsMain.v
theories/MixinsTorn.v
theories/MixinsEnds.v
theories/MixinsAlone.v
theories/MixinsExamples.v
theories/PropertiesMixins.v
theories/Popitem.v
theories/SpecPopitem.v
theories/PopitemProofs.v
theories/PopitemEnds.v
theories/PopitemExamples.v
theories/PropertiesPopitem.v
theories/Clearing.v
theories/SpecClearing.v
theories/ClearingProofs.v
theories/ClearingExamples.v
theories/PropertiesClearing.v
