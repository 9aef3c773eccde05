-Q theories Verif
theories/Base.v
theories/BaseProofs.v
theories/Util.v
theories/SpecUtil.v
theories/UtilProofs.v
theories/PropUtil.v
theories/Bucket.v
theories/MapModel.v
theories/TrieProofs.v
theories/TrieInv.v
theories/TrieGrow.v
theories/LevelList.v
theories/ItemProofs.v
theories/MapInv.v
theories/MapSplit.v
theories/MapStep.v
theories/MapInit.v
theories/Spec.v
theories/MapRefine.v
theories/MapAny.v
theories/MapSafe.v
theories/MapMore.v
theories/Checks.v
theories/PropMap.v
theories/EmbModel.v
theories/EmbPool.v
theories/EmbTrie.v
theories/EmbInv.v
theories/EmbSplit.v
theories/EmbSpec.v
theories/EmbRefine.v
theories/EmbDel.v
theories/EmbTop.v
theories/PropEmb.v
theories/PropEmb2.v
theories/RMapModel.v
theories/RSpec.v
theories/RMapProofs.v
theories/RMapTop.v
theories/PropRMap.v
theories/ConcModel.v
theories/ConcSpec.v
theories/ConcProofs.v
theories/ConcMore.v
theories/PropConc.v
theories/ConcPool.v
theories/PropPool.v
theories/ConcMgr.v
theories/PropMgr.v
theories/ConcMove.v
theories/PropConcMove.v
theories/PoolMove.v
theories/ConcTable.v
theories/PropTable.v
theories/ConcEmb.v
theories/PropConcEmb.v
theories/ConcRange.v
theories/PropRange.v
theories/ConcRMap.v
theories/ConcRMapProofs.v
theories/PropCRMap.v
theories/PropSearch.v
theories/EmbReuse.v
theories/EmbLinked.v
theories/EmbFull.v
theories/PropReuse.v
theories/EmbList.v
theories/EmbListInv.v
theories/PropEmbRange.v
theories/EmbCol.v
theories/PropCol.v
theories/EmbHang.v
theories/EmbBal.v
theories/PropHang.v
theories/PurgeSpec.v
theories/MixSpec.v
theories/EmbPurge.v
theories/EmbMix.v
theories/PropPurge.v
theories/PropMix.v
theories/PropFar.v
theories/PropType.v
theories/LinSpec.v
theories/LinProofs.v
theories/ConcLin.v
theories/PropLin.v
theories/PropStep.v
theories/MapDump.v
theories/PropDump.v
theories/PropLevel.v
theories/ConcSplit.v
theories/PropConcSplit.v
theories/ConcSet.v
theories/PropConcSet.v
theories/PropCRDel.v
theories/PropConcApp.v
theories/PropEmbRange2.v
theories/ConcEmbSplit.v
theories/PropConcEmbSplit.v
theories/PropPut.v
theories/PropCrash.v
theories/PropCursor.v
theories/EmbAfter.v
theories/AfterSpec.v
theories/EmbCalm.v
theories/PropAfter.v
theories/PropEmbRange3.v
theories/PropReent.v
theories/PropHandle.v
theories/EmbHandle.v
theories/PropEmbHandle.v
theories/EmbLevel.v
theories/PropEmbLevel.v
theories/PropFind.v
theories/PropEmbDump.v
