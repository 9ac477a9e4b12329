-Q theories Verif
theories/Base.v
theories/KeyInstances.v
theories/MapSpec.v
theories/ListLemmas.v
theories/RunLemmas.v
theories/OrdLemmas.v
theories/BstModel.v
theories/AvlModel.v
theories/RbModel.v
theories/SplayModel.v
theories/SetAlgSpec.v
theories/TreapModel.v
theories/KeySetSpec.v
theories/KeySetModel.v
theories/ShapeSpec.v
theories/BstProofs.v
theories/IterProofs.v
theories/KeySetProofs.v
theories/AvlProofs.v
theories/AvlDepthProofs.v
theories/SplayProofs.v
theories/RbProofs.v
theories/SetAlgLemmas.v
theories/TreapProofs.v
theories/PropertiesBst.v
theories/CostSpec.v
theories/SplayCostModel.v
theories/SplayCostProofs.v
theories/PropertiesSplayCost.v
theories/SeqSpec.v
theories/TreapListModel.v
theories/SeqLemmas.v
theories/TreapListProofs.v
theories/PropertiesSeq.v
theories/ArenaSpec.v
theories/ArenaModel.v
theories/ArenaProofs.v
theories/ArenaExactSpec.v
theories/ArenaExactProofs.v
theories/PropertiesArena.v
theories/RadixSpec.v
theories/RadixModel.v
theories/RadixShape.v
theories/RadixProofs.v
theories/RadixMapProofs.v
theories/RadixPrefixProofs.v
theories/PropertiesRadix.v
theories/RadixCostSpec.v
theories/RadixCostModel.v
theories/RadixCostProofs.v
theories/PropertiesRadixCost.v
theories/StackSpec.v
theories/StackModel.v
theories/StackProofs.v
theories/StackCountProofs.v
theories/PropertiesStack.v
theories/SkipSpec.v
theories/SkipHeap.v
theories/SkipMapModel.v
theories/SkipHeapProofs.v
theories/SkipMapProofs.v
theories/SkipSetProofs.v
theories/PropertiesSkip.v
theories/SkipListSpec.v
theories/SkipListModel.v
theories/SkipListProofs.v
theories/SkipListAddProofs.v
theories/PropertiesSkipList.v
theories/BpNodeModel.v
theories/BpSpec.v
theories/BpMapModel.v
theories/BpNodeSpec.v
theories/BpLeafProofs.v
theories/BpInternalProofs.v
theories/PermTac.v
theories/BpStoreProofs.v
theories/BpTreeProofs.v
theories/BpInsertProofs.v
theories/BpRemoveProofs.v
theories/BpDeleteProofs.v
theories/BpMapProofs.v
theories/BpPageProofs.v
theories/BpHarmProofs.v
theories/BpFinalProofs.v
theories/BpOverwriteProofs.v
theories/PropertiesBp.v
theories/BincodeModel.v
theories/BincodeSpec.v
theories/BincodeProofs.v
theories/CodecInstances.v
theories/BpByteModel.v
theories/BpByteSpec.v
theories/BpCodecProofs.v
theories/BpGoodProofs.v
theories/BpSpaceProofs.v
theories/BpByteProofs.v
theories/BpByteFinalProofs.v
theories/PropertiesBpBytes.v
theories/BpCrashModel.v
theories/BpCrashProofs.v
theories/BpCrashIterProofs.v
theories/BpCrashFinalProofs.v
theories/PropertiesBpCrash.v
theories/LsmBase.v
theories/SsModel.v
theories/SsSpec.v
theories/SsProofs.v
theories/SsInstances.v
theories/PropertiesSs.v
theories/SsReadModel.v
theories/SsReadSpec.v
theories/SsReadProofs.v
theories/PropertiesSsRead.v
theories/LsmTableModel.v
theories/LsmTableSpec.v
theories/LsmIterProofs.v
theories/LsmInstances.v
theories/PropertiesLsmIter.v
theories/LsmMapModel.v
theories/LeveledModel.v
theories/SizeTieredModel.v
theories/LsmTableProofs.v
theories/LeveledProofs.v
theories/LsmSpec.v
theories/LsmMapLemmas.v
theories/LsmMapProofs.v
theories/LeveledLaws.v
theories/LeveledSpec.v
theories/LsmClaims.v
theories/LeveledInstances.v
theories/PropertiesLeveled.v
theories/SizeTieredSpec.v
theories/SizeTieredProofs.v
theories/SizeTieredClaims.v
theories/SizeTieredLoose.v
theories/SizeTieredInstances.v
theories/PropertiesSizeTiered.v
theories/LsmGoodProofs.v
theories/LsmBytesSpec.v
theories/LsmBytesProofs.v
theories/LsmBytesFinalProofs.v
theories/LsmMetaModel.v
theories/LsmMetaSpec.v
theories/LsmMetaProofs.v
theories/LsmMetaFinalProofs.v
theories/LsmBytesInstances.v
theories/PropertiesLsmBytes.v
theories/LeveledShapeSpec.v
theories/LeveledShapeProofs.v
theories/LeveledLooseProofs.v
theories/LeveledLooseInstances.v
theories/LsmReadModel.v
theories/LsmReadSpec.v
theories/LsmReadProofs.v
theories/TieredCountSpec.v
theories/TieredCountProofs.v
theories/LsmReadInstances.v
theories/PropertiesLsmRead.v
theories/PropertiesLeveledShape.v
theories/TreeCostModel.v
theories/TreeCostProofs.v
theories/PropertiesTreeCost.v
theories/StackWeakSpec.v
theories/StackWeakModel.v
theories/StackWeakProofs.v
theories/StackWeakLinProofs.v
theories/StackWeakLenProofs.v
theories/StackWeakStepProofs.v
theories/StackWeakInstances.v
theories/StackWeakCountProofs.v
theories/PropertiesStackWeak.v
theories/LsmThreadModel.v
theories/LsmThreadSpec.v
theories/LsmThreadProofs.v
theories/LsmThreadClaims.v
theories/LsmThreadInstances.v
theories/PropertiesLsmThread.v
theories/LsmIoModel.v
theories/LsmIoSpec.v
theories/LsmIoLemmas.v
theories/LsmIoFollow.v
theories/LsmIoProofs.v
theories/LsmIoTop.v
theories/LsmIoInstances.v
theories/PropertiesLsmIo.v
theories/LsmScanModel.v
theories/LsmScanSpec.v
theories/LsmScanProofs.v
theories/LsmScanInstances.v
theories/PropertiesLsmScan.v
theories/RandomSpec.v
theories/RandomLemmas.v
theories/TreapCostModel.v
theories/TreapCostProofs.v
theories/TreapListCostProofs.v
theories/PropertiesTreapCost.v
theories/HeightLemmas.v
theories/SkipCostModel.v
theories/SkipCostProofs.v
theories/PropertiesSkipCost.v
theories/SkipListCostModel.v
theories/SkipListCostProofs.v
theories/PropertiesSkipListCost.v
theories/BpCostModel.v
theories/BpCostProofs.v
theories/PropertiesBpCost.v
theories/BpIterModel.v
theories/BpIterProofs.v
theories/PropertiesBpIter.v
theories/LsmPrimProofs.v
theories/LsmSpaceSpec.v
theories/LsmMemProofs.v
theories/LsmSpaceProofs.v
theories/LsmSteadyProofs.v
theories/SizeTieredSpaceProofs.v
theories/LeveledSpaceProofs.v
theories/LsmSpaceInstances.v
theories/PropertiesLsmSpace.v
theories/TreapSetCostProofs.v
theories/TreapProgCostProofs.v
theories/TreapListProgCostProofs.v
theories/TreapSeedModel.v
theories/TreapSeedProofs.v
theories/PropertiesTreapProgCost.v
theories/SkipProgCostModel.v
theories/SkipProgCostProofs.v
theories/SkipSeedProofs.v
theories/PropertiesSkipProgCost.v
theories/SkipListProgCostModel.v
theories/SkipListProgCostProofs.v
theories/SkipListSeedProofs.v
theories/PropertiesSkipListProgCost.v
theories/SkipInterSpec.v
theories/SkipInterProofs.v
theories/PropertiesSkipInter.v
theories/AnyOrderSpec.v
theories/AnyOrderModel.v
theories/AnyOrderInstances.v
theories/BstAnyProofs.v
theories/SkipAnyProofs.v
theories/AnyOrderProofs.v
theories/AnyOrderRefuted.v
theories/PropertiesAnyOrder.v
theories/UnwindModel.v
theories/UnwindSpec.v
theories/UnwindInstances.v
theories/UnwindProofs.v
theories/UnwindTreapProofs.v
theories/PropertiesUnwind.v
theories/SkipUnwindModel.v
theories/SkipUnwindSpec.v
theories/SkipUnwindInstances.v
theories/SkipUnwindInv.v
theories/SkipUnwindLoops.v
theories/SkipUnwindProofs.v
theories/SkipUnwindFind.v
theories/SkipUnwindSeq.v
theories/SkipUnwindTop.v
theories/PropertiesSkipUnwind.v
theories/BpIoModel.v
theories/BpIoSpec.v
theories/BpIoInstances.v
theories/BpIoProofs.v
theories/PropertiesBpIo.v
theories/SkipSetUnwindModel.v
theories/SkipSetUnwindProofs.v
theories/SkipSetUnwindInstances.v
theories/SkipSetUnwindRefuted.v
theories/PropertiesSkipSetUnwind.v
theories/TreapUnwindModel.v
theories/TreapUnwindSpec.v
theories/TreapUnwindProofs.v
theories/TreapUnwindInstances.v
theories/TreapUnwindRefuted.v
theories/PropertiesTreapUnwind.v
theories/BpIterIoModel.v
theories/BpIterIoSpec.v
theories/BpIterIoProofs.v
theories/BpIterIoInstances.v
theories/BpIterIoRefuted.v
theories/PropertiesBpIterIo.v
theories/RareSpec.v
theories/RareLemmas.v
theories/TreapDepthLemmas.v
theories/TreapRareProofs.v
theories/TreapListRareProofs.v
theories/PropertiesTreapRare.v
theories/DropModel.v
theories/DropProofs.v
theories/PropertiesDrop.v
theories/HeightRareLemmas.v
theories/SkipRareProofs.v
theories/PropertiesSkipRare.v
theories/NodeBytesSpec.v
theories/NodeBytesModel.v
theories/NodeBytesProofs.v
theories/PropertiesNodeBytes.v
theories/SkipMemoryProofs.v
theories/PropertiesSkipMemory.v
theories/NodePtrModel.v
theories/NodePtrProofs.v
theories/SkipBytesSpec.v
theories/SkipBytesModel.v
theories/SkipBytesProofs.v
theories/PropertiesSkipBytes.v
theories/SkipDistSpec.v
theories/SkipDistProofs.v
theories/PropertiesSkipDist.v
theories/ListBytesModel.v
theories/ListBytesInstances.v
theories/ListBytesProofs.v
theories/PropertiesListBytes.v
