-Q theories Verif
theories/Base.v
theories/Bitwise.v
theories/Rle.v
theories/Mtf.v
theories/Crc32.v
theories/Sais.v
theories/Bwt.v
theories/Cost.v
theories/BwtCost.v
theories/Zle.v
theories/Float32.v
theories/KMeans.v
theories/SymbolStatistics.v
theories/PackageMerge.v
theories/Huffman.v
theories/CodeTable.v
theories/SymbolMap.v
theories/Selectors.v
theories/BlockEncoder.v
theories/BlockDecoder.v
theories/Stream.v
theories/Concurrency.v
theories/Cli.v
theories/CliNodes.v
theories/BaseFacts.v
theories/BitwiseFacts.v
theories/SpecRle.v
theories/RleFacts.v
theories/RunExactFacts.v
theories/MtfFacts.v
theories/ZleFacts.v
theories/CodeTableFacts.v
theories/SymbolMapFacts.v
theories/SelectorsFacts.v
theories/FieldFacts.v
theories/PropertiesFields.v
theories/PackageMergeFacts.v
theories/HuffmanFacts.v
theories/GroupFacts.v
theories/CostFacts.v
theories/FloatFacts.v
theories/FloatReal.v
theories/SpecBwt.v
theories/LexFacts.v
theories/SaisBase.v
theories/SaisInduce.v
theories/SaisSort.v
theories/SaisFacts.v
theories/DuvalFacts.v
theories/BwtFacts.v
theories/UnsortFacts.v
theories/InjectFacts.v
theories/ExactBwtFacts.v
theories/RestoreFacts.v
theories/BwtCostFacts.v
theories/EncodeCost.v
theories/DecodeCost.v
theories/EncodeCostFacts.v
theories/StreamCostFacts.v
theories/DecodeCostFacts.v
theories/BlockFacts.v
theories/SortFacts.v
theories/SpecStream.v
theories/SpecOutcome.v
theories/SpecFields.v
theories/SpecKMeans.v
theories/StreamFacts.v
theories/SpecBits.v
theories/SpecCrc.v
theories/Crc32Facts.v
theories/RoundTripFacts.v
theories/SpecBzip2.v
theories/ReferenceFacts.v
theories/EncodeFacts.v
theories/HistogramFacts.v
theories/KMeansFacts.v
theories/ExpandFacts.v
theories/OversizeFacts.v
theories/ReaderFacts.v
theories/ConcurrencyFacts.v
theories/ParallelFacts.v
theories/CrashFacts.v
theories/SinkFacts.v
theories/PropertiesStages.v
theories/DecodeFacts.v
theories/SpareFacts.v
theories/UntilFacts.v
theories/ReferenceSpare.v
theories/OutcomeFacts.v
theories/TakeFacts.v
theories/AgreeFacts.v
theories/ForeignFacts.v
theories/SilentFacts.v
theories/ReversibleFacts.v
theories/LosslessFacts.v
theories/BombFacts.v
theories/PropertiesStream.v
theories/PropertiesSize.v
theories/PropertiesKMeans.v
theories/PropertiesFew.v
theories/PropertiesValid.v
theories/FewFacts.v
theories/PropertiesTime.v
theories/PropertiesTimeDecode.v
theories/PropertiesDecode.v
theories/PropertiesOutcome.v
theories/PropertiesForeign.v
theories/PropertiesRobust.v
theories/PropertiesOwn.v
theories/PropertiesReversible.v
theories/PropertiesThreads.v
theories/PropertiesCrash.v
theories/CliSteps.v
theories/PropertiesCli.v
theories/PropertiesKill.v
theories/Shared.v
theories/Jobs.v
theories/SharedDecode.v
theories/RepoTests.v
theories/SpecTests.v
theories/PropertiesShared.v
theories/PropertiesJobs.v
theories/PropertiesSharedDecode.v
theories/PropertiesStatus.v
theories/PropertiesNodes.v
theories/PropertiesTables.v
