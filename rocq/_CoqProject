-Q theories Verif
theories/Base.v
theories/F64.v
theories/Utf8.v
theories/Trie.v
theories/BaseProofs.v
theories/Model.v
theories/TrieProofs.v
theories/SpecModel.v
theories/F64Proofs.v
theories/DpProofs.v
theories/ModelProofs.v
theories/EncodeProofs.v
theories/SpecDropout.v
theories/DropoutProofs.v
theories/SpecUtf8.v
theories/Utf8Proofs.v
theories/Processor.v
theories/Tokenizer.v
theories/SpecTokenizer.v
theories/SplitProofs.v
theories/ProcessorProofs.v
theories/TokenizerProofs.v
theories/SpecJson.v
theories/Base64.v
theories/Json.v
theories/Base64Proofs.v
theories/JsonProofs.v
theories/Serde.v
theories/SpecSerde.v
theories/JsonWrite.v
theories/SerdeProofs.v
theories/Sort.v
theories/SortProofs.v
theories/Filter.v
theories/FilterProofs.v
theories/Par.v
theories/ParProofs.v
theories/Mine.v
theories/MineProofs.v
theories/TaskProofs.v
theories/ModelFacts.v
theories/TokenizerFacts.v
theories/Merge.v
theories/MergeProofs.v
theories/Generate.v
theories/GenerateProofs.v
theories/Heap.v
theories/HeapProofs.v
theories/Lattice.v
theories/NbestSearch.v
theories/SpecLattice.v
theories/LatticeProofs.v
theories/PopulateProofs.v
theories/PropModel.v
theories/PropDropout.v
theories/PropTokenizer.v
theories/PropSerde.v
theories/PropFilter.v
theories/PropPar.v
theories/PropMerge.v
theories/PropGenerate.v
theories/PropLattice.v
theories/NbestProofs.v
theories/RealArith.v
theories/NbestExact.v
theories/NbestAll.v
theories/Py.v
theories/SpecPy.v
theories/PropHeap.v
theories/PropPy.v
theories/PropNbest.v
theories/SpecMarginal.v
theories/MarginalProofs.v
theories/PropMarginal.v
theories/Prune.v
theories/PruneProofs.v
theories/PropPrune.v
theories/SpecPrune.v
theories/EStepProofs.v
theories/PropEStep.v
theories/Patterns.v
theories/Cli.v
theories/SpecCli.v
theories/CountProofs.v
theories/CliProofs.v
theories/BorrowProofs.v
theories/PropCli.v
theories/SpecRegex.v
theories/Regex.v
theories/RegexProofs.v
theories/RegexCompose.v
theories/RegexJoin.v
theories/PropRegex.v
theories/SpecDigamma.v
theories/SpecNumeric.v
theories/FloatErr.v
theories/DigammaReal.v
theories/DigammaProofs.v
theories/NumericProofs.v
theories/PropNumeric.v
theories/SpecGenerate.v
theories/DrawProofs.v
theories/PropDraw.v
theories/TrimProofs.v
theories/PropFiles.v
theories/SpecFind.v
theories/Find.v
theories/FindProofs.v
theories/PropFind.v
theories/SpecPatterns.v
theories/PatternProofs.v
theories/PropPatterns.v
theories/Args.v
theories/SpecArgs.v
theories/ArgsProofs.v
theories/PropArgs.v
theories/PropMain.v
theories/SpecSyntax.v
theories/SyntaxProofs.v
theories/PropSyntax.v
theories/JsonNum.v
theories/SpecNum.v
theories/RoundProofs.v
theories/TwiceProofs.v
theories/ShortestProofs.v
theories/PartsProofs.v
theories/JsonNumProofs.v
theories/PrintProofs.v
theories/CodecProofs.v
theories/PropNum.v
theories/SpecExp.v
theories/LseProofs.v
theories/FloatMarginal.v
theories/FloatSum.v
theories/FloatEStep.v
theories/PropRound.v
theories/PropOrder.v
theories/SpecBest.v
theories/FloatPath.v
theories/NbestFloat.v
theories/PropBest.v
theories/SpecFloatText.v
theories/RustFloat.v
theories/FloatTextProofs.v
theories/PropFloatText.v
theories/SpecEm.v
theories/EmProofs.v
theories/PropEm.v
theories/Scripts.v
theories/SpecScripts.v
theories/PropScripts.v
theories/SpecBound.v
theories/BoundReal.v
theories/BoundProofs.v
theories/PropBound.v
theories/Datagen.v
theories/SpecDatagen.v
theories/DatagenProofs.v
theories/PropDatagen.v
theories/SpecDatagenRegex.v
theories/DatagenRegex.v
theories/DatagenRegexProofs.v
theories/PropDatagenRegex.v
theories/PropDatagenBytes.v
theories/PropInfill.v
theories/PyKw.v
theories/SpecPyKw.v
theories/PropPyKw.v
theories/PyExample.v
theories/SpecExample.v
theories/PropExample.v
