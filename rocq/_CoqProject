-Q theories Verif
theories/Num.v
theories/Py.v
theories/ListAux.v
theories/PyDict.v
theories/Float64.v
theories/Ex.v
theories/EmdSpec.v
theories/EmdModel.v
theories/EmdProofs.v
theories/EmdFloatProofs.v
theories/EmdSlowProofs.v
theories/Props_Emd.v
theories/HybridModel.v
theories/FlowProofs.v
theories/GreedyProofs.v
theories/HybridProofs.v
theories/HybridFloatProofs.v
theories/Props_Hybrid.v
theories/NmdSpec.v
theories/NmdModel.v
theories/NmdProofs.v
theories/NmdFloatProofs.v
theories/Props_Nmd.v
theories/IndexSpec.v
theories/IndexModel.v
theories/IndexProofs.v
theories/IndexLoops.v
theories/IndexLookupProofs.v
theories/IndexResult.v
theories/IndexTop.v
theories/IndexScore.v
theories/IndexFacts.v
theories/Props_Index.v
theories/WordSetSpec.v
theories/WordSetModel.v
theories/WordSetProofs.v
theories/WordSetScore.v
theories/Props_WordSet.v
theories/BowSpec.v
theories/BowModel.v
theories/BowProofs.v
theories/Props_Bow.v
theories/TrieSpec.v
theories/TrieModel.v
theories/TrieProofs.v
theories/TrieScan.v
theories/Props_Trie.v
theories/TrieFind.v
theories/TrieLongest.v
theories/Props_Find.v
theories/EditSpec.v
theories/EditProofs.v
theories/EditModel.v
theories/EditDp.v
theories/EditBk.v
theories/Props_Edit.v
theories/LookupModel.v
theories/LookupProofs.v
theories/Props_Lookup.v
theories/AutoModel.v
theories/AutoProofs.v
theories/AutoLev.v
theories/AutoNext.v
theories/Props_Auto.v
theories/TokModel.v
theories/TokProofs.v
theories/TokSent.v
theories/Props_Tok.v
theories/V3Model.v
theories/V3Proofs.v
theories/Props_V3.v
theories/CyModel.v
theories/CyProofs.v
theories/Props_Cy.v
theories/DawgModel.v
theories/DawgRepr.v
theories/DawgProofs.v
theories/DawgFinal.v
theories/DawgAsk.v
theories/DawgQuery.v
theories/DawgLate.v
theories/Props_Dawg.v
theories/EedSpec.v
theories/EedModel.v
theories/EedProofs.v
theories/EedCost.v
theories/Props_Eed.v
theories/V5bSpec.v
theories/V5bModel.v
theories/V5bProofs.v
theories/V5bLookup.v
theories/V5bFacts.v
theories/Props_V5b.v
theories/Accuracy.v
theories/NmdAccuracy.v
theories/LookupFloat.v
theories/SelfFloat.v
theories/Props_Accuracy.v
theories/RegexSpec.v
theories/RegexModel.v
theories/RegexTree.v
theories/RegexPasses.v
theories/RegexSimplify.v
theories/RegexParse.v
theories/RegexLang.v
theories/RegexOrder.v
theories/RegexSpaces.v
theories/Props_Regex.v
theories/FileModel.v
theories/FileProofs.v
theories/FileOk.v
theories/FileText.v
theories/FormatModel.v
theories/FormatProofs.v
theories/Props_Format.v
theories/Props_File.v
theories/Ieee.v
theories/SumExact.v
theories/CheckModel.v
theories/TestSuiteModel.v
theories/SumModel.v
theories/HybridAccuracy.v
theories/CheckProofs.v
theories/Props_HybridAccuracy.v
theories/NmdEdit.v
theories/NmdMeta.v
theories/Props_Meta.v
theories/OrigModel.v
theories/OrigProofs.v
theories/OrigFinish.v
theories/Props_Orig.v
theories/NmdIeee.v
theories/Props_Ieee.v
theories/SizeofModel.v
theories/SizeofProofs.v
theories/Props_Sizeof.v
theories/TrieSliceModel.v
theories/TrieSliceProofs.v
theories/Props_TrieSlice.v
theories/TestSuiteProofs.v
theories/Props_TestSuite.v
theories/IndexIeee.v
theories/Props_IndexIeee.v
theories/TrieTestModel.v
theories/Props_TrieTest.v
theories/WordSetOpsModel.v
theories/Props_WordSetOps.v
theories/RelaxedProofs.v
theories/RelaxedSharp.v
theories/Props_Relaxed.v
theories/Props_Growth.v
theories/Props_BowAccuracy.v
theories/SumLookup.v
theories/SumAccuracy.v
theories/Props_Sum.v
theories/SumMean.v
theories/Props_SumLookup.v
theories/WordSetFloat.v
theories/WordSetIeee.v
theories/Props_WordSetFloat.v
theories/Props_WordSetGrowth.v
theories/Props_Agree.v
theories/Props_Near.v
theories/UniModel.v
theories/UniProofs.v
theories/Props_Uni.v
theories/Props_Probes.v
theories/Props_Same.v
theories/NbytesModel.v
theories/Props_Nbytes.v
theories/Props_Pieces.v
theories/Props_V5bGrowth.v
theories/Props_Typo.v
theories/ReprModel.v
theories/Props_Repr.v
theories/Props_DawgStep.v
theories/Props_DawgNode.v
theories/Props_TypoV5b.v
theories/Props_TypoV3.v
