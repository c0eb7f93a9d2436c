-Q theories Verif

theories/Text.v
theories/GoAst.v
theories/Ast.v
theories/Walk.v
theories/Expand.v
theories/Printer.v
theories/Smt.v
theories/Cmd.v
theories/Utf8.v
theories/GoExpr.v
theories/Peg.v
theories/Grammar.v
theories/PegFile.v
theories/Parse.v
theories/Unicode.v
theories/GoParser.v
theories/SpecTree.v
theories/TreeFacts.v
theories/PropertiesTree.v
theories/SpecExpand.v
theories/ExpandFacts.v
theories/FeatureFacts.v
theories/PropertiesExpand.v
theories/SpecPrint.v
theories/PrintFacts.v
theories/PropertiesPrint.v
theories/SpecSmt.v
theories/SmtArith.v
theories/SmtGen.v
theories/SmtRead.v
theories/SmtSem.v
theories/PropertiesSmt.v
theories/SpecCmd.v
theories/CmdFacts.v
theories/Path.v
theories/CmdRun.v
theories/PegPoints.v
theories/PegTerm.v
theories/SpecPeg.v
theories/PegSem.v
theories/SpecUtf8.v
theories/PegAgree.v
theories/ParseFacts.v
theories/SpecTrim.v
theories/SpecSyntax.v
theories/SynLex.v
theories/SynWords.v
theories/SynExpr.v
theories/SynValue.v
theories/SynRule.v
theories/SynFile.v
theories/SpecSource.v
theories/SpecTrees.v
theories/SynTrim.v
theories/SynShape.v
theories/SynPrint.v
theories/SynExtend.v
theories/SpecErr.v
theories/ErrFacts.v
theories/ParseUse.v
theories/PropertiesParse.v
theories/SpecRun.v
theories/CmdParse.v
theories/PropertiesCmd.v
theories/Heap.v
theories/SpecHeap.v
theories/HeapFacts.v
theories/SpecNil.v
theories/HeapPrint.v
theories/HeapParse.v
theories/SpecFresh.v
theories/SpecOwn.v
theories/OwnFacts.v
theories/OwnUse.v
theories/PropertiesOwn.v
theories/SpecSize.v
theories/HeapParseFacts.v
theories/HeapPrintFacts.v
theories/HeapNil.v
theories/PropertiesHeap.v
theories/GoFuel.v
theories/SpecWords.v
theories/SpecGo.v
theories/SpecScan.v
theories/GoChars.v
theories/GoNumber.v
theories/GoTree.v
theories/GoNames.v
theories/GoLex.v
theories/GoWords.v
theories/GoText.v
theories/GoPieces.v
theories/GoOrdered.v
theories/SpecBack.v
theories/GoBack.v
theories/GoWeight.v
theories/GoExact.v
theories/GoReturns.v
theories/ExactBack.v
theories/PropertiesGo.v
theories/PropertiesBack.v
theories/PegSim.v
theories/PegRules.v
theories/PropertiesPeg.v
theories/ExpandParse.v
theories/PropertiesPass.v
theories/PegLocal.v
theories/PropertiesLocal.v
theories/Count.v
theories/PegCost.v
theories/CostGrammar.v
theories/PropertiesCost.v
theories/SpecKill.v
theories/CmdKill.v
theories/PropertiesKill.v
theories/Flag.v
theories/SpecFlag.v
theories/FlagFacts.v
theories/PropertiesFlag.v
theories/ReadAll.v
theories/SpecRead.v
theories/PropertiesRead.v
theories/SpecRewrite.v
theories/RewriteFacts.v
theories/PropertiesRewrite.v
theories/Quote.v
theories/Dump.v
theories/SpecDump.v
theories/DumpFacts.v
theories/QuoteFacts.v
theories/QuoteSpell.v
theories/DumpInj.v
theories/PropertiesDump.v
theories/HeapWalk.v
theories/Conc.v
theories/SpecConc.v
theories/ConcFacts.v
theories/ConcParse.v
theories/ConcAlone.v
theories/ConcRun.v
theories/HeapWalkFacts.v
theories/HeapVisit.v
theories/SpecVisit.v
theories/VisitFacts.v
theories/VisitFresh.v
theories/TourFacts.v
theories/PropertiesVisit.v
theories/SpecSafe.v
theories/SafeFacts.v
theories/PropertiesSafe.v
theories/PropertiesConc.v
theories/PropertiesHeapPrint.v
theories/SpecTyped.v
theories/TypedFacts.v
theories/TypedRead.v
theories/SpecDiag.v
theories/DiagFacts.v
theories/PropertiesDiag.v
theories/SpecSmtErr.v
theories/SmtErrFacts.v
theories/PropertiesBlame.v
theories/HeapDump.v
theories/SpecShare.v
theories/HeapDumpFacts.v
theories/HeapDumpUnique.v
theories/PropertiesShare.v
theories/SpecPath.v
theories/PathFacts.v
theories/PropertiesPath.v
theories/SpecExpect.v
theories/ExpectFacts.v
theories/ExpectText.v
theories/PropertiesExpect.v
theories/FreshDump.v
theories/PropertiesFresh.v
theories/SizeGo.v
theories/SizeFacts.v
theories/PropertiesSize.v
theories/TypedParse.v
theories/SpecBuilt.v
theories/PropertiesTyped.v
theories/SpecLines.v
theories/LineFacts.v
theories/PropertiesLines.v
theories/SpecModel.v
theories/PropertiesModel.v
theories/SpecLayout.v
theories/LayoutFacts.v
theories/PropertiesLayout.v
theories/CutFacts.v
theories/PropertiesCut.v
theories/PropertiesIncr.v
theories/PropertiesTheory.v
theories/SpecOrder.v
theories/PropertiesOrder.v
