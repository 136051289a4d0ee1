-Q theories Verif
theories/Base.v
theories/Tokens.v
theories/Syntax.v
theories/Lexer.v
theories/ParserCore.v
theories/Grammar.v
theories/Tree.v
theories/Printer.v
theories/Formatter.v
theories/Lib.v
theories/SampleTest.v
theories/SpecLex.v
theories/ProofBase.v
theories/LexInv.v
theories/LexScan.v
theories/LexSpecProofs.v
theories/LexMain.v
theories/LexFacts.v
theories/PropsLexer.v
theories/ParserSem.v
theories/ParserFuel.v
theories/SpecGrammar.v
theories/Regex.v
theories/ParserGrammar.v
theories/ParserTree.v
theories/ParserGuard.v
theories/ParserFacts.v
theories/Recognise.v
theories/PropsParser.v
theories/FmtAbs.v
theories/FmtPlan.v
theories/FmtShape.v
theories/FmtTables.v
theories/FmtSound.v
theories/SpecLayout.v
theories/FmtExec.v
theories/FmtTop.v
theories/FmtFacts.v
theories/FmtRelex.v
theories/FmtNeat.v
theories/SpecNodes.v
theories/FmtTree.v
theories/FmtLists.v
theories/FmtOps.v
theories/PropsTree.v
theories/FmtWrap.v
theories/PropsWrap.v
theories/SpecGaps.v
theories/PropsGaps.v
theories/PropsFormat.v
theories/SpecReference.v
theories/FmtNode.v
theories/FmtReference.v
theories/PropsReference.v
theories/PropsSpacing.v
theories/SpecSpacing.v
theories/FmtSame.v
theories/PropsSame.v
theories/Utf8.v
theories/SpecUtf8.v
theories/Utf8Facts.v
theories/Cli.v
theories/SpecCli.v
theories/CliFacts.v
theories/CliFind.v
theories/PropsCli.v
theories/PropsBytes.v
theories/FmtBreaks.v
theories/FmtAgree.v
theories/FmtPrinted.v
theories/FmtStable.v
theories/FmtOnce.v
theories/FmtNear.v
theories/PropsStable.v
theories/SpecLanguage.v
theories/Looks.v
theories/Predict.v
theories/PredictOk.v
theories/ParserComplete.v
theories/PropsLanguage.v
theories/LexCut.v
theories/ParserFirst.v
theories/PropsErrors.v
theories/SpecLevels.v
theories/FmtLevels.v
theories/PropsLevels.v
theories/FmtMoved.v
theories/FmtConcat.v
theories/SpecTold.v
theories/PropsModular.v
theories/SpecPieces.v
theories/LexAll.v
theories/PropsScan.v
theories/SpecRecover.v
theories/ParserSkips.v
theories/ParserLimit.v
theories/PropsRecover.v
theories/PropsEol.v
theories/PropsVertical.v
theories/SpecDepth.v
theories/ParserDepth.v
theories/PropsDepth.v
theories/SpecLocal.v
theories/FmtLocal.v
theories/PropsLocal.v
theories/SpecNest.v
theories/FmtNest.v
theories/PropsNest.v
theories/SpecBlank.v
theories/FmtBlank.v
theories/PropsBlank.v
theories/SpecCode.v
theories/FmtCode.v
theories/PropsCode.v
theories/SpecOrder.v
theories/CliOrder.v
theories/PropsOrder.v
theories/SpecSettled.v
theories/FmtSettled.v
theories/FmtFixed.v
theories/PropsSettled.v
theories/SpecInsert.v
theories/FmtInsert.v
theories/PropsInsert.v
theories/SpecHang.v
theories/FmtHang.v
theories/PropsHang.v
theories/SpecMore.v
theories/FmtMore.v
theories/PropsMore.v
theories/SpecCount.v
theories/ParserCount.v
theories/PropsCount.v
theories/SpecSize.v
theories/FmtSize.v
theories/PropsSize.v
theories/SpecPrefix.v
theories/ParserPrefix.v
theories/PropsPrefix.v
theories/SpecParts.v
theories/PropsParts.v
theories/SpecFree.v
theories/FmtFree.v
theories/PropsFree.v
theories/SpecEdit.v
theories/LexSplice.v
theories/FmtEdit.v
theories/FmtSplice.v
theories/PropsEdit.v
theories/FmtGrow.v
theories/PropsGrow.v
theories/SpecTwice.v
theories/PropsTwice.v
theories/SpecExpr.v
theories/FmtExpr.v
theories/LexExpr.v
theories/FmtExprText.v
theories/PropsExpr.v
theories/SpecCopy.v
theories/FmtCopy.v
theories/PropsCopy.v
theories/FmtSwap.v
theories/PropsSwap.v
theories/SpecCrash.v
theories/PropsCrash.v
theories/FmtFront.v
theories/PropsFront.v
theories/FmtGap.v
theories/PropsGap.v
theories/PropsTell.v
theories/CliSteps.v
theories/SpecTogether.v
theories/CliTogether.v
theories/PropsTogether.v
theories/SpecHistory.v
theories/PropsHistory.v
theories/SpecTidy.v
theories/PropsTidy.v
theories/SpecExtremes.v
theories/PropsExtremes.v
theories/SpecCensus.v
theories/PropsCensus.v
theories/SpecEntry.v
theories/FmtEntry.v
theories/PropsEntry.v
theories/ParserStart.v
theories/PropsStart.v
theories/SpecAlone.v
theories/PropsAlone.v
theories/PropsCut.v
theories/PropsClean.v
theories/PropsAgain.v
theories/PropsExcise.v
