-Q theories Verif
theories/Base.v
theories/Double.v
theories/Token.v
theories/Lexer.v
theories/Errors.v
theories/Ast.v
theories/Parser.v
theories/Graph.v
theories/Semantic.v
theories/Tdg.v
theories/Api.v
theories/Json.v
theories/Lsp.v
theories/Cli.v
theories/StrFacts.v
theories/GraphProofs.v
theories/SpecLex.v
theories/LexProofs.v
theories/LexProofs2.v
theories/LexProofs3.v
theories/PropsLex.v
theories/AstRel.v
theories/ParserRel.v
theories/ParserProofs.v
theories/ParserStream.v
theories/ParserTerm.v
theories/SpecGrammar.v
theories/GrammarSound.v
theories/GrammarComplete.v
theories/GrammarTop.v
theories/SpecPrint.v
theories/FormulaInd.v
theories/PrintProofs.v
theories/PrintText.v
theories/PrintSound.v
theories/ParserPanic.v
theories/AstLines.v
theories/AstLinesProofs.v
theories/PropsParse.v
theories/SpecSem.v
theories/SemProofs.v
theories/SemFormula.v
theories/SemDomain.v
theories/SemProblem.v
theories/SemLines.v
theories/SemFacts.v
theories/TdgGraph.v
theories/TdgReach.v
theories/TdgNull.v
theories/SpecTdg.v
theories/TdgTop.v
theories/VerifyTop.v
theories/SpecRec.v
theories/TdgRec.v
theories/TdgRecTop.v
theories/HeaderProofs.v
theories/PropsSem.v
theories/PropsTdg.v
theories/SpecIo.v
theories/JsonProofs.v
theories/IoProofs.v
theories/PropsIo.v
theories/SpecSim.v
theories/SimSem.v
theories/SimTdg.v
theories/SimTop.v
theories/PropsSim.v
theories/SpecMoved.v
theories/LexLines.v
theories/PropsMoved.v
theories/RenText.v
theories/SpecExpect.v
theories/ParserPrefix.v
theories/ParserShapes.v
theories/ParserPrefix2.v
theories/SpecBlame.v
theories/ParserBlame.v
theories/PropsBlame.v
theories/SpecLexErr.v
theories/PropsLexErr.v
theories/PropsExpect.v
theories/SpecText.v
theories/TextProofs.v
theories/PropsText.v
theories/Conc.v
theories/SpecConc.v
theories/ConcProofs.v
theories/ConcProofs2.v
theories/ConcProofs3.v
theories/PropsConc.v
theories/SpecExec.v
theories/PropsExec.v
theories/SpecExt.v
theories/PropsExt.v
theories/SpecUnused.v
theories/PropsUnused.v
theories/SpecFirst.v
theories/PropsFirst.v
theories/SpecJson.v
theories/JsonText.v
theories/PropsJson.v
theories/TdgSound.v
theories/SpecMeaning.v
theories/TdgUpper.v
theories/TdgMeaning.v
theories/PropsMeaning.v
theories/SpecOrder.v
theories/TdgOrder.v
theories/PropsOrder.v
theories/SpecHddl.v
theories/PropsHddl.v
theories/SpecTime.v
theories/TdgTime.v
theories/TimeTop.v
theories/PropsTime.v
theories/PropsShow.v
theories/Cursor.v
theories/CursorProofs.v
theories/PropsCursor.v
theories/PropsGrow.v
theories/SpecShape.v
theories/Shape.v
theories/PropsShape.v
theories/Stack.v
theories/SpecStack.v
theories/StackProofs.v
theories/PropsStack.v
theories/SpecTypes.v
theories/TypesProofs.v
theories/PropsTypes.v
theories/Calls.v
theories/SpecCalls.v
theories/CallsProofs.v
theories/CallsTop.v
theories/PropsCalls.v
theories/SpecChain.v
theories/Chain.v
theories/PropsChain.v
theories/SpecPlan.v
theories/PropsPlan.v
theories/SpecMove.v
theories/PropsMove.v
theories/SpecAlpha.v
theories/PropsAlpha.v
theories/SpecUtf8.v
theories/PropsUtf8.v
theories/SpecPart.v
theories/PropsPart.v
theories/Serve.v
theories/SpecServe.v
theories/PropsServe.v
theories/SpecReport.v
theories/PropsReport.v
theories/Args.v
theories/SpecArgs.v
theories/PropsArgs.v
theories/SpecSame.v
theories/PropsSame.v
theories/Real64.v
theories/SpecReal.v
theories/RealProofs.v
theories/RealProofs2.v
theories/RealProofs3.v
theories/PropsReal.v
theories/DisplayProofs.v
theories/SpecBound.v
theories/TdgBound.v
theories/PropsBound.v
theories/ExportSize.v
theories/ExportTop.v
theories/PropsExport.v
theories/SpecQuote.v
theories/QuoteProofs.v
theories/PropsQuote.v
theories/Assumptions.v
theories/FormulaText.v
theories/SpecFormula.v
theories/FormulaTextProofs.v
theories/PropsFormula.v
theories/SpecFold.v
theories/PropsFold.v
theories/SpecWording.v
theories/PropsWording.v
theories/SpecInst.v
theories/PropsInst.v
theories/SpecUnfold.v
theories/PropsUnfold.v
theories/Tests.v
theories/TestsSyntax.v
