-Q theories Verif
theories/ListUtil.v
theories/Runes.v
theories/UnicodeFacts.v
theories/Token.v
theories/KeywordFacts.v
theories/Tokenizer.v
theories/CursorFacts.v
theories/LexList.v
theories/TokenizerFacts.v
theories/LexSpec.v
theories/LexShape.v
theories/LexFacts.v
theories/LexMain.v
theories/LexExamples.v
theories/PropsLex.v
theories/Ext.v
theories/ExtSpec.v
theories/ExtMain.v
theories/PropsExt.v
theories/Ast.v
theories/Heap.v
theories/MapSpec.v
theories/MapFacts.v
theories/MapMain.v
theories/PropsMap.v
theories/Classes.v
theories/ClassSpec.v
theories/ClassMain.v
theories/PropsClass.v
theories/Walk.v
theories/WalkSpec.v
theories/WalkMain.v
theories/PropsWalk.v
theories/Prog.v
theories/Parser.v
theories/ParseSpec.v
theories/RunFacts.v
theories/ParseExamples.v
theories/PropsParse.v
theories/ExprSpec.v
theories/WpFacts.v
theories/ExprFacts.v
theories/ExprSound.v
theories/ExprMain.v
theories/PropsExpr.v
theories/StmtSpec.v
theories/GrowFacts.v
theories/StmtFacts.v
theories/StmtMain.v
theories/PropsStmt.v
theories/Nodes.v
theories/NodeSpec.v
theories/NodeMain.v
theories/PropsNodes.v
theories/Units.v
theories/UnitSpec.v
theories/SortMain.v
theories/UsesMain.v
theories/PropsUnit.v
theories/CaseSpec.v
theories/SimFacts.v
theories/SimHeap.v
theories/SimMain.v
theories/SimParse.v
theories/SimUnits.v
theories/SimProgram.v
theories/CaseMain.v
theories/PropsCase.v
theories/FuelFacts.v
theories/TermSpec.v
theories/TermHeap.v
theories/TermFacts.v
theories/TermExpr.v
theories/TermTypes.v
theories/TermClass.v
theories/TermStmt.v
theories/TermMain.v
theories/PropsTerm.v
theories/EvolveFacts.v
theories/EvolveParse.v
theories/SteadyFacts.v
theories/DeclSpec.v
theories/ScopeFacts.v
theories/DeclFacts.v
theories/TypeFacts.v
theories/TypeClassFacts.v
theories/TypePropFacts.v
theories/SectionFacts.v
theories/DeclMain.v
theories/DeclExamples.v
theories/PropsDecl.v
theories/TermUnit.v
theories/TermHead.v
theories/TermBody.v
theories/TermUnitSpec.v
theories/TermProgram.v
theories/ProgramMain.v
theories/PropsProgram.v
theories/UnitTextSpec.v
theories/UnitTextFacts.v
theories/UnitBodyFacts.v
theories/UnitTextMain.v
theories/PropsUnitText.v
theories/ProgramTextSpec.v
theories/ProgramTextFacts.v
theories/ProgramLinkFacts.v
theories/ProgramPassFacts.v
theories/ProgramUnitFacts.v
theories/ProgramNameFacts.v
theories/ProgramTextMain.v
theories/PropsProgramText.v
theories/RefSpec.v
theories/RefFacts.v
theories/RefParse.v
theories/RefUnits.v
theories/RefMain.v
theories/PropsRef.v
theories/IdSpec.v
theories/IdFacts.v
theories/IdParse.v
theories/IdUnits.v
theories/IdMain.v
theories/PropsId.v
theories/FormSpec.v
theories/FormFacts.v
theories/FormParse.v
theories/FormStmt.v
theories/FormUnits.v
theories/FormMain.v
theories/PropsForm.v
theories/WalkIdSpec.v
theories/WalkIdMain.v
theories/PropsWalkId.v
theories/OfferSpec.v
theories/OfferFacts.v
theories/OfferParse.v
theories/OfferMain.v
theories/OfferAll.v
theories/PropsOffer.v
theories/SameSpec.v
theories/SameMain.v
theories/PropsSame.v
theories/FileMain.v
theories/PropsFile.v
