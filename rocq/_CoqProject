-Q theories Verif
theories/Base.v
theories/Utf.v
theories/Lex.v
theories/LexFloat.v
theories/Token.v
theories/MacroSet.v
theories/TestsMacroSet.v
theories/StrFacts.v
theories/SpecSet.v
theories/SetFacts.v
theories/ExpandFacts.v
theories/PropSet.v
theories/SpecCall.v
theories/CallFacts.v
theories/ExpandInv.v
theories/LexFacts.v
theories/TokenFacts.v
theories/SpecTokens.v
theories/ParamFacts.v
theories/PropTokens.v
theories/SpecPaste.v
theories/PasteFacts.v
theories/PropPaste.v
theories/SpecRescan.v
theories/ObjFacts.v
theories/PropObject.v
theories/HideFacts.v
theories/PropHide.v
theories/SpecExpand.v
theories/FullFacts.v
theories/PropExpand.v
theories/PropErrors.v
theories/SpecStringify.v
theories/StringifyFacts.v
theories/PropStringify.v
theories/PanicFacts.v
theories/PropPanic.v
theories/SpecInt.v
theories/IntFacts.v
theories/PropInt.v
theories/SpecString.v
theories/UtfFacts.v
theories/StringFacts.v
theories/PropString.v
theories/PropPunct.v
theories/SpecFloatLit.v
theories/FloatFacts.v
theories/PropFloat.v
theories/Ast.v
theories/Nom.v
theories/ParseTok.v
theories/ParseExpr.v
theories/ParseStmt.v
theories/NomFacts.v
theories/ParseFacts.v
theories/SpecParams.v
theories/PropParse.v
theories/TestsParse.v
theories/SpecStrRun.v
theories/PropStrRun.v
theories/SpecType.v
theories/PropType.v
theories/Rust.v
theories/Finish.v
theories/Codegen.v
theories/TestsCodegen.v
theories/SpecRust.v
theories/PropGenStr.v
theories/PropGenCast.v
theories/SpecAsm.v
theories/PropAsm.v
theories/PropAsmOps.v
theories/PropAsmSyntax.v
theories/PropAsmRef.v
theories/PropRustTy.v
theories/FinishFacts.v
theories/SpecFold.v
theories/PropFold.v
theories/SpecGen.v
theories/PropVarGen.v
theories/PropFnGen.v
theories/SpecRustExpr.v
theories/RustExprFacts.v
theories/SpecTree.v
theories/TreeFacts.v
theories/PropTree.v
theories/PropArguments.v
theories/SpecVolatile.v
theories/PropVolatile.v
theories/FinishEq.v
theories/SpecValue.v
theories/PropValue.v
theories/SpecMixed.v
theories/PropMixed.v
theories/SpecStmt.v
theories/StmtFacts.v
theories/PropStmt.v
theories/SpecGrammar.v
theories/GrammarFacts.v
theories/SpecKeep.v
theories/KeepFacts.v
theories/EatFacts.v
theories/PropGrammar.v
theories/SpecStmtGrammar.v
theories/StmtGrammarFacts.v
theories/PropStmtGrammar.v
theories/SpecPanicFree.v
theories/SafeFacts.v
theories/SafeGenFacts.v
theories/ParseSafeFacts.v
theories/PropPanicFree.v
theories/SpecTypeText.v
theories/PropTypeText.v
theories/SpecName.v
theories/PropName.v
theories/DecFacts.v
theories/SpecAsmGrammar.v
theories/AsmGrammarFacts.v
theories/PropAsmGrammar.v
theories/SpecLexical.v
theories/PropLexical.v
theories/PropLexKind.v
theories/InferFacts.v
theories/SpecRustType.v
theories/RustTypeFacts.v
theories/PropRustType.v
theories/SpecComplete.v
theories/CompleteFacts.v
theories/PropComplete.v
theories/SpecMeaning.v
theories/MeaningFacts.v
theories/PropMeaning.v
theories/SpecTarget.v
theories/PropTarget.v
theories/FloatOpFacts.v
theories/SpecFloatGen.v
theories/PropFloatGen.v
theories/SpecFragment.v
theories/FragmentFacts.v
theories/PropFragment.v
theories/SpecText.v
theories/PropText.v
theories/SelfFacts.v
theories/PropSelf.v
theories/PropCompile.v
theories/PropChar.v
theories/SpecAccept.v
theories/AcceptFacts.v
theories/PropAccept.v
theories/AsmAcceptFacts.v
theories/StmtAcceptFacts.v
theories/PropStmtAccept.v
theories/SpecAgain.v
theories/AgainFacts.v
theories/PropAgain.v
theories/SpecLocal.v
theories/LocalFacts.v
theories/PropLocal.v
theories/SpecCause.v
theories/CauseFacts.v
theories/CauseSelf.v
theories/CleanFacts.v
theories/ComplFacts.v
theories/PropCause.v
theories/SpecRename.v
theories/RenameFacts.v
theories/PropRename.v
theories/SpecMention.v
theories/MentionFacts.v
theories/PropMention.v
theories/Display.v
theories/DisplayFacts.v
theories/PropDisplay.v
theories/SpecCpp.v
theories/CppFacts.v
theories/PropCpp.v
theories/SpecProper.v
theories/ProperFacts.v
theories/ProgressFacts.v
theories/PropProper.v
theories/PropSpelling.v
theories/PropAlone.v
theories/BlockFacts.v
theories/PropFunction.v
