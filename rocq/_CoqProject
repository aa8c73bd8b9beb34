-Q theories Verif
theories/HashtreeModel.v
theories/HashtreeProofs.v
theories/SymtabModel.v
theories/SymtabProofs.v
theories/PropCore.v
theories/Bits.v
theories/CTypes.v
theories/TypeConvModel.v
theories/PropTypes.v
theories/Memory.v
theories/CSem.v
theories/IRMachine.v
theories/CStmt.v
theories/ExprCompile.v
theories/ArithProofs.v
theories/ExprSide.v
theories/ExprProofs.v
theories/PropExpr.v
theories/StmtCompile.v
theories/StmtProofs.v
theories/PropStmt.v
theories/FlowModel.v
theories/PropFlow.v
theories/StmtEmit.v
theories/PropEmit.v
theories/LexModel.v
theories/LexCursor.v
theories/PropPunct.v
theories/PropIntConst.v
theories/PropScope.v
theories/PropTokenSeq.v
theories/PropFunSpec.v
theories/ConstEval.v
theories/PropConst.v
theories/IrType.v
theories/PropIrType.v
theories/LayoutModel.v
theories/PropLayout.v
theories/TypeTrans.v
theories/PropBitAlloc.v
theories/BitfieldModel.v
theories/PropBitfield.v
theories/IrData.v
theories/PropIrData.v
theories/PropFinalize.v
theories/StaticData.v
theories/StaticProofs.v
theories/PropStaticData.v
theories/CondModel.v
theories/CondProofs.v
theories/PropCond.v
theories/CompatModel.v
theories/CompatProofs.v
theories/PropCompat.v
theories/PropCompatSpec.v
theories/ParseModel.v
theories/ParseProofs.v
theories/ParseSpec.v
theories/ParseComplete.v
theories/PropParse.v
theories/ClassModel.v
theories/ClassSpec.v
theories/ClassProofs.v
theories/PropClass.v
theories/PropParams.v
theories/StrModel.v
theories/StrProofs.v
theories/PropStr.v
theories/PropStrPrint.v
theories/PropStrJoin.v
theories/VarargModel.v
theories/VarargProofs.v
theories/PropVararg.v
theories/MacroModel.v
theories/MacroSpec.v
theories/MacroProofs.v
theories/PropMacro.v
theories/PropMacroFun.v
theories/TravModel.v
theories/TravSpec.v
theories/TravProofs.v
theories/PropInit.v
theories/FrameModel.v
theories/FrameProofs.v
theories/PropFrame.v
theories/SpecifierModel.v
theories/PropSpecifier.v
theories/DeclaratorModel.v
theories/DeclaratorSpec.v
theories/DeclaratorProofs.v
theories/PropDeclarator.v
theories/CompositeModel.v
theories/PropComposite.v
theories/LinkageModel.v
theories/LinkageSpec.v
theories/LinkageProofs.v
theories/LinkageReject.v
theories/PropLinkage.v
theories/ExprTypeModel.v
theories/ExprTypeSpec.v
theories/ExprTypeProofs.v
theories/PropExprType.v
theories/TagModel.v
theories/TagSpec.v
theories/TagProofs.v
theories/TagUse.v
theories/PropTag.v
theories/VlaModel.v
theories/VlaSpec.v
theories/VlaProofs.v
theories/PropVla.v
theories/PropOperands.v
theories/PpCondModel.v
theories/PpCondSpec.v
theories/PpCondProofs.v
theories/PropPpCond.v
theories/SynModel.v
theories/SynSpec.v
theories/SynProofs.v
theories/SynExpr.v
theories/SynFuel.v
theories/SynTerm.v
theories/PropSyn.v
theories/TokModel.v
theories/TokSpec.v
theories/TokProofs.v
theories/TokLit.v
theories/TokDivide.v
theories/TokComplete.v
theories/PropTok.v
theories/DirModel.v
theories/DirSpec.v
theories/DirProofs.v
theories/DirScan.v
theories/DirMain.v
theories/DirFile.v
theories/PropDir.v
theories/AsmModel.v
theories/AsmSpec.v
theories/AsmProofs.v
theories/AsmMain.v
theories/PropAsm.v
theories/JsonModel.v
theories/JsonSpec.v
theories/JsonProofs.v
theories/JsonMain.v
theories/PropJson.v
theories/ListModel.v
theories/ListSpec.v
theories/ListProofs.v
theories/PropList.v
theories/FormatModel.v
theories/FormatSpec.v
theories/FormatProofs.v
theories/PropFormat.v
theories/GenericModel.v
theories/GenericSpec.v
theories/GenericProofs.v
theories/PropGeneric.v
theories/IncludeModel.v
theories/IncludeSpec.v
theories/IncludeProofs.v
theories/PropInclude.v
theories/InitSizeModel.v
theories/InitSizeSpec.v
theories/InitSizeProofs.v
theories/PropInitSize.v
theories/VectorModel.v
theories/VectorSpec.v
theories/VectorProofs.v
theories/PropVector.v
theories/AlignModel.v
theories/AlignSpec.v
theories/AlignProofs.v
theories/PropAlign.v
theories/FloatLexModel.v
theories/FloatLexSpec.v
theories/FloatLexProofs.v
theories/PropFloatLex.v
theories/LineModel.v
theories/LineSpec.v
theories/LineProofs.v
theories/PropLine.v
