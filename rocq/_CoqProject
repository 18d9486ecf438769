-Q theories Verif
theories/M_Base.v
theories/L_Base.v
theories/M_Shared.v
theories/L_Shared.v
theories/L_Replace.v
theories/L_Entities.v
theories/L_Messages.v
theories/M_FuncDict.v
theories/L_FuncDict.v
theories/Properties_Shared.v
theories/M_Tokenizer.v
theories/L_Tokenizer.v
theories/M_NodeGrammar.v
theories/L_NodeGrammar.v
theories/M_NamedTuple.v
theories/L_NamedTuple.v
theories/Properties_Scanners.v
theories/M_Graph.v
theories/L_Graph.v
theories/L_GraphLevels.v
theories/Properties_Graph.v
theories/M_DFA.v
theories/L_DFA.v
theories/L_DFAMain.v
theories/Properties_DFA.v
theories/M_PseudoTok.v
theories/L_PseudoTok.v
theories/Properties_PseudoTok.v
theories/M_HTML.v
theories/L_HTML.v
theories/Properties_HTML.v
theories/M_Types.v
theories/L_Hier.v
theories/L_Types.v
theories/L_TypesUnion.v
theories/L_TypesFull.v
theories/L_TypesCover.v
theories/Properties_Types.v
theories/M_Dict.v
theories/L_Dict.v
theories/M_Env.v
theories/L_Env.v
theories/Properties_Env.v
theories/M_GramCheck.v
theories/L_GramCheck.v
theories/Properties_Gram.v
theories/M_Sections.v
theories/L_Sections.v
theories/Properties_Sections.v
theories/M_Intrinsics.v
theories/L_Intrinsics.v
theories/Properties_Intrinsics.v
theories/M_Strict.v
theories/L_Strict.v
theories/Properties_Strict.v
theories/M_Exec.v
theories/L_Exec.v
theories/L_ExecStack.v
theories/L_ExecBig.v
theories/Properties_Exec.v
theories/M_Earley.v
theories/L_Earley.v
theories/L_EarleyMain.v
theories/L_EarleyParse.v
theories/L_EarleyTerm.v
theories/L_EarleyLex.v
theories/L_EarleyTrace.v
theories/L_EarleyReplay.v
theories/L_EarleyHalt.v
theories/Properties_Earley.v
theories/M_Tip.v
theories/L_Tip.v
theories/L_TipMain.v
theories/L_TipRun.v
theories/Properties_Tip.v
theories/M_Parse.v
theories/L_Parse.v
theories/L_ParseRun.v
theories/L_ParseMain.v
theories/Properties_Parse.v
theories/Properties_Reparse.v
theories/M_Expand.v
theories/L_Expand.v
theories/L_ExpandMain.v
theories/L_ExpandDer.v
theories/L_ExpandMore.v
theories/Properties_Expand.v
theories/M_PNode.v
theories/L_PNode.v
theories/Properties_PNode.v
theories/M_Cover.v
theories/L_Cover.v
theories/Properties_Cover.v
theories/M_UseCheck.v
theories/L_UseCheck.v
theories/Properties_UseCheck.v
theories/L_STAEnv.v
theories/M_STA.v
theories/L_STASpec.v
theories/L_STA.v
theories/Properties_STA.v
theories/M_STADriver.v
theories/L_STADriver.v
theories/Properties_STADriver.v
theories/M_Focus.v
theories/L_Focus.v
theories/Properties_Focus.v
theories/M_Meta.v
theories/L_MetaRx.v
theories/L_Meta.v
theories/L_MetaFwd.v
theories/L_MetaRead.v
theories/L_MetaRead2.v
theories/L_MetaRead3.v
theories/L_MetaRead4.v
theories/L_MetaDec.v
theories/L_MetaBack.v
theories/L_MetaBack2.v
theories/L_MetaBack3.v
theories/L_MetaFull.v
theories/L_MetaTot.v
theories/L_MetaOut.v
theories/Properties_Meta.v
theories/L_ExecCond.v
theories/Properties_Rules.v
theories/M_Records.v
theories/L_Records.v
theories/Properties_Records.v
theories/M_Ids.v
theories/L_Ids.v
theories/L_IdsMain.v
theories/Properties_Ids.v
theories/M_Layout.v
theories/L_Layout.v
theories/Properties_Layout.v
theories/M_Indent.v
theories/L_Indent.v
theories/L_IndentTree.v
theories/L_IndentMain.v
theories/Properties_Indent.v
theories/M_Defs.v
theories/L_Defs.v
theories/Properties_Defs.v
theories/M_Refs.v
theories/L_Refs.v
theories/L_NtRefs.v
theories/Properties_Refs.v
theories/M_Mathnum.v
theories/M_Values.v
theories/L_Values.v
theories/L_ValLists.v
theories/L_Mathnum.v
theories/Properties_Values.v
theories/Properties_Numbers.v
theories/M_LexChars.v
theories/L_LexChars.v
theories/Properties_LexChars.v
theories/M_Validate.v
theories/L_Validate.v
theories/L_ValRegex.v
theories/L_ValTree.v
theories/L_ValNodes.v
theories/L_ValRest.v
theories/L_ValMain.v
theories/Properties_Validate.v
theories/M_Test262.v
theories/L_Test262.v
theories/L_YamlColl.v
theories/L_YamlSpec.v
theories/L_TestOne.v
theories/Properties_Test262.v
theories/M_Style.v
theories/L_Style.v
theories/L_StyleVars.v
theories/L_StyleMore.v
theories/L_StyleIfs.v
theories/L_StyleDesc.v
theories/Properties_StyleVars.v
theories/Properties_StyleIfs.v
theories/M_Deps.v
theories/L_Deps.v
theories/L_DepsReach.v
theories/Properties_Deps.v
theories/M_Invoke.v
theories/L_Invoke.v
theories/Properties_Invoke.v
theories/M_PropPath.v
theories/L_PropPath.v
theories/Properties_PropPath.v
theories/M_Order.v
theories/L_Order.v
theories/Properties_Order.v
theories/M_Tables.v
theories/Properties_Tables.v
theories/M_Consist.v
theories/Properties_Consist.v
theories/M_Titles.v
theories/Properties_Titles.v
theories/M_PGrammar.v
theories/Properties_PGrammar.v
theories/M_Steps.v
theories/Properties_Steps.v
theories/M_Preamble.v
theories/Properties_Preamble.v
theories/M_Wki.v
theories/Properties_Wki.v
theories/M_SecId.v
theories/L_SecId.v
theories/Properties_SecId.v
theories/M_RecTables.v
theories/L_RecTables.v
theories/Properties_RecTables.v
theories/M_Facts.v
theories/Properties_Facts.v
theories/M_Parsed.v
theories/Properties_Parsed.v
theories/M_AlgReg.v
theories/Properties_AlgReg.v
