-Q theories Verif
theories/M_Base.v
theories/M_StringUtil.v
theories/M_Vector.v
theories/M_LinkedList.v
theories/M_Trie.v
theories/S_Util.v
theories/L_Vector.v
theories/L_LinkedList.v
theories/L_Trie.v
theories/L_TrieIter.v
theories/L_StringUtil.v
theories/P_Util.v
theories/M_Tree.v
theories/M_Context.v
theories/M_Tokenizer.v
theories/M_Parser.v
theories/M_Printer.v
theories/M_TreeUtil.v
theories/S_Engine.v
theories/L_Tokenizer.v
theories/L_Context.v
theories/P_Context.v
theories/S_Parse.v
theories/L_Parser.v
theories/L_ParserSound.v
theories/L_ParserInv.v
theories/L_ParserBal.v
theories/L_ParserBlank.v
theories/L_ParserExact.v
theories/M_ArithCtx.v
theories/L_ArithCtx.v
theories/M_Strtod.v
theories/L_SetUp.v
theories/L_Lex.v
theories/P_Parse.v
theories/S_Tree.v
theories/L_Tree.v
theories/P_Tree.v
theories/M_Match.v
theories/S_Match.v
theories/L_Match.v
theories/L_MatchSem.v
theories/L_MatchTop.v
theories/L_MatchRule.v
theories/L_MatchSub.v
theories/P_Match.v
theories/M_RuleParsing.v
theories/S_Rules.v
theories/L_RuleParsing.v
theories/P_Rules.v
theories/M_Double.v
theories/M_Eval.v
theories/S_Eval.v
theories/L_Float.v
theories/L_Eval.v
theories/P_Eval.v
theories/M_ShippedRules.v
theories/M_Simplify.v
theories/S_Simplify.v
theories/L_Simplify.v
theories/L_SimpPattern.v
theories/L_SimpRules.v
theories/L_SimpSound.v
theories/L_SimpDeriv.v
theories/L_SimpCheck.v
theories/L_SimpSteps.v
theories/L_NegConst.v
theories/L_SimpLoop.v
theories/P_Simplify.v
theories/M_Session.v
theories/S_Session.v
theories/L_Expand.v
theories/L_SessionCtx.v
theories/L_OpsKept.v
theories/L_Session.v
theories/L_SessionDef.v
theories/L_SessionCmd.v
theories/L_Reach.v
theories/L_SessionFun.v
theories/L_SessionEx.v
theories/P_Session.v
theories/S_TableCmd.v
theories/L_TableNum.v
theories/P_TableCmd.v
theories/S_Print.v
theories/L_Print.v
theories/L_PrintLex.v
theories/L_PrintParse.v
theories/P_Print.v
theories/M_Printf.v
theories/S_Printf.v
theories/L_Printf.v
theories/P_Printf.v
theories/M_Table.v
theories/S_Table.v
theories/L_Table.v
theories/L_TableWf.v
theories/L_TablePrint.v
theories/L_TablePicture.v
theories/L_TableCount.v
theories/P_Table.v
theories/S_TableApi.v
theories/S_Plain.v
theories/L_TableApi.v
theories/L_TableGrid.v
theories/P_TableApi.v
theories/P_Plain.v
theories/M_Error.v
theories/S_Error.v
theories/L_Located.v
theories/L_Origin.v
theories/L_Error.v
theories/P_Error.v
theories/M_Main.v
theories/S_Main.v
theories/L_Main.v
theories/P_Main.v
theories/S_Constraint.v
theories/L_Constraint.v
theories/P_Constraint.v
theories/S_Deriv.v
theories/L_Deriv.v
theories/P_Deriv.v
theories/L_NamesKept.v
theories/M_TableOut.v
theories/S_TableOut.v
theories/L_TableOut.v
theories/P_TableOut.v
theories/S_Passes.v
theories/P_Passes.v
theories/M_Help.v
theories/S_Help.v
theories/P_Help.v
theories/S_Load.v
theories/L_Agree.v
theories/P_Load.v
theories/S_World.v
theories/L_World.v
theories/P_World.v
theories/S_Answer.v
theories/P_Answer.v
theories/S_History.v
theories/P_History.v
