-Q theories Verif
theories/Base.v
theories/BaseFacts.v
theories/M_Text.v
theories/S_Text.v
theories/P_Text.v
theories/Properties_Text.v
theories/M_StringPool.v
theories/M_SliceRef.v
theories/M_SourceFile.v
theories/M_Path.v
theories/S_Util.v
theories/P_Util.v
theories/P_Path.v
theories/Properties_Util.v
theories/M_Names.v
theories/M_TagInfo.v
theories/M_Html.v
theories/M_HtmlParse.v
theories/M_Render.v
theories/M_Sequence.v
theories/S_Html.v
theories/S_Sequence.v
theories/P_Html.v
theories/P_Sequence.v
theories/P_HtmlDec.v
theories/Properties_Html.v
theories/M_TextSubs.v
theories/S_TextSubs.v
theories/P_TextSubs.v
theories/M_Token.v
theories/M_Tokenizer.v
theories/M_TokenText.v
theories/S_Front.v
theories/P_Tokenizer.v
theories/P_Front.v
theories/P_Escape.v
theories/Properties_Front.v
theories/M_Types.v
theories/M_Ast.v
theories/M_Diag.v
theories/M_Value.v
theories/S_Types.v
theories/P_Types.v
theories/P_Coerce.v
theories/M_Queue.v
theories/P_TypeText.v
theories/S_Diag.v
theories/P_Diag.v
theories/Properties_Types.v
theories/M_Int.v
theories/M_Highlight.v
theories/M_Parser.v
theories/M_State.v
theories/M_Matcher.v
theories/M_Binder.v
theories/M_Native.v
theories/M_Eval.v
theories/P_Pattern.v
theories/P_Built.v
theories/S_Scope.v
theories/P_State.v
theories/P_Scope.v
theories/S_Run.v
theories/P_Module.v
theories/S_Example.v
theories/Properties_Scope.v
theories/Properties_Module.v
theories/S_Match.v
theories/P_Match.v
theories/Properties_Match.v
theories/S_Call.v
theories/P_Call.v
theories/Properties_Call.v
theories/S_Native.v
theories/P_Sort.v
theories/P_Native.v
theories/P_NativeText.v
theories/P_NativeCalls.v
theories/Properties_Native.v
theories/S_Highlight.v
theories/P_Highlight.v
theories/Properties_Highlight.v
theories/S_Grammar.v
theories/P_ParserW.v
theories/P_ParserLeaf.v
theories/P_ParserTemplate.v
theories/P_ParserCheck.v
theories/P_ParserParams.v
theories/P_ParserPattern.v
theories/P_ParserSound.v
theories/P_ParserComplete.v
theories/P_ParserLex.v
theories/S_Parser.v
theories/P_Parser.v
theories/Properties_Parser.v
theories/M_Std.v
theories/M_Lib.v
theories/Tests_Suite.v
theories/P_Std.v
theories/P_Mono.v
theories/S_Lib.v
theories/P_Lib.v
theories/Properties_Lib.v
theories/M_Cli.v
theories/S_Cli.v
theories/S_CliExample.v
theories/P_CliPath.v
theories/P_Cli.v
theories/Properties_Cli.v
theories/S_Safe.v
theories/P_SafeBase.v
theories/P_SafeMonad.v
theories/P_SafeBind.v
theories/P_SafeMatch.v
theories/P_SafeHtml.v
theories/P_SafeNative.v
theories/P_SafeEval.v
theories/P_SafeRun.v
theories/P_ParserWf.v
theories/S_Session.v
theories/P_Session.v
theories/S_SafeExample.v
theories/P_SafeProps.v
theories/Properties_Safe.v
theories/S_Native2.v
theories/P_Native2.v
theories/Properties_Native2.v
theories/P_Stable.v
theories/S_Std.v
theories/P_StdHeap.v
theories/P_StdRun.v
theories/P_StdLib.v
theories/P_StdLib2.v
theories/P_StdLib3.v
theories/P_StdLib4.v
theories/Properties_Std.v
theories/S_Expr.v
theories/P_Expr.v
theories/P_Expr2.v
theories/Properties_Expr.v
theories/S_HtmlParse.v
theories/P_HtmlParse.v
theories/Properties_HtmlParse.v
theories/P_StdCall.v
theories/Properties_Std2.v
theories/P_StdPage.v
theories/M_Report.v
theories/S_Report.v
theories/P_Report.v
theories/P_Messages.v
theories/P_ReportText.v
theories/Properties_Report.v
theories/S_Prose.v
theories/P_Prose.v
theories/P_ProseLex.v
theories/P_ProseParse.v
theories/P_ProseEval.v
theories/P_ProseUnique.v
theories/P_ProseLib.v
theories/Properties_Prose.v
theories/P_ParserEnds.v
theories/M_ParserPos.v
theories/P_ParserPos.v
theories/S_Pos.v
theories/P_ParserWhere.v
theories/Properties_Pos.v
theories/P_Ast.v
theories/P_Ends.v
theories/S_Ends.v
theories/P_Ends2.v
theories/P_Ends3.v
theories/P_Ends4.v
theories/P_Below.v
theories/P_Ends5.v
theories/P_Loop.v
theories/Properties_Ends.v
theories/S_Markup.v
theories/P_Markup1.v
theories/P_Markup2.v
theories/P_Markup3.v
theories/P_Markup4.v
theories/P_Markup5.v
theories/P_Markup6.v
theories/P_Markup7.v
theories/P_Markup8.v
theories/P_Markup9.v
theories/P_MarkupLib.v
theories/Properties_Markup.v
theories/S_Lex.v
theories/P_Lex1.v
theories/P_Lex2.v
theories/P_Lex3.v
theories/P_Lex.v
theories/P_LexStrip.v
theories/Properties_Lex.v
theories/S_Builtins.v
theories/P_Builtins.v
theories/Properties_Builtins.v
theories/P_Least.v
theories/S_Convert.v
theories/P_Convert1.v
theories/P_Convert.v
theories/Properties_Convert.v
theories/P_SafeWeaken.v
theories/Properties_Plain.v
theories/P_TextMore.v
theories/P_Whole.v
theories/Properties_Whole.v
theories/S_Equal.v
theories/P_Equal.v
theories/S_Highlight2.v
theories/P_Highlight2.v
theories/M_Syntect.v
theories/S_Syntect.v
theories/P_Syntect.v
theories/Properties_Syntect.v
theories/P_MatchBound.v
theories/S_Raw.v
theories/P_Raw.v
theories/Properties_Raw.v
theories/M_RenderIo.v
theories/S_RenderIo.v
theories/P_RenderIo.v
theories/Properties_RenderIo.v
theories/S_PlainText.v
theories/P_PlainText.v
theories/Properties_PlainText.v
theories/S_Redundant.v
theories/P_Redundant.v
theories/S_Sources.v
theories/P_Sources.v
theories/Properties_Sources.v
theories/S_Wording.v
theories/P_Wording.v
theories/S_Layout.v
theories/P_Layout.v
theories/P_Layout2.v
theories/P_Layout3.v
theories/P_Layout4.v
theories/Properties_Layout.v
theories/S_Self.v
theories/P_Self.v
theories/S_Levels.v
theories/P_Levels.v
theories/P_LevelsLib.v
theories/Properties_Levels.v
theories/S_Alone.v
theories/P_Shift1.v
theories/P_Shift2.v
theories/P_Shift3.v
theories/P_Shift4.v
theories/P_Shift5.v
theories/P_Shift6.v
theories/P_Shift7.v
theories/P_Alone.v
theories/Properties_Alone.v
theories/S_Least.v
theories/P_AloneCli.v
theories/S_PosOrder.v
theories/P_ParserOrder.v
theories/S_Refill.v
theories/P_Refill.v
theories/Properties_Refill.v
theories/P_Cut.v
theories/S_Escapes.v
theories/P_Escapes.v
theories/S_Trail.v
theories/P_Trail.v
theories/P_TrailText.v
theories/Properties_Trail.v
theories/S_Inline.v
theories/P_Inline.v
theories/Properties_Inline.v
theories/S_Blocks.v
theories/P_Blocks.v
theories/Properties_Blocks.v
theories/S_Sorted.v
theories/P_Sorted.v
theories/Properties_Sorted.v
theories/S_Document.v
theories/P_Document.v
theories/Properties_Document.v
theories/P_Blank.v
theories/Properties_Blank.v
theories/S_Join.v
theories/P_Join.v
theories/P_JoinText.v
theories/Properties_Join.v
theories/S_Parts.v
theories/P_Parts.v
theories/Properties_Parts.v
