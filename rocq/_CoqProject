-Q theories Verif
theories/Base.v
theories/ThUni.v
theories/ThCons.v
theories/Syl.v
theories/Lattice.v
theories/Dag.v
theories/PronDag.v
theories/Utf.v
theories/SylOut.v
theories/ThaiOut.v
theories/Output.v
theories/Spec.v
theories/OrderProofs.v
theories/DagProofs.v
theories/PathProofs.v
theories/LatticeProofs.v
theories/GroupProofs.v
theories/ListDagProofs.v
theories/GroupSyl.v
theories/Prop_Syl.v
theories/Prop_Graph.v
theories/Dict.v
theories/GenDict.v
theories/Parser.v
theories/Data.v
theories/Wp.v
theories/DictProofs.v
theories/ParserSpec.v
theories/ParserRules.v
theories/ParserActs.v
theories/ParserLoop.v
theories/ParserFacts.v
theories/ParserInv.v
theories/ParserResult.v
theories/ParserPool.v
theories/ParserDict.v
theories/ParserListed.v
theories/ParserLiteral.v
theories/UtfProofs.v
theories/Prop_Parser.v
theories/Prop_Parser2.v
theories/Prop_Notation.v
theories/Prop_Output.v
theories/Prop_Dict.v
theories/Cli.v
theories/Prop_Cli.v
theories/Prop_Cli2.v
theories/ParserShift.v
theories/ParserLocal.v
theories/ParserProduct.v
theories/Prop_Product.v
theories/Grammar.v
theories/GrammarRun.v
theories/GrammarIff.v
theories/GrammarWord.v
theories/TextGrammar.v
theories/TextProof.v
theories/Prop_Grammar.v
theories/Prop_Text.v
theories/Prop_Every.v
theories/Prop_Roman.v
theories/Prop_Respell.v
theories/Prop_Listing.v
theories/Prop_Codes.v
theories/Prop_Breaks.v
theories/Prop_Program.v
theories/Prop_Pipeline.v
theories/Prop_ProgramJson.v
theories/Prop_ProgramEvery.v
theories/Prop_Sweep.v
theories/Prop_Sweep2.v
theories/Prop_Sweep3.v
theories/Checks.v
theories/Checks2.v
theories/PoolGrowth.v
theories/Prop_Pool.v
theories/FindBreaks.v
theories/Prop_FindBreaks.v
theories/Prop_Shipped.v
theories/Prop_RespellLine.v
theories/Prop_Order.v
theories/GenMain.v
theories/Prop_GenMain.v
theories/Prop_RawRead.v
theories/Prop_Cycle.v
theories/Prop_Usage.v
theories/Prop_FracEnd.v
theories/Prop_Package.v
theories/Prop_CodeOrder.v
theories/Prop_Regular.v
theories/Prop_GroupList.v
theories/Prop_RegularOut.v
theories/Prop_Span.v
theories/Prop_Clear.v
theories/ParserDebug.v
theories/DebugProofs.v
theories/DebugText.v
theories/Prop_Debug.v
theories/Prop_Size.v
theories/Prop_Vowel.v
theories/CliDebug.v
theories/Prop_DebugMain.v
theories/Prop_ThaiSame.v
theories/Prop_Lines.v
theories/Prop_Head.v
theories/Prop_Orthography.v
theories/Prop_Neighbours.v
theories/Prop_NoBreak.v
theories/Prop_Alike.v
theories/Prop_Literal.v
theories/Prop_Sayable.v
theories/Prop_Sequence.v
theories/Prop_Range.v
theories/Prop_Json.v
theories/Prop_Tells.v
theories/Prop_Silenced.v
theories/Prop_Silenced2.v
theories/Prop_SilentRo.v
theories/Prop_Exchange.v
theories/Prop_Relist.v
theories/Prop_SameRun.v
theories/Prop_Toneless.v
theories/Prop_Source.v
theories/Prop_Crlf.v
theories/Prop_Bracket.v
theories/Prop_Point.v
theories/Prop_Repeat.v
theories/Prop_Typed.v
