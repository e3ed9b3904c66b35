-Q theories Verif
theories/Base.v
theories/BaseLemmas.v
theories/Spec.v
theories/Search.v
theories/SearchProofs.v
theories/DfaModel.v
theories/NfaModel.v
theories/DfaBasics.v
theories/Bfs.v
theories/DfaReach.v
theories/DfaEquiv.v
theories/DfaHopcroft.v
theories/DfaMinimize.v
theories/Examples.v
theories/Histories.v
theories/DfaHistory.v
theories/DfaFinal.v
theories/Prop_Dfa.v
theories/NfaBasics.v
theories/NfaReach.v
theories/NfaEquiv.v
theories/NfaToDfa.v
theories/NfaUnion.v
theories/NfaProduct.v
theories/NfaEps.v
theories/Prop_Nfa.v
theories/WordsModel.v
theories/WordsProofs.v
theories/Prop_Words.v
theories/RegexModel.v
theories/RegexProofs.v
theories/Prop_Regex.v
theories/TableSpec.v
theories/ValidateModel.v
theories/ValidateProofs.v
theories/DefectSpec.v
theories/DefectProofs.v
theories/Prop_Validate.v
theories/LayoutSpec.v
theories/ParserModel.v
theories/ParserBasics.v
theories/FaParserProofs.v
theories/CrlfProofs.v
theories/Prop_Parser.v
theories/TableModel.v
theories/TableProofs.v
theories/TableAlign.v
theories/Prop_Table.v
theories/RegexSpec.v
theories/RegexTrimSpec.v
theories/RegexParserModel.v
theories/RegexParserProofs.v
theories/RegexPrintProofs.v
theories/RegexSymbols.v
theories/RegexUnescape.v
theories/RegexTrim.v
theories/Prop_RegexParser.v
theories/ApiModel.v
theories/ApiProofs.v
theories/Prop_Api.v
theories/ApiNames.v
theories/Prop_Roundtrip.v
theories/Messages.v
theories/MessageSpec.v
theories/WasmModel.v
theories/WasmSpec.v
theories/WasmProofs.v
theories/Prop_Wasm.v
theories/CliModel.v
theories/CliSpec.v
theories/CliProofs.v
theories/Prop_Cli.v
theories/CliLogSpec.v
theories/CliLogProofs.v
theories/Prop_CliLog.v
theories/NfaBoolean.v
theories/Prop_NfaBoolean.v
theories/Remarks.v
theories/Prop_Remarks.v
theories/DrawModel.v
theories/DrawSpec.v
theories/DrawProofs.v
theories/DrawOver.v
theories/Utf8Spec.v
theories/Utf8Proofs.v
theories/DrawBytesSpec.v
theories/DrawBytes.v
theories/Prop_Draw.v
theories/CanvasModel.v
theories/CanvasSpec.v
theories/CanvasProofs.v
theories/Prop_Canvas.v
theories/PageModel.v
theories/PageSpec.v
theories/PageProofs.v
theories/Prop_Page.v
theories/GraphemeSpec.v
theories/WordDfa.v
theories/Prop_Grapheme.v
theories/SizeSpec.v
theories/SizeProofs.v
theories/Prop_Size.v
theories/Growth.v
theories/Prop_Growth.v
theories/RegexSizeProofs.v
theories/Prop_RegexSize.v
theories/RegexDepthSpec.v
theories/RegexDepthProofs.v
theories/Prop_RegexDepth.v
theories/ReproSpec.v
theories/ReproProofs.v
theories/Prop_Repro.v
theories/StableProofs.v
theories/Prop_Stable.v
theories/AlgebraSpec.v
theories/RecolorProofs.v
theories/AlgebraProofs.v
theories/Prop_Algebra.v
theories/TestsModel.v
theories/CounterProofs.v
theories/TestsProofs.v
theories/Prop_Tests.v
theories/GenModel.v
theories/GenProofs.v
theories/Prop_Gen.v
theories/DocModel.v
theories/DocSpec.v
theories/DocProofs.v
theories/DocRuns.v
theories/Prop_Doc.v
theories/ErrSpec.v
theories/ErrModel.v
theories/ErrBasics.v
theories/ErrProofs.v
theories/ErrRegexProofs.v
theories/ErrCliModel.v
theories/ErrCliProofs.v
theories/FnMutSpec.v
theories/FnMutModel.v
theories/FnMutProofs.v
theories/Prop_FnMut.v
theories/Prop_Err.v
theories/Prop_ErrPage.v
theories/HistorySpec.v
theories/HistoryForeign.v
theories/Prop_Foreign.v
theories/GeometrySpec.v
theories/GeometryProofs.v
theories/PictureProofs.v
theories/PictureFinal.v
theories/Prop_Geometry.v
theories/ConvSpec.v
theories/ConvProofs.v
theories/Prop_Conv.v
theories/OptionsModel.v
theories/OptionsSpec.v
theories/OptionsProofs.v
theories/Prop_Options.v
theories/FirstPageSpec.v
theories/FirstPageProofs.v
theories/Prop_FirstPage.v
theories/PageHistorySpec.v
theories/PageHistoryProofs.v
theories/Prop_PageHistory.v
theories/ArtSpec.v
theories/ArtProofs.v
theories/Prop_Art.v
theories/PathSpec.v
theories/PathProofs.v
theories/Prop_Path.v
theories/FileModel.v
theories/FileSpec.v
theories/FileProofs.v
theories/Prop_File.v
theories/ArgsModel.v
theories/ArgsSpec.v
theories/ArgsProofs.v
theories/ArgsUses.v
theories/Prop_Args.v
theories/CliReproSpec.v
theories/CliReproProofs.v
theories/Prop_CliRepro.v
theories/ShippedModel.v
theories/ShippedSpec.v
theories/ShippedProofs.v
theories/Prop_Shipped.v
theories/ScriptSpec.v
theories/ScriptProofs.v
theories/Prop_Script.v
theories/F32Model.v
theories/F32Spec.v
theories/F32Proofs.v
theories/F32Shapes.v
theories/F32Final.v
theories/Prop_F32.v
theories/F64Model.v
theories/F64Spec.v
theories/F64Proofs.v
theories/F64Finite.v
theories/F64Page.v
theories/Prop_F64.v
theories/SeenProofs.v
theories/Prop_Seen.v
theories/PageReproSpec.v
theories/PageReproProofs.v
theories/Prop_PageRepro.v
theories/DecideSpec.v
theories/MooreProofs.v
theories/DecideProofs.v
theories/Prop_Decide.v
theories/PointModel.v
theories/PointSpec.v
theories/PointProofs.v
theories/RoundProofs.v
theories/Prop_Points.v
theories/Prop_Rects.v
theories/LawSpec.v
theories/LawModel.v
theories/LawProofs.v
theories/KleeneProofs.v
theories/LawApi.v
theories/Prop_Laws.v
theories/WriteModel.v
theories/WriteSpec.v
theories/WriteProofs.v
theories/Prop_Write.v
theories/ShareModel.v
theories/ShareSpec.v
theories/ShareProofs.v
theories/Prop_Share.v
theories/ProcessModel.v
theories/ProcessSpec.v
theories/ProcessProofs.v
theories/Prop_Process.v
theories/ByteModel.v
theories/ByteSpec.v
theories/ByteProofs.v
theories/Prop_Byte.v
theories/CutSpec.v
theories/CutProofs.v
theories/CutNfaProofs.v
theories/CutProductProofs.v
theories/CutCommentProofs.v
theories/Prop_Cut.v
