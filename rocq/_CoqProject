-Q theories Verif
theories/LexModel.v
theories/LexSpec.v
theories/LexFacts.v
theories/WideFacts.v
theories/VecFacts.v
theories/P_Lex.v
theories/SynSetModel.v
theories/SynSetFacts.v
theories/P_SynSet.v
theories/TableModel.v
theories/CfgSpec.v
theories/CfgFacts.v
theories/FirstFacts.v
theories/FollowFacts.v
theories/CheckFacts.v
theories/LocalFacts.v
theories/JumpFacts.v
theories/MetaFacts.v
theories/OrderFacts.v
theories/SyntaxFacts.v
theories/SyntaxEx.v
theories/P_Syntax.v
theories/StreamModel.v
theories/StreamSpec.v
theories/StreamFacts.v
theories/P_Stream.v
theories/TypeModel.v
theories/TypeSpec.v
theories/ProduceModel.v
theories/ParseSpec.v
theories/TypeFacts.v
theories/ProgFacts.v
theories/FuelFacts.v
theories/TreeFacts.v
theories/SoundFacts.v
theories/LangFacts.v
theories/ParseEx.v
theories/P_Types.v
theories/RunFacts.v
theories/InvFacts.v
theories/LookFacts.v
theories/MdFacts.v
theories/ParseFacts.v
theories/NodeFacts.v
theories/P_Parse.v
theories/P_Nodes.v
theories/TermFacts.v
theories/ProgressFacts.v
theories/EndFacts.v
theories/TermEx.v
theories/P_Term.v
theories/CompleteSpec.v
theories/CompleteFacts.v
theories/CompleteEx.v
theories/P_Complete.v
theories/LoopSpec.v
theories/LoopFacts.v
theories/LoopEx.v
theories/P_Loop.v
theories/MarkSpec.v
theories/MarkFacts.v
theories/KeepFacts.v
theories/JustFacts.v
theories/SemFacts.v
theories/P_Mark.v
theories/MacroModel.v
theories/MacroSpec.v
theories/MacroFacts.v
theories/MacroEx.v
theories/P_Macro.v
theories/LeafSpec.v
theories/LeafFacts.v
theories/P_Leaf.v
theories/ListSpec.v
theories/ListFacts.v
theories/ExpectFacts.v
theories/P_List.v
theories/DebugModel.v
theories/DebugSpec.v
theories/DebugFacts.v
theories/P_Debug.v
theories/SynMacroModel.v
theories/SynMacroSpec.v
theories/SynMacroFacts.v
theories/P_SynMacro.v
theories/Utf8Model.v
theories/Utf8Spec.v
theories/Utf8Facts.v
theories/Utf8TextFacts.v
theories/P_Utf8.v
theories/DeriveModel.v
theories/DeriveSpec.v
theories/DeriveFacts.v
theories/P_Derive.v
theories/LexItemModel.v
theories/LexItemSpec.v
theories/LexItemFacts.v
theories/LexRootFacts.v
theories/P_LexItem.v
theories/SourceSpec.v
theories/SourceFacts.v
theories/P_Source.v
theories/ReadmeSpec.v
theories/ReadmeFacts.v
theories/P_Readme.v
theories/CostSpec.v
theories/CostFacts.v
theories/RankFacts.v
theories/LinearFacts.v
theories/OutputFacts.v
theories/P_Linear.v
theories/EarlyFacts.v
theories/PrefixSpec.v
theories/PrefixFacts.v
theories/PrefixEx.v
theories/OffendFacts.v
theories/OffendEx.v
theories/P_Prefix.v
theories/ReportSpec.v
theories/ReportFacts.v
theories/ReportEx.v
theories/P_Report.v
theories/ScanSpec.v
theories/ScanFacts.v
theories/ReadmeText.v
theories/TextEx.v
theories/P_Text.v
theories/IterModel.v
theories/IterSpec.v
theories/IterFacts.v
theories/P_Iter.v
theories/LayoutSpec.v
theories/LayoutFacts.v
theories/LayoutEx.v
theories/P_Layout.v
theories/RootModel.v
theories/BookSpec.v
theories/BookFacts.v
theories/P_Book.v
theories/TestKit.v
theories/RepoTests.v
theories/RepoTests2.v
theories/InferModel.v
theories/InferSpec.v
theories/InferFacts.v
theories/P_Infer.v
theories/NextSpec.v
theories/NextFacts.v
theories/NextEx.v
theories/P_Next.v
theories/AnswerFacts.v
theories/P_Answer.v
theories/RepairSpec.v
theories/RepairFacts.v
theories/P_Repair.v
theories/ViewModel.v
theories/ViewSpec.v
theories/ViewFacts.v
theories/P_View.v
theories/EditSpec.v
theories/EditFacts.v
theories/P_Edit.v
theories/ScatterSpec.v
theories/ScatterFacts.v
theories/ScatterEx.v
theories/P_Scatter.v
theories/BrokenSpec.v
theories/BrokenFacts.v
theories/BrokenEx.v
theories/P_Broken.v
theories/StmtSpec.v
theories/StmtFacts.v
theories/StmtEx.v
theories/P_Stmt.v
theories/ThreadModel.v
theories/ThreadSpec.v
theories/ThreadFacts.v
theories/ThreadEx.v
theories/P_Thread.v
theories/RoundSpec.v
theories/RoundFacts.v
theories/VisitSpec.v
theories/VisitFacts.v
theories/P_Rounds.v
theories/BlockSpec.v
theories/BlockFacts.v
theories/BlockEx.v
theories/P_Block.v
theories/PartSpec.v
theories/PartFacts.v
theories/PartEx.v
theories/P_Part.v
theories/PrintModel.v
theories/PrintFacts.v
theories/PrintEx.v
theories/P_Print.v
theories/ExtendSpec.v
theories/ExtendFacts.v
theories/ExtendEx.v
theories/P_Extend.v
theories/RefactorSpec.v
theories/RefactorFacts.v
theories/RefactorEx.v
theories/P_Refactor.v
theories/RenameSpec.v
theories/RenameRunFacts.v
theories/RenameProduceFacts.v
theories/RenameTableFacts.v
theories/RenameFacts.v
theories/RenameEx.v
theories/P_Rename.v
theories/AlikeFacts.v
theories/AlikeEx.v
theories/P_Alike.v
theories/RespellFacts.v
theories/RespellEx.v
theories/P_Respell.v
theories/FewerFacts.v
theories/FewerEx.v
theories/P_Fewer.v
theories/MendFacts.v
theories/MendEx.v
theories/P_Mend.v
theories/CleanSpec.v
theories/CleanFacts.v
theories/EachFacts.v
theories/CleanEx.v
theories/P_Clean.v
theories/SugarSpec.v
theories/SugarTableFacts.v
theories/SugarFacts.v
theories/SugarRecFacts.v
theories/SugarLoopFacts.v
theories/SugarPlusFacts.v
theories/SugarEx.v
theories/P_Sugar.v
theories/PunctSpec.v
theories/PunctFacts.v
theories/PunctEx.v
theories/P_Nest.v
