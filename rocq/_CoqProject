-Q theories Verif
theories/Common/Order.v
theories/Common/ZBits.v
theories/Common/Text.v
theories/Common/Decimal.v
theories/Common/TextFacts.v
theories/Common/Utf8.v
theories/Itree/Model.v
theories/Itree/Spec.v
theories/Itree/Proofs.v
theories/Itree/Props.v
theories/Loc/Model.v
theories/Loc/Spec.v
theories/Loc/Proofs.v
theories/Loc/Props.v
theories/Diag/Model.v
theories/Diag/Spec.v
theories/Diag/Proofs.v
theories/Diag/Props.v
theories/Dmm/Model.v
theories/Dmm/Spec.v
theories/Dmm/KeyProofs.v
theories/Dmm/GridProofs.v
theories/Dmm/Props.v
theories/Dmm/TgmModel.v
theories/Dmm/TgmSpec.v
theories/Dmm/TgmDict.v
theories/Dmm/TgmGrid.v
theories/Dmm/TgmProofs.v
theories/Dmm/TgmDmm.v
theories/Dmm/TgmProps.v
theories/Dmi/Model.v
theories/Dmi/Spec.v
theories/Dmi/DirProps.v
theories/Dmi/BlendProofs.v
theories/Dmi/BlendProps.v
theories/Dmi/MetaProofs.v
theories/Dmi/RenderProofs.v
theories/Dmi/MetaProps.v
theories/Switch/Model.v
theories/Switch/Spec.v
theories/Switch/Props.v
theories/History/Model.v
theories/History/Spec.v
theories/History/Props.v
theories/Objtree/Ispath.v
theories/Editor/Pool.v
theories/Editor/Atoms.v
theories/Editor/AtomProofs.v
theories/Editor/AtomProps.v
theories/Editor/Save.v
theories/Editor/SaveProps.v
theories/Lsp/Document.v
theories/Lsp/DocumentProps.v
theories/Lsp/Jrpc.v
theories/Lsp/Background.v
theories/Lsp/SymbolSearch.v
theories/Lsp/Color.v
theories/Lexer/Tracker.v
theories/Lexer/Punct.v
theories/Lexer/Model.v
theories/Lexer/Spec.v
theories/Lexer/Facts.v
theories/Lexer/PunctProps.v
theories/Lexer/CommentProps.v
theories/Lexer/LexProps.v
theories/Lexer/QuoteProps.v
theories/Lexer/RawProps.v
theories/Indents/Model.v
theories/Indents/Spec.v
theories/Indents/Props.v
theories/Docs/Model.v
theories/Docs/Spec.v
theories/Docs/Proofs.v
theories/Docs/Props.v
theories/Pp/Model.v
theories/Pp/HistoryModel.v
theories/Pp/HistorySpec.v
theories/Pp/HistoryProofs.v
theories/Pp/Steps.v
theories/Pp/Demo.v
theories/Pp/HistoryProps.v
theories/Pp/Spec.v
theories/Pp/Flat.v
theories/Pp/Walk.v
theories/Pp/Cond.v
theories/Pp/CondProps.v
theories/Pp/CondDemo.v
theories/Pp/Term.v
theories/Pp/TermProps.v
theories/Parse/Ast.v
theories/Parse/Model.v
theories/Parse/Spec.v
theories/Parse/Facts.v
theories/Parse/Grow.v
theories/Parse/Term.v
theories/Parse/Gram.v
theories/Parse/Sound.v
theories/Parse/Sound2.v
theories/Parse/Mono.v
theories/Parse/Complete.v
theories/Parse/Complete2.v
theories/Parse/Complete3.v
theories/Parse/Props.v
theories/Parse/Demo.v
theories/Const/Model.v
theories/Const/Spec.v
theories/Const/Dir.v
theories/Const/Lexing.v
theories/Const/Texts.v
theories/Const/Roundtrip.v
theories/Const/Props.v
theories/Const/Maps.v
theories/Const/Demo.v
theories/Const/Related.v
theories/Const/Tree.v
theories/Const/TreeSpec.v
theories/Const/TreeProofs.v
theories/Const/TreeProps.v
theories/Const/TreeDemo.v
theories/Const/EqHash.v
theories/Const/EqHashProps.v
theories/Const/EqHashDemo.v
theories/Objtree/Model.v
theories/Objtree/Lemmas.v
theories/Objtree/Spec.v
theories/Objtree/Wf.v
theories/Objtree/Assign.v
theories/Objtree/Paths.v
theories/Objtree/PathsProps.v
theories/Objtree/Inherit.v
theories/Objtree/Calls.v
theories/Objtree/InheritProps.v
theories/Objtree/Demo.v
theories/Checker/CallTree.v
theories/Checker/Spec.v
theories/Checker/SleepProofs.v
theories/Checker/TreeFacts.v
theories/Checker/SleepProps.v
theories/Checker/PureProofs.v
theories/Checker/PureProps.v
theories/Checker/Directives.v
theories/Checker/DirectivesSpec.v
theories/Checker/DirectivesProps.v
theories/Checker/Demo.v
theories/Stmt/Ast.v
theories/Stmt/Model.v
theories/Stmt/Spec.v
theories/Stmt/Sound.v
theories/Stmt/Sound2.v
theories/Stmt/Complete.v
theories/Stmt/Complete2.v
theories/Stmt/Props.v
theories/Stmt/Demo.v
theories/Flow/Model.v
theories/Flow/Spec.v
theories/Flow/Proofs.v
theories/Flow/Props.v
theories/Flow/Demo.v
theories/Tree/Ast.v
theories/Tree/Model.v
theories/Tree/Spec.v
theories/Tree/Sound.v
theories/Tree/Place.v
theories/Tree/Sound2.v
theories/Tree/Complete.v
theories/Tree/Props.v
theories/Tree/Demo.v
theories/Minimap/Model.v
theories/Minimap/Spec.v
theories/Minimap/Draw.v
theories/Minimap/Scene.v
theories/Minimap/Props.v
theories/Minimap/Demo.v
theories/Minimap/Layer.v
theories/Minimap/Vars.v
theories/Passes/Model.v
theories/Passes/Spec.v
theories/Passes/Config.v
theories/Passes/Smooth.v
theories/Passes/Cables.v
theories/Passes/Demo.v
theories/Checker/Kwargs.v
theories/Checker/KwargsSpec.v
theories/Checker/KwargsProps.v
theories/Checker/KwargsDemo.v
theories/Checker/VarDefs.v
theories/Checker/VarDefsProps.v
theories/Checker/TypeExpr.v
theories/Checker/TypeExprProps.v
theories/Checker/Filters.v
theories/Checker/FiltersProps.v
theories/Checker/Exprs.v
theories/Checker/ExprsSpec.v
theories/Checker/ExprsProps.v
theories/Checker/ExprsQuiet.v
theories/Checker/ExprsDemo.v
theories/Checker/Stmts.v
theories/Checker/StmtsSpec.v
theories/Checker/StmtsProps.v
theories/Checker/StmtsDemo.v
theories/Lsp/Completion.v
theories/Lsp/CompletionSpec.v
theories/Lsp/CompletionProps.v
theories/Lsp/CompletionDemo.v
theories/Lsp/References.v
theories/Lsp/ReferencesSpec.v
theories/Lsp/ReferencesProps.v
theories/Lsp/ReferencesStmts.v
theories/Lsp/ReferencesDemo.v
theories/Lsp/Goto.v
theories/Lsp/GotoSpec.v
theories/Lsp/GotoProps.v
theories/Lsp/GotoDemo.v
theories/Lsp/Outline.v
theories/Lsp/OutlineSpec.v
theories/Lsp/OutlineProps.v
theories/Lsp/OutlineDemo.v
theories/Stmt/Show.v
theories/Stmt/ShowSpec.v
theories/Stmt/ShowProps.v
theories/Lsp/Hover.v
theories/Lsp/HoverSpec.v
theories/Lsp/HoverProps.v
theories/Lsp/HoverDemo.v
theories/Lsp/Explorer.v
theories/Lsp/ExplorerSpec.v
theories/Lsp/ExplorerProps.v
theories/Lsp/ExplorerDemo.v
