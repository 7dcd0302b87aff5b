# Formal model of SpacemanDMM in Rocq (Coq 8.16.1)

## 1. Layout

`rocq/theories/<Topic>/`:

* `Model.v`  – executable Gallina model of the Rust code, every definition citing file and lines of `/repo`.
* `Spec.v`   – (where the property is not a one-liner) a small specification written without the model's helpers.
* `Proofs.v` – lemmas.
* `Props.v`  – only the property theorems, each closed by `exact lemma`, followed by `Print Assumptions`
  and by `Example`s showing that a concrete, non-trivial case meets the hypotheses.

Conventions. A Rust `&mut` method is a function returning the new value. `panic!`/`unwrap`/`assert!`/out-of-bounds
indexing/arithmetic overflow (debug builds) is the explicit outcome `Panic`; where release builds wrap instead, the
comment says so. `Result` and `Option` stay data. Bytes are `ascii`, Unicode text is a list of code points (`N`)
with the UTF-8/UTF-16 length functions written out. Loops are structural recursion or fuel whose exhaustion is an
explicit outcome that the theorems exclude. Machine integers are unbounded except where the property is about the
limits (keys, file ids, locations, sprites), where the limit is in the model.

If the faithful model violates the property, the theorem is `..._refuted` with a witness, next to the strongest true
statement proved (`..._partial` when part of the English property is missing).

## 2. Plan per property

| id | modelled | how proved |
|----|----------|-----------|
| C01–C04 | `interval-tree`: Node/IntervalTree ops, both iterators as stack machines, over any ordered key | invariant (BST + heights + maxima + AVL), refinement to an association from keys to value lists |
| C05 | `AnnotationTree` on top of C01–C04 with concrete `Location` | corollaries of C03 with `pred` lemmas |
| C06, C07 | base-52 key codec with u16 limits | arithmetic, division lemmas |
| C08 | coordinate conversion, grid as a nested list | bijection lemmas |
| C09 | `save_tgm` as byte producer, `parse_map` as the character machine | simulation lemma per emitted fragment; induction on map |
| C10 | `LocationTracker` | induction on bytes |
| C11 | `read_punct` with the two tables transcribed | table facts by computation, induction on needle |
| C12–C14 | the lexer as a total function on bytes | induction / simulation; refutations by witness |
| C15, C16 | `IndentProcessor` as `step`/`finish` | invariants over token lists |
| C17 | `simplify` over code points | induction on lines |
| C18, C19 | `FileList`, `Location` | invariant over operation lists; arithmetic |
| C20 | `Config`, `Context::register_error` | case analysis + induction |
| C21 | `check_switch_rand_range` after float→int conversion | induction on the sorted list |
| C22 | `History` with petgraph's edge iteration order | invariant: tree + replay |
| C23–C25 | `DualPool`, `AtomZ`, `AtomMap::save` | invariants over operation lists |
| C26, C27 | `document.rs` over code points | induction |
| C28 | `jrpc_io` over bytes | round-trip by induction |
| C29 | `Background` with explicit schedule events | invariant |
| C30, C31 | `symbol_search`, `color` | induction; byte sweeps lifted |
| C32 | `Dir` | finite case analysis (domain is 8 values) + Z arithmetic |
| C33 | `parse_metadata` over parsed lines | invariant over lines |
| C34 | `composite` | arithmetic on bytes, induction over rectangle |
| C35 | `ispath` | induction on strings |
| C36 | `DefineMap`, history | refinement to a stack per name |
| C38 | as C15 | states of the margin along the lines |
| C39 | the preprocessor's main loop (`do_directive`, `inner_next`, if-stack, `evaluate`) over lexed tokens, files as a finite map | each well-formed conditional line sequence is walked by `leads` lemmas; specification is a separate recursive selection of live lines |
| C40 | macro expansion in `inner_next`/`prepare`/`expand`: argument splitting, substitution, `#`, `##`, variadics | specification `expands` = inductive substitution; simulation of the include stack (flattening lemma) |
| C41 | the same loop with fuel; exhaustion is an explicit outcome | lexicographic measure on include stack + below-order on the remaining files; no `#pragma multiple` |
| C42 | `parse_map` on the standard layout, written as a function in the specification | same simulation lemmas, rows instead of columns |
| C43 | `read_raw_string` at any position of the lexer | induction over the bytes up to the first terminator |
| C44, C45 | `parser.rs` `parse_expression` and everything below it (operator table, groups, terms, follows, arguments, prefabs, input types) over a list of tokens, with fuel | grammar in `Parse/Spec.v` = inductive derivations over tokens, each with the set of tokens it would swallow; soundness by induction on fuel, completeness by induction on the length (continuation lemmas for the precedence climbing), monotonicity in fuel, a linear fuel bound |
| C46 | `constants.rs` Constant, Display, `evaluate_str`, ConstantFolder (every term, follow and operator), with the lexer model of C01-C05/C12 and the parser model of C44 | conditions in `Const/Spec.v`; the printed text is shown to be spelt by tokens (`Const/Lexing.v`, `Const/Texts.v`: lexer run on concatenated lexemes), the tokens to be a derivation of the grammar (C44 gives the parse), the expression to evaluate to the constant, by mutual induction (`Const/Roundtrip.v`); composed with C09 for whole maps (`Const/Maps.v`). f32 is a parameter: F with arbitrary operations |
| C47 | `constants.rs` evaluate_all, constant_ident_lookup, recursive_lookup; `objtree.rs` get_var_declaration, find; `ast.rs` is_const_evaluable (`Const/Tree.v`), with the evaluator of C46 | specification by rounds (`Const/TreeSpec.v`: owner, declared, value); a simulation theorem for the evaluator with two different ways of looking variables up (`Const/Related.v`), then invariants of the memo table: stored constants are values, an evaluation in progress or failed stays marked, fuel bounded by the number of open variables (`Const/TreeProofs.v`, `Const/TreeProps.v`) |
| C48 | `constants.rs` Eq and Hash of Constant and Pop, `dmm.rs` Eq and Hash of Prefab (`Const/EqHash.v`; the hasher is the list of what it is fed) | relation `same` with a permutation of the variables; both sides by a mutual induction principle over nested constants; sorting by key is unique for distinct keys (`Const/EqHashProps.v`) |
| C49 | `objtree.rs` building the tree and finding types by path (`Objtree/Model.v`; maps as sorted lists, locations, documentation and variables other than parent_type left out) | histories `built`/`finished`; invariant `wf` linking node paths, children, parents and the map of paths (`Objtree/Wf.v`), kept by assigning parents (`Objtree/Assign.v`); specification by components `at_`, lexicographic order `plt`, `step`, `reaches` (`Objtree/Spec.v`); proofs `Objtree/Paths.v`, `PathsProps.v` |
| C50 | `objtree.rs` assign_parent_types, walks up and down the parents, procedures (`Objtree/Model.v`; loops with fuel, total for fuel at least the number of types) | specification `chosen_parent`, `complaint`, `subtype` (closure), `chain`, `nearest`; acyclicity by a lexicographic rank; `Objtree/Inherit.v`, `Calls.v`, `InheritProps.v`; `Demo.v` has trees with and without circles |
| C51 | `dreamchecker/lib.rs` check_proc_call_tree, first half (`Checker/CallTree.v`; input: the calls, sleeping procedures and directives that the analysis of the bodies has gathered; messages reduced to their kind) | specification `reach` (inductive), `stops`, `uniform`; invariant `during` of the breadth first search; `Checker/SleepProofs.v`, `SleepProps.v`; completeness partial, with two refutations in `Checker/Demo.v` |
| C52 | second half and propagate_violations (`Checker/CallTree.v`) | specification `impurity` (inductive); `Checker/PureProofs.v`, `PureProps.v` |
| C53 | ProcDirective, add_directive_or_error, the checks of overrides and of private and protected calls (`Checker/Directives.v`) | specification `first_accepted`, `refused`, `governs`, `wrong`, `trespasses` (`Checker/DirectivesSpec.v`); `Checker/DirectivesProps.v` |
| C54 | ControlFlow, visit_block, visit_statement as far as control flow goes, is_truthy, valid_for_range (`Flow/Model.v`) | a big-step semantics of the statements with nondeterministic conditions, throws and prefixes of endless runs, and what each report excludes (`Flow/Spec.v`); mutual induction on statements with what each flag means (`Flow/Proofs.v`); `Flow/Props.v` |
| C55 | block, statement, simple_statement, for_range, case, var_suffix, tree_path, VarTypeBuilder (`Stmt/Model.v`, syntax trees in `Stmt/Ast.v`) over the expression parser of C44 | a grammar with what follows as an argument (`Stmt/Spec.v`); one predicate on results that gives termination, growth of diagnostics and soundness together (`Stmt/Sound.v`, `Sound2.v`), completeness by induction on fuel with a bound on the tokens (`Complete.v`, `Complete2.v`); `Stmt/Props.v` |
| C56 | the same | the grammar's rules for heads of loops, and unambiguity for the refutation (`Stmt/Props.v`, `Demo.v`) |
| C57 | root, tree_entries, tree_entry, proc_params_and_body, proc_parameter, return_type, read_any_tt, try_read_operator_name (`Tree/Model.v`) over the statement parser of C55 | a grammar of entries with what is around them and what follows as arguments, `leads` for where a path leads, `fresh` for the order of the types (`Tree/Spec.v`); soundness and termination in one predicate (`Sound.v`, `Sound2.v`), paths in `Place.v`, completeness by induction on derivations (`Complete.v`); `Tree/Props.v` |
| C58 | the same | induction on the written path, on the grammar (`Tree/Props.v`) |
| C59 | the same, with the panic of peek as a result; `Lexer/Model.v` and `Indents/Model.v` in front of it | panics traced back to the end of the tokens; open blocks by completeness; a concrete text computed through all three models (`Tree/Demo.v`) |
| C60 | `minimap.rs` generate, clip, get_atom_list, neighbourhoods, sorting, drawing (`Minimap/Model.v`; passes are records of functions) | what a map looks like, in coordinates from the bottom left (`Minimap/Spec.v`); drawing pixel by pixel (`Draw.v`), collecting the sprites (`Scene.v`), `Props.v`; `Demo.v` draws a map of four tiles |
| C61 | `minimap.rs` Layer (`Minimap/Layer.v`; floats as multiples of 2^-149 with rounding to 24 bits) | floor and fraction of the rounded sums; rounding is monotone; refutations by witness |
| C62 | `minimap.rs` get_var, color_of, plane_of, layer_of, from_vars (`Minimap/Vars.v`) | specification `inherited`, `hex_value`; induction on the line of ancestors and on digits |
| C63 | `render_passes/mod.rs` configure, FancyLayers, HideInvisible (`Passes/Config.v`) | specification `wanted`, `names`, `is_under`; any order that sorting by length can give; induction on the sorted list |
| C64 | `render_passes/icon_smoothing*.rs` (`Passes/Smooth.v`) | specification `joins`, `junction`, `piece`; a table of the 256 combinations of what is found in the eight directions, which holds for all neighbourhoods |
| C65 | `render_passes/smart_cables.rs` (`Passes/Cables.v`) | specification `reaches`, `cable_name` |
| C66 | `dreamchecker/lib.rs` visit_call (arguments), check_kwargs, finish_check_kwargs (`Checker/Kwargs.v`; input: the calls in the order in which the analysis of the bodies meets them; calls inside arguments count as separate calls) | specification `uses`, `effective`, `goes_wrong` (`Checker/KwargsSpec.v`); the keys of the table are texts, so part of the proof is that texts of types and procedures do not collide; completeness partial, with two refutations in `Checker/KwargsDemo.v` |
| C67 | `dreamchecker/lib.rs` check_var_defs (`Checker/VarDefs.v`; the variables of each type are given) | specification `inherited`, `exempt`, `wrong`; `Checker/VarDefsProps.v` |
| C68 | `dreamchecker/type_expr.rs`, `lib.rs` static_type, return types (`Checker/TypeExpr.v`; what is known about arguments is given, locations left out) | specification: grammar `allowed`, big-step `value`, `supplies`, `stripped`, `lists`; induction over expressions; `Checker/TypeExprProps.v` |
| C69 | `dreamchecker/lib.rs` visit_expression, visit_term, visit_follow, visit_new, visit_call, visit_unary, visit_binary, check_operator_overload (`Checker/Exprs.v`; the object tree, directives, return types, variable declarations and locals are given; locations and fix hints left out; effects are a list of events) | specification `Checker/ExprsSpec.v`: inductive rules `gives`, `looks`, `says`, `invokes`, `declares`; induction over the size of parts; `Checker/ExprsProps.v`, `Checker/ExprsQuiet.v`, examples and refutations in `Checker/ExprsDemo.v` |
| C70 | `dreamchecker/lib.rs` filter() in visit_call, check_filter_flag, VALID_FILTER_TYPES, VALID_FILTER_FLAGS (`Checker/Filters.v`) | specification `fault`, `flag_fault`, `acceptable`, `flags_ok`; `Checker/FiltersProps.v` |
| C71 | `dreamchecker/lib.rs` run, visit_block, visit_statement and what they use, `ast.rs` is_const_eval, is_static (`Checker/Stmts.v`; on top of C69 for expressions and C54 for control flow; locations left out, effects are a list of events; the depth of spawn() is a boolean) | specification `Checker/StmtsSpec.v`: `after`, `through`, `left_with` (variables), `inside`, `within` (what is looked at), `tells` (what is said), `starts`, `part`, `skipped`; induction over the size of statements; `Checker/StmtsProps.v`; refutations in `Checker/StmtsDemo.v` |
| C72 | `dm-langserver/completion.rs` all, `main.rs` find_type_context, find_unscoped_var, find_scoped_type and the request Completion (`Lsp/Completion.v`; which names match a query is a parameter (C30), details and documentation of entries are left out) | specification `Lsp/CompletionSpec.v`: what is to be offered, by paths of types (C49) and inheritance (C50): `around`, `var_type`, `scoped`, `closest`, `walks`, `leads`, `full_path`, `offered`; each search of the program is shown to decide its relation; `Lsp/CompletionProps.v`; refutations in `Lsp/CompletionDemo.v` |
| C73 | `dm-langserver/find_references.rs` all (`Lsp/References.v`; a location is the declaration and the term, follow, statement or parameter in it; the lists are not sorted) | specification `Lsp/ReferencesSpec.v`, rules: what a name stands for (`refers`, `member`), the type of a part (`gives`), which parts are looked at (`looks`, `inside`), what each uses (`uses`, `item_uses`), what is declared before what (`declared`, `decls`, `introduces`), then `reference` and `implementation` of the whole tree; the walk is shown to list exactly these, expressions by induction on their size (`Lsp/ReferencesProps.v`), statements by a step and a measure (`Lsp/ReferencesStmts.v`); completeness against the `part` of C71; refutations in `Lsp/ReferencesDemo.v` |
| C74 | `dm-langserver/main.rs` find_unscoped_var (with what it finds), symbol_id_at, GotoDefinition, GotoTypeDefinition, References, GotoImplementation, SignatureHelpRequest (`Lsp/Goto.v`; a location is the type, value, parameter or variable that is there; the annotations at the place are given, C03 says in which order they come) | specification `Lsp/GotoSpec.v`, rules over the places of C72 and inheritance: `stands` (names), `goes` (definitions), `has_type`, `names` (symbols), `helps` (signatures, with where each parameter is in the text); the loops upwards are shown to find the nearest type (`nearest_with`), the text of a signature by induction on the parameters |
| C75 | `dm-langserver/main.rs` DocumentSymbolRequest, FoldingRangeRequest, DocumentLinkRequest (`Lsp/Outline.v`, on the annotation tree of C05) | specification `Lsp/OutlineSpec.v`: rows with what is above them, directly under the newest range that the symbol starts in (`outlined`); the recursion is shown to keep a stack whose innermost fitting member is that range; regions by balanced words (`balanced`), links by C05 |
| C76 | `dm-langserver/main.rs` WorkspaceSymbol, convert_location, the object tree explorer (402-513), QueryObjectTree (`Lsp/Explorer.v`, on the object tree of C49 and the queries of C30) | specification `Lsp/ExplorerSpec.v`: which symbols there are (`symbol_is`), in which order, and what an entry of the explorer shows (`whole`, `opened`); the loops are shown to push the filtered list of all symbols, the sort is stable, the recursion ends by the depth of paths |
| C77 | `dm-langserver/main.rs` HoverRequest, construct_proc_hover, construct_var_hover, location_link (`Lsp/Hover.v`, on the lookups of C74) | specification `Lsp/HoverSpec.v`: what an annotation is about (`subject`), what the page of it contains (`page`: the types upwards, `lineage`, that have or declare the name, `collects`); each loop with its accumulators is shown to gather a list that is the collected one; documentation texts, links to files and the display of flags and constants are parameters |
| C78 | `ast.rs` InputType Display and to_typepath, VarTypeFlags iter and Display, VarType Display and FromIterator; `parser.rs` input_type (`Stmt/Show.v`, on `Stmt/Model.v`) | specification `Stmt/ShowSpec.v`: sets of bits by membership, words of a table that are in a set, the smallest set of a table; the text is cut at its separators and read by the model of the reader. Bits are numbers without bound; the finitely many flags are covered by computation over all of them after a bound has been proved |
| C37 | `AtomMap` undo functions | invariant of the pool + multiset of tile contents |

## 3. Trusted base

* Coq 8.16.1's kernel (including `vm_compute`, used only in examples, in sweeps over fixed finite tables and in
  refutations by witness) and its standard library. No other library is imported. No axioms: `Print Assumptions` of every theorem in
  MANIFEST.json says "Closed under the global context" (each `Props.v` prints it when built). The build lists seven
  constants `Coq.ssr.ssrunder.Under_rel.*` as "library axioms": they are module parameters of the `ssr` library files
  that are loaded with `lia`/`ssreflect` support; no theorem depends on them.
* The correspondence between the Rust source and the Gallina definitions, made by reading. Every definition cites the
  lines it models. It has not been tested by running the code (no toolchain and no dependencies in the sandbox).
* Semantics given to Rust: integers are mathematical except where a limit is modelled; overflow, slicing outside a
  string or inside a character, `unwrap` on `None` and failed assertions are panics. Memory exhaustion and stack overflow are
  outside the model. HashMap iteration order, where it can be observed, is an arbitrary list (a theorem quantifies over it).
* Parameters, i.e. things quantified over and therefore not trusted but also not described: f32 parsing and printing,
  Unicode tables (`to_lowercase`, `is_alphanumeric`, `\d`), URL equality, locations where only their identity matters.

### What is modelled

| crate | modelled | not modelled |
|---|---|---|
| interval-tree | all of `node`, `interval_tree`, iterators | `size`/`Debug` |
| dreammaker | `error.rs` (FileList, Location, Config/diagnostics), `annotation.rs`, `lexer.rs` (everything but `Token::Display` of floats), `indents.rs`, `docs.rs`, `preprocessor.rs` (define map and history, conditionals, includes, expansion; not the builtin `__MAIN__`-style environment loading nor map/skin file lists), `ast.rs`/`objtree.rs` ispath, building the tree, parents, procedures; `parser.rs` expressions, statements and declarations; `constants.rs` evaluation, Eq and Hash | which annotations the parser makes, documentation comments in the parser, `builtins.rs`, `dreamchecker`-only parts of `ast.rs` |
| dmm-tools | `dmm.rs` keys, coordinates, grid, prefabs; `save_tgm`, `parse_map` (constants abstract: any type with any display and evaluator); `dmi` metadata, directions, blending and pasting; `minimap.rs` | the passes for transit tubes, gravity generators, spawners, pipes, wires and random looks; the 2016 smoothing beyond what it finds; PNG codec |
| dreamchecker | `switch_rand_range.rs`, `lib.rs` directives, overrides, private and protected calls, named arguments, redeclared variables, return types (`type_expr.rs`), types of expressions and what is reported about them, filter(), statements, the call tree (sleeping and purity), control flow | order and grouping over all procedures (main loop), texts of messages |
| dm-langserver | `document.rs`, `jrpc_io.rs`, `background.rs`, `symbol_search.rs`, `color.rs`, `completion.rs`, `find_references.rs`; of `main.rs` the lookups of names and the requests Completion, GotoDefinition, GotoTypeDefinition, GotoImplementation, References, SignatureHelp, DocumentSymbol, FoldingRange, DocumentLink, WorkspaceSymbol, and the object tree explorer with QueryObjectTree, and HoverRequest | the other handlers, debugger |
| spaceman-dmm | `map_repr.rs`, `edit history`, `DualPool` | GUI, OpenGL |
