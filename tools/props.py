#!/usr/bin/env python3
"""Single source for properties.jsonl (run: python3 tools/props.py > properties.jsonl)."""
import json
P = []
def p(id, title, statement, quantifier, why, anchors):
    P.append(dict(id=id, title=title, statement=statement, quantifier=quantifier,
                  why_tests_cant=why, anchors=anchors))

IT = "crates/interval-tree/src/"
p("C01", "Interval tree behaves like a multimap",
  "Starting from IntervalTree::new(), after any sequence of insert(k,v) / remove(k), get(k) returns Some of exactly the values inserted under k since the last remove(k), in insertion order, and None if there are none; contains/get_or/is_empty agree with it; operations on one key never change what another key returns.",
  "every finite sequence of insert/remove operations over any totally ordered key type, and every queried key",
  "Rotations and deletions reshape the tree in ways depending on the whole history; the existing fuzz test samples 5000 random operations on keys below 100 and checks only the root node.",
  [IT+"tree.rs: IntervalTree::{insert,remove,get,contains,get_or,is_empty}", IT+"node.rs: Node::{insert,delete,search_pair,combine_two_subtrees,drop_min}"])
p("C02", "Interval tree never panics and stays logarithmically shallow",
  "No sequence of insert/remove reaches the `expect(\"Avl broken\")`, `expect(\"Interval broken\")` or `unreachable!()` paths, and a tree of reported height h holds at least fib(h+2)-1 distinct keys (so height is O(log n)).",
  "every finite sequence of insert/remove operations",
  "A panic would need a particular imbalance reached by a particular history; tests can only try some histories.",
  [IT+"node.rs: Node::{rotate_if_necessary,rotate_left_successor,rotate_right_successor,rotate_left,rotate_right,updated_node}", IT+"tree.rs: IntervalTree::height"])
p("C03", "Range queries return exactly the intersecting intervals, in order",
  "range(q) yields exactly the stored (interval, value) pairs whose interval intersects q (start <= q.end and end >= q.start), each once, in increasing key order and insertion order within a key; iter() yields all pairs in that order. Holds although subtrees are pruned through the cached maxima.",
  "every reachable tree and every query range (including inverted ones)",
  "Pruning bugs only show for specific tree shapes combined with specific interval ends; the number of shapes is unbounded.",
  [IT+"iterators.rs: RangePairIter::{visit_left,visit_right,visit_center,get_next_node}", IT+"tree.rs: IntervalTree::{range,iter}"])
p("C04", "Interval tree min/max, consuming iteration and merge",
  "min()/max() return the entry with the least/greatest key; into_iter yields all pairs in the order of iter(); merge(other) makes get(k) return the old values followed by other's values for every k.",
  "every pair of reachable trees",
  "Order and completeness must hold for every shape.",
  [IT+"tree.rs: IntervalTree::{min,max,merge,into_iter}", IT+"iterators.rs: IntoIter"])
p("C05", "Annotation tree lookups cover exactly the half-open ranges inserted",
  "After any sequence of inserts of half-open ranges start..end and merges, get_range(a..b) returns exactly the annotations whose inclusive range [start, end.pred()] meets [a, b.pred()], get_location(l) exactly those that contain l or l.pred() or lie between, and len() is the number of annotations held.",
  "every sequence of insert/merge and every location",
  "The conversion between half-open and inclusive ranges goes through Location::pred at line/file boundaries, for which every (file,line,column) matters.",
  ["crates/dreammaker/src/annotation.rs: AnnotationTree::{insert,merge,get_location,get_range,get_range_raw,len}", "crates/dreammaker/src/error.rs: Location::pred"])
p("C06", "Dictionary keys survive formatting and re-reading",
  "For every key the map can format at its key length (1, 2 or 3 letters), reading the formatted letters back yields the same key; distinct keys format to distinct strings of exactly key-length letters; every out-of-range letter or value above 65535 is rejected with an error rather than wrapping.",
  "every 16-bit key, key length and byte string",
  "All 65536 keys times byte strings of unbounded length; overflow checking matters at one boundary only.",
  ["crates/dmm-tools/src/dmm.rs: FormatKey, base_52_reverse, advance_key, Map::format_key"])
p("C07", "Automatic key length fits every key",
  "After Map::adjust_key_length() every key in the dictionary can be formatted without panicking, and no shorter key length could do so.",
  "every dictionary (any set of 16-bit keys)",
  "Thresholds must be right for every maximal key.",
  ["crates/dmm-tools/src/dmm.rs: Map::adjust_key_length, FormatKey"])
p("C08", "Map coordinates and grid indexing are a bijection",
  "For every map size, BYOND coordinates 1..=x,1..=y,1..=z map one-to-one onto grid cells with y inverted; coordinates outside panic instead of aliasing; iterating a z-level top-down visits every coordinate exactly once with the same key that indexing by that coordinate returns.",
  "all dimensions and all coordinates, in and out of range",
  "All sizes; aliasing would be silent.",
  ["crates/dmm-tools/src/dmm.rs: Coord2::{to_raw,from_raw}, Coord3::{to_raw,from_raw}, Map::index, ZLevel::{iter_top_down,index}, Map::dim_xyz"])
p("C09", "Saving a map as TGM and loading it gives the same map",
  "For every map whose paths, variable names and value texts avoid the documented structural characters, parsing the bytes written by to_writer yields the same dimensions, the same dictionary (prefab order, variable order, value text handed to the evaluator) and the same key at every coordinate.",
  "every map: any dimensions, dictionary size, prefab lists, variables",
  "The reader is a character-level state machine with a dozen flags; the space of maps is unbounded.",
  ["crates/dmm-tools/src/dmm/save_tgm.rs: save_tgm", "crates/dmm-tools/src/dmm/read.rs: parse_map"])
p("C10", "Source locations are exact",
  "For every input, the location reported after reading the n-th byte is line 1 + number of newlines before it and column 1 + number of bytes since the last newline (a leading UTF-8 BOM is skipped); locations strictly increase; only lines above 65535 bytes or more than 2^32-1 lines make it panic.",
  "every byte sequence",
  "Every newline pattern and length.",
  ["crates/dreammaker/src/lexer.rs: LocationTracker::{new,next,from_location,count_location}"])
p("C11", "Punctuation is lexed by maximal munch",
  "At every input position the punctuation token chosen is the longest entry of the punctuation table that is a prefix of the remaining input, exactly its characters are consumed (at most one character is looked ahead and put back), and if no entry matches nothing is consumed.",
  "every remaining input",
  "Depends on the ordering of the table, the prefix-closure of the table, and a hand-made index table agreeing with it, for every continuation.",
  ["crates/dreammaker/src/lexer.rs: read_punct, filter_punct, filter_punct_table, SPEEDY_TABLE, PUNCT_TABLE"])
p("C12", "Quoted strings re-lex to the same string",
  "Formatting a string token and lexing the result gives back one string token with the same contents.",
  "every string contents",
  "All strings; three quoting styles each with its own troublesome contents.",
  ["crates/dreammaker/src/lexer.rs: Quote, read_string, read_raw_string, read_raw_string_inner"])
p("C13", "Block comments nest and are skipped exactly",
  "A well-nested block comment is consumed exactly up to its matching close, whatever it contains, and lexing resumes right after; an unterminated one reports an error and stops at end of file.",
  "every comment body and continuation",
  "Nesting depth and contents are unbounded.",
  ["crates/dreammaker/src/lexer.rs: skip_block_comments"])
p("C14", "The lexer is total and consumes each byte once",
  "For every byte sequence the lexer terminates, never panics by putting back twice, and ends with one final newline token.",
  "every byte sequence (lines within the column limit)",
  "A put-back conflict needs a particular sequence of lexer modes.",
  ["crates/dreammaker/src/lexer.rs: Lexer::{next,put_back,skip_ws,read_string,read_number_inner,read_ident,check_close}"])
p("C15", "Indentation processing keeps every significant token",
  "The output of the indentation processor contains no newline, tab or space token; removing the braces and semicolons it inserted leaves exactly the non-whitespace input tokens in their order.",
  "every token sequence",
  "Unbounded token sequences with arbitrary whitespace.",
  ["crates/dreammaker/src/indents.rs: IndentProcessor::{real_next,next}"])
p("C16", "Indentation is turned into balanced braces",
  "For every token sequence for which no diagnostic is registered, the output's braces are balanced: never more closes than opens in any prefix, and equal at the end of file.",
  "every token sequence",
  "Balance depends on the whole history of indentation levels and explicit braces.",
  ["crates/dreammaker/src/indents.rs: IndentProcessor::{real_next,next}"])
p("C17", "Doc comment simplification is safe and strips a common margin",
  "Rendering documentation never slices out of range or inside a character, drops blank lines at the ends, keeps line order, and removes from every non-blank line the same prefix (the longest common run of whitespace/marker characters) and the same suffix.",
  "every comment text",
  "The slice bounds come from a minimum over all lines, for every text.",
  ["crates/dreammaker/src/docs.rs: simplify, is_empty, DocCollection::text"])
p("C18", "File registry is a bijection between paths and ids",
  "Registering a path returns the same id every time, distinct paths get distinct ids, get_path(register(p)) = p, get_id(p) is Some exactly for registered paths, and no registered id collides with the builtins id or the bad id.",
  "every sequence of registrations",
  "Behaviour at the 16-bit limit needs 65534 files.",
  ["crates/dreammaker/src/error.rs: FileList::{register,get_id,get_path}, FILEID_*"])
p("C19", "Location packing and predecessor are exact",
  "pack() is injective and order-preserving with respect to the ordering of locations; pred() of a location is the greatest smaller location, except at the documented lowest location of the bad file id and the panic at the lowest location overall.",
  "every pair of locations",
  "2^64 values; boundaries at column 0, line 0.",
  ["crates/dreammaker/src/error.rs: Location::{pack,pred}"])
p("C20", "Diagnostics obey the configuration",
  "A diagnostic is recorded exactly when its type is not disabled and its configured (or own) severity is at least as severe as the configured error level; recorded diagnostics carry the configured severity, keep everything else, and appear in registration order.",
  "every configuration and every sequence of diagnostics",
  "All combinations and histories.",
  ["crates/dreammaker/src/config.rs: Config::{set_configured_severity,registerable_error}, WarningLevel::applies_to", "crates/dreammaker/src/error.rs: Context::register_error"])
p("C21", "switch(rand()) coverage warning is exact",
  "Without a default branch, the 'no case branch triggers' warning is issued exactly when some integer in the rand range is matched by no evaluable case, and it names the smallest such integer; a case is reported as never triggering exactly when it meets no value of the range.",
  "every rand range and every list of case ranges",
  "Gap detection over arbitrary overlapping interval lists.",
  ["crates/dreamchecker/src/switch_rand_range.rs: check_switch_rand_range, get_rand_range, get_case_range"])
p("C22", "Undo and redo travel the edit history faithfully",
  "If every edit's undo action reverses it, then after any sequence of edits, undos and redos the current document is the one obtained by replaying the edits on the path from the root to the current history node; undo immediately after an edit or redo restores the previous document; redo immediately after an undo restores the undone document; is_dirty is false exactly at the node last marked clean.",
  "every sequence of edit/undo/redo/mark_clean operations",
  "History is a tree; the branch chosen by redo depends on the whole past.",
  ["crates/spaceman-dmm/src/history.rs: History::{edit,undo,redo,can_undo,can_redo,is_dirty,mark_clean}"])
p("C23", "Instance pool never loses or aliases a live instance",
  "After any sequence of pushes and frees of live indices, each live index reads back the key last stored there, a new push never reuses a live index, keys_iter lists exactly the live entries, and len() is their number.",
  "every operation sequence",
  "Free-list reuse depends on the whole history.",
  ["crates/spaceman-dmm/src/map_repr.rs: DualPool::{push,free,get_key,len,keys_iter}"])
p("C24", "Editing atoms keeps the render order and draw calls consistent",
  "After any sequence of add_instance/remove_instance on a level, sorted_order lists each live instance once in non-decreasing sort-key order, and expanding the draw calls gives exactly the texture of each instance in that order.",
  "every sequence of additions and removals on a level",
  "Splitting/extension of draw calls depends on positions; unbounded histories.",
  ["crates/spaceman-dmm/src/map_repr.rs: AtomMap::{add_instance,remove_instance,sort_again,get_instance}, AtomZ::{prep_instance,remove_instance}, find_draw_call"])
p("C25", "Saving the edited map preserves every tile",
  "AtomMap::save, with or without a merge base, produces a map in which every tile's dictionary entry is exactly the tile's atoms in pool order, two tiles share a key only if their atoms are equal, keys reused from the base denote the base's contents, and every key fits the key length.",
  "every set of tiles, every base dictionary, every hash-map iteration order",
  "Hash-map iteration order is arbitrary; key allocation depends on it.",
  ["crates/spaceman-dmm/src/map_repr.rs: AtomMap::save", "crates/dmm-tools/src/dmm.rs: Key::{next,invalid}, Map::adjust_key_length"])
p("C26", "Editor positions and byte offsets correspond",
  "For every text and every offset on a character boundary, converting the offset to a line/UTF-16-column position and back gives the same offset; positions are monotone in offsets; a position past the end of its line resolves to the end of that line.",
  "every text (all Unicode) and every offset/position",
  "Mixed-width characters and newline patterns are unbounded.",
  ["crates/dm-langserver/src/document.rs: line_offset, total_offset, offset_to_position, get_range"])
p("C27", "Incremental document synchronisation matches the client",
  "Starting from open, applying any sequence of change notifications leaves the server's text equal to the text obtained by splicing each edit by its line/UTF-16 range; version numbers never go backwards; closed or unopened documents are refused without altering others.",
  "every sequence of open/change/close notifications",
  "Errors accumulate over unbounded edit sequences.",
  ["crates/dm-langserver/src/document.rs: DocumentStore::{open,close,change,get_contents}, Document::change"])
p("C28", "JSON-RPC framing round-trips any message sequence",
  "Reading the concatenation of messages written by write_to yields exactly those messages in order and then end-of-input, whatever bytes (newlines, header look-alikes) they contain.",
  "every finite sequence of UTF-8 messages",
  "Message contents are arbitrary and framing errors compound.",
  ["crates/dm-langserver/src/jrpc_io.rs: read, write_to, run_with_read"])
p("C29", "Background task results are the latest task's",
  "Whatever the interleaving of task completions (or panics) with spawn/poll calls, value() is always the result of a task that was the current one when polled; results of superseded tasks are never observed; once a task completes and poll is called, is_busy() becomes false.",
  "every schedule of spawn, complete, crash and poll events",
  "Depends on thread timing.",
  ["crates/dm-langserver/src/background.rs: Background::{spawn,poll,is_busy,value}"])
p("C30", "Symbol search matches case- and punctuation-insensitively",
  "starts_with(text, q) holds exactly when the alphanumeric characters of q, lower-cased, are a prefix of those of text; contains exactly when they are a contiguous infix; a query with no alphanumerics is rejected.",
  "every pair of strings",
  "The iterator protocol (zip consuming one side) hides off-by-one behaviours for particular lengths.",
  ["crates/dm-langserver/src/symbol_search.rs: starts_with, contains, simplify, Query::parse"])
p("C31", "Colour literals survive editing",
  "Formatting any RGBA colour in any detected style and extracting colours from the result gives the same colour back; re-formatting an extracted literal in its own detected style denotes the same colour.",
  "all 2^32 colours in every format",
  "2^32 colours times formats; short forms apply only to some.",
  ["crates/dm-langserver/src/color.rs: ColorFormat::{parse,format}, parse_hex, parse_rgba, COLOR_REGEX"])
p("C32", "Direction algebra is consistent",
  "Every direction operation agrees with the geometry of offsets: flips negate the components, 45/90 degree turns are rotations, clockwise and counter-clockwise turns are inverse, from_int/to_int are inverse, and adding a direction then its flip to a coordinate is the identity.",
  "all directions and coordinates",
  "Coordinates are unbounded; the tables are hand-written and partially covered by tests.",
  ["crates/dreammaker/src/dmi.rs: Dir::*", "crates/dmm-tools/src/dmm.rs: Add<Dir> for Coord2"])
p("C33", "DMI sprite layout has no overlap",
  "For every metadata description that parses, states occupy consecutive disjoint index ranges starting at 0 in file order, distinct (state, direction, frame) triples within their counts select distinct sprites inside the sheet, and looking a state up by name and duplicate number returns that state.",
  "every description text",
  "Unbounded number of states and orders of attributes.",
  ["crates/dreammaker/src/dmi.rs: parse_metadata, State::{index_of_dir,index_of_frame,num_sprites}, Metadata::{rect_of,get_icon_state}"])
p("C34", "Image compositing is local and bounded",
  "composite changes no pixel outside the destination rectangle, a fully transparent source leaves visible pixels unchanged, a fully opaque source replaces them, the resulting alpha is at least each input alpha, and each result channel lies between the source and destination channel.",
  "all pixel values, tints, positions and sizes",
  "2^96 combinations of pixel, tint and destination values.",
  ["crates/dmm-tools/src/dmi.rs: Image::composite, mul255"])
p("C35", "Path prefix test is by whole components",
  "ispath(path, parent) holds exactly when parent's components are a prefix of path's components (trailing slashes of parent ignored); it is reflexive and transitive.",
  "all absolute path strings",
  "All strings; `/obj/item` vs `/obj/items` type errors need particular names.",
  ["crates/dreammaker/src/objtree.rs: ispath"])
p("C36", "Macro definitions are scoped by a stack and recorded in history",
  "Within a preprocessing run, #define pushes and #undef pops: the visible definition of a name is the most recent one not yet undefined; after finalisation, the definitions in force reconstructed for a location are exactly those whose lifetime covers it.",
  "every sequence of define/undef events at increasing locations",
  "Histories are unbounded and reconstruct through an interval tree.",
  ["crates/dreammaker/src/preprocessor.rs: DefineMap::{insert,remove,get,contains_key,from_history}, Preprocessor::{move_to_history,finalize}, DefineHistory::branch_at_file"])
p("C37", "Undoing an instance edit restores the map",
  "Undoing the addition of an instance (also one that replaced a turf or area on its tile) and undoing the removal of an instance give back exactly the atoms that every tile had before the edit.",
  "every map state, tile, prefab and instance",
  "Depends on the pool's free list and on what the addition replaced; states are unbounded.",
  ["crates/spaceman-dmm/src/map_repr.rs: AtomMap::{add_instance,undo_add_instance,remove_instance,undo_remove_instance}"])
p("C38", "Nesting depth follows indentation",
  "For source laid out by indentation alone (no braces) that raises no indentation diagnostic, the brace depth at which every token ends up is the one its line's margin says: a line without margin is at depth 0, the first line with a margin is at depth 1, the depths of the lines of one top-level block are proportional to their margins, and tokens inside a line (also inside parentheses that span lines) keep the line's depth.",
  "every token sequence without braces and diagnostics",
  "Depends on the unit chosen by the first indented line of every block; sequences are unbounded.",
  ["crates/dreammaker/src/indents.rs: IndentProcessor::real_next"])
p("C39", "Conditional compilation selects exactly the live lines",
  "For every environment file that is a well-formed tree of lines (text, #define, #undef, #include, #if/#ifdef/#ifndef ... #elif ... #else ... #endif at any nesting), the non-empty lines that the preprocessor yields, the macros in force at the end and the files entered are those of the live lines only: of every conditional the first part whose condition holds is used and the others have no effect, a file is processed in place of its #include and at most once.",
  "every program, macro environment and file system",
  "Nesting depth, number of files and lines are unbounded, and the effect of a line depends on everything before it.",
  ["crates/dreammaker/src/preprocessor.rs: Preprocessor::{real_next,evaluate,is_disabled,next}, Ifdef::{new,else_,else_if}"])
p("C40", "Macro expansion is substitution",
  "The tokens yielded for a text without directives are exactly its expansion: object-like macros are replaced by their bodies, calls of function-like macros by the body with the arguments (split at commas outside parentheses; the last parameter of a variadic macro takes the rest) in place of the parameters, # making a string and ## joining identifiers; replacements are expanded again up to the depth limit; __FILE__ and __LINE__ give the current file and line; nothing else changes, and every token of a replacement has the location of the macro's name.",
  "every token sequence and macro environment",
  "Expansion recurses through unboundedly many macros and argument shapes.",
  ["crates/dreammaker/src/preprocessor.rs: Preprocessor::real_next, Include::Expansion"])
p("C41", "Preprocessing terminates",
  "For every finite file system, environment file and macro environment, preprocessing ends unless a #pragma multiple is executed: files that include themselves or each other, recursive macros and nested conditions cannot make it run forever.",
  "every program and finite file system",
  "Termination over all inputs cannot be tested; recursion through macros, includes and conditions interacts.",
  ["crates/dreammaker/src/preprocessor.rs: Preprocessor::{next,real_next,evaluate}, IncludeStack::next, MAX_RECURSION_DEPTH"])
p("C42", "The standard map layout loads to the same map",
  "For the same maps as C09, the standard DMM layout (one line per dictionary entry, one block per level with one row of keys per line, top row first) is parsed to exactly that map, so that both layouts of a map are read alike.",
  "every map: any dimensions, dictionary size, prefab lists, variables",
  "The reader distinguishes the layouts only through the running values of its coordinates; the space of maps is unbounded.",
  ["crates/dmm-tools/src/dmm/read.rs: parse_map"])
p("C43", "Raw strings are taken verbatim",
  "At every lexer position outside directive text, a raw string (@(TERM)...TERM, @{\"...\"}, @{...{ or @c...c) yields one string token whose text is exactly the bytes between the opening and the first occurrence of its terminator, with no escape or interpolation processed; lexing resumes right behind the terminator and nothing is reported. Without a terminator it takes the rest of the file and reports that.",
  "every input, every position in it, every terminator and body",
  "Terminators are arbitrary strings that may overlap the body or themselves.",
  ["crates/dreammaker/src/lexer.rs: Lexer::{read_raw_string,read_raw_string_inner}"])
p("C44", "The expression parser accepts exactly the DM expression grammar",
  "For every token sequence, parsing an expression ends; it yields expression e without reporting anything and leaves the tokens rest, exactly if the grammar of DM expressions (terms with prefix and postfix operators, member access, calls, indexing, paths and prefabs, new, list, pick, input, locate, call, interpolated strings, the conditional, binary operators with their levels, assignment, in ... to ...) derives e from the tokens before rest, none of which could be continued by rest. Documentation comments make no difference. In particular the grammar assigns at most one expression, and one end, to a text.",
  "every token sequence of any length and nesting depth",
  "Infinitely many sentences and non-sentences; ambiguity and lost or misattached tokens only show for particular combinations of constructs at unbounded nesting.",
  ["crates/dreammaker/src/parser.rs: parse_expression, Parser::{expression_ex,expression_part,group,term,follow,list_access,field,arguments,pick_arguments,separated,prefab_ex,input_specifier,input_type}, BINARY_OPS"])
p("C45", "Operators group by precedence and associativity",
  "In a p b q c, with p and q any binary operators, assignments or in, and a, b, c any operands with their prefix and postfix operators, b belongs to the operator of the tighter level, among equal levels to the left one except for assignments, which group to the right. Conditionals take tighter operators into their condition, nest to the right and in their middle, and are taken whole by an assignment.",
  "every pair of operators, every three operands, every continuation of the text",
  "40 x 40 operators times unboundedly many operands and contexts.",
  ["crates/dreammaker/src/parser.rs: BINARY_OPS, Strength, Parser::{expression_ex,expression_part}"])
p("C46", "Constants survive printing and evaluation",
  "Printing a constant and evaluating the text, at any location of a map file, gives that very constant back, for constants built at any depth from null, new with and without type and arguments, lists, constant functions, types with variables, strings whose escapes are complete, resources without quotes and numbers whose printed form is their own literal. So distinct such constants print differently. A map whose variables hold such constants, saved and loaded with this printer and this evaluator, is the same map again, for strings without double quotes, tabs and line breaks and types without variables in braces.",
  "every constant of any depth and size, every location, every map",
  "Constants nest without bound, and the text passes through lexer, expression parser and evaluator, where a single missing separator or wrong precedence would show only for particular neighbours.",
  ["crates/dreammaker/src/constants.rs: Display for Constant, Display for Pop, evaluate_str, ConstantFolder", "crates/dreammaker/src/lexer.rs: Quote, Lexer", "crates/dreammaker/src/parser.rs: parse_expression", "crates/dmm-tools/src/dmm/read.rs: parse_map", "crates/dmm-tools/src/dmm/save_tgm.rs: save_tgm"])
p("C47", "Variables of the object tree get the values their definitions say",
  "When no type inherits from itself, evaluating all variables of a parsed object tree ends. Every constant then stored for a variable is the value of its expression when the variables mentioned in it have the constants stored for them, each looked up in the nearest type that has it, and the value can be worked out in finitely many rounds. Every variable whose value can be worked out in rounds in this way has it stored, and an error is reported for a variable exactly when nothing is stored for it. Variables that need each other in a circle get nothing. When no expression uses a.b, what is stored does not depend on the order in which types and variables are visited.",
  "every object tree (any number of types and variables, any expressions), every order of visiting",
  "Evaluation is a recursion through a graph of variables with memoisation and in-progress marks: chains and circles have any length, and an order-dependent result shows only for particular orders of definition.",
  ["crates/dreammaker/src/constants.rs: evaluate_all, constant_ident_lookup, ConstantFolder::recursive_lookup, ConstantFolder::expr", "crates/dreammaker/src/objtree.rs: Type::get_var_declaration, ObjectTree::find", "crates/dreammaker/src/ast.rs: VarType::is_const_evaluable"])
p("C48", "Equal constants and equal map objects hash alike",
  "Two constants compare equal exactly if they are built alike from equal numbers, strings, paths and types, where the variables of a type may be in any order; the same holds for the objects of a map. If equality of numbers is an equivalence, equality of constants is one. Constants or map objects that compare equal feed the same values to a hasher, whatever the order of their variables, so that either can be found in a hash table under the other.",
  "every pair of constants and of map objects, of any depth and number of variables",
  "Constants nest without bound and the variables can be permuted at every level; the hash function sorts them first, and a mismatch between the two only shows as an entry that cannot be found.",
  ["crates/dreammaker/src/constants.rs: PartialEq for Pop, Hash for Pop, PartialEq for Constant, Hash for Constant", "crates/dmm-tools/src/dmm.rs: PartialEq for Prefab, Hash for Prefab"])
p("C49", "Types are found by their paths, whatever the order in which they were added",
  "However types, parent_type settings and procedures were added, every type has exactly one path and every path at most one type. find gives a type exactly for the texts that are paths. Adding a type adds its path, keeps what was there and adds nothing else, and adding it again changes nothing; assigning parents always succeeds and changes no path. child, children and parent_path are given by adding or removing the last component. Visiting a type recursively ends and visits exactly the types whose path extends its path, each once, in the order of the paths. A path step /x leads to the type in it, .x to that of the nearest type outwards that has one, :x to that of the first type inside that has one; whole paths follow these steps, and absolute ones are the same as find. Looking up components agrees with find, except that everything in /list is /list, and otherwise gives the nearest existing type outwards.",
  "every history of additions, every type, every path of any length",
  "Histories and trees are unbounded, and a wrong link between the three indexes (children, parents, map of paths) shows only for particular orders of addition.",
  ["crates/dreammaker/src/objtree.rs: ObjectTreeBuilder::{default,subtype_or_add,register_var,register_proc,assign_parent_types}, ObjectTree::{find,type_by_path,type_by_path_approx}, TypeRef::{child,children,parent_path,recurse,navigate,navigate_path,visit_parent_paths}"])
p("C50", "Inheritance follows paths and parent_type, and calls follow inheritance",
  "After the object tree is finished every type but the root has the parent that its path and its parent_type say (built-in types cannot choose), or the root if that type does not exist, and exactly the wrong settings are reported. Without settings, or if all settings go down by some measure that no other parent raises, no type inherits from itself. If none does, all walks end within as many steps as there are types: is_subtype_of is the reflexive transitive closure; recurse_types visits exactly the subtypes, each once, parents first; get_proc finds the last value of the nearest type that has the procedure, and parent_proc from there runs through all values of that type backwards and then those of its ancestors; get_proc_declaration finds the nearest declaration; recurse_children finds exactly the types among the subtypes that have values. Definitions go before overrides, overrides keep their order, the first definition is the declaration.",
  "every history of additions, every finished tree, every type and procedure name",
  "Unbounded depth of inheritance, any mixture of settings, definitions and overrides in any order; termination depends on the whole graph.",
  ["crates/dreammaker/src/objtree.rs: ObjectTreeBuilder::{assign_parent_types,register_proc}, TypeRef::{parent_type,is_subtype_of,recurse_types,get_proc,get_proc_declaration}, ProcRef::{parent_proc,recurse_children,recurse_children_within}"])
p("C51", "should_not_sleep: what is reported is true, and what is not missed",
  "Whatever calls whatever, the check of the procedures with SpacemanDMM_should_not_sleep ends. Each report is true: the procedure named has the directive and sleeps itself, or the calls shown lead from it - through overrides that the call can be answered by, without spawn, without passing through a procedure that sets waitfor = 0, may sleep, has the directive itself or already sleeps - to a procedure that sleeps; the message says correctly whether that is the procedure called or an override; no sleeping procedure is reported twice. If no other procedure with the directive leads to this one, and if the overrides that a procedure can be answered by do not depend on the way to it, then it is reported when it sleeps, and every sleeping procedure it leads to is reported.",
  "every finished object tree without circles, every set of calls, sleeping procedures and directives",
  "Any call graph, with recursion, any depth of overrides; a breadth first search with shared marks is only right for graphs of a certain kind.",
  ["crates/dreamchecker/src/lib.rs: AnalyzeObjectTree::check_proc_call_tree"])
p("C52", "should_be_pure: exactly the impurities are reported",
  "Whatever calls whatever, the check of the procedures with SpacemanDMM_should_be_pure ends without panic and reports exactly: the procedures with the directive that are impure; for each, the impure procedures that calls lead to; and for each procedure that calls lead to and that is not impure, its impure overrides (other than New), except those that cannot be meant because the calling type is a subtype of the type called on and the override is not below the calling type. Each once, with calls that lead there.",
  "every finished object tree without circles, every set of calls, impure procedures and directives",
  "Any call graph and any depth of overrides; that unwrap cannot fail depends on how the overrides have been gathered for the whole tree.",
  ["crates/dreamchecker/src/lib.rs: AnalyzeObjectTree::{check_proc_call_tree,propagate_violations}, ViolatingOverrides, ViolatingProcs"])
p("C53", "Directives on procedures bind exactly those that they should",
  "For each directive exactly the first acceptable setting of each procedure counts; every other one is refused with the right reason (not at the definition, invalid value, global, cannot be disabled, set twice and where the first one is). Inherited directives are copied to exactly the overrides whose nearest ancestor with an entry has it on. An override is complained about exactly when the nearest entry at or above it makes a procedure above it private or not overridable, when it calls a parent that must not be called, never calls one that must be, or redefines a procedure of its own type without permission. A call is complained about exactly when it is outside the type with the private procedure or outside the subtypes of the type with the protected one.",
  "every finished object tree without circles, every list of settings, every procedure and caller",
  "Any depth of inheritance and any order of settings and overrides.",
  ["crates/dreamchecker/src/lib.rs: ProcDirective, AnalyzeObjectTree::{add_directive_or_error,gather_settings}, AnalyzeProc::{run,visit_call,visit_follow}"])
p("C54", "Code reported as unreachable is never run",
  "Whenever dreamchecker reports a statement, an else or an elseif as unreachable, a condition of an if or for as always true or always false, the condition of a do-while loop as never reached or the body of a range loop as never entered, then no run of the procedure - whatever variables and calls give, wherever something throws, however often loops go round - does what the report excludes. Conditions are judged correctly from constants, negation, and, or, assignment and ?:. Code behind a statement all of whose branches return is reported, unless code before it is.",
  "every procedure body of any size and nesting, every run of it",
  "Runs are unbounded in length and number, nesting is unbounded, and break and continue in branches of loops inside of branches give countless combinations.",
  ["crates/dreamchecker/src/lib.rs: ControlFlow, AnalyzeProc::{visit_block,visit_statement,loop_condition_check}", "crates/dreammaker/src/ast.rs: Expression::is_truthy, Term::{is_truthy,valid_for_range}"])
p("C55", "The statement parser accepts exactly the statement grammar",
  "Parsing a procedure body ends for every list of tokens. Code is read without any diagnostic exactly if the tokens begin with a block of the grammar of DM statements (if with its else branches, while, do, all forms of for, spawn, switch, try, set, break, continue, del, var with modifiers and sizes, return, CRASH, throw, goto, labels, expressions), and the result is the syntax tree of that block; what follows the block is left alone. The grammar is unambiguous, even about where a statement ends; an else belongs to the nearest if.",
  "every list of tokens, every program of any size and nesting",
  "The nesting is unbounded, and a token taken or left in the wrong place shows only in certain combinations of statements.",
  ["crates/dreammaker/src/parser.rs: Parser::{block,statement,simple_statement,statement_terminator,skip_phantom_semicolons,for_range,case,var_suffix,input_specifier,tree_path,separated,proc_params_and_body}", "crates/dreammaker/src/ast.rs: VarTypeBuilder, VarSuffix, VarTypeFlags, Statement"])
p("C56", "The type filter of a for loop is recorded",
  "If the head of a for loop over a list, or over the keys and values of one, restricts the variable with as and a type, then the syntax tree of the loop has exactly that restriction.",
  "every such loop, with every variable, filter, list and body",
  "All combinations of the forms of the head with filters.",
  ["crates/dreammaker/src/parser.rs: Parser::statement", "crates/dreammaker/src/ast.rs: ForListStatement, ForKeyValueStatement"])
p("C57", "A file declares exactly what the grammar of declarations says",
  "Parsing a file ends for every list of tokens. A file is read without any diagnostic exactly if its tokens are a file of the grammar of DM declarations (types, variables with modifiers, sizes, input types and values, values for inherited variables, procedures and verbs with parameters, return types and bodies, operators, blocks), and then the object tree gets exactly the declared members, in order and with their types, parameters and values, and exactly the named types, in the order in which they are first named. The declarations are determined by the tokens; the code of a procedure is what the grammar of statements gives for its body.",
  "every list of tokens, every file of any size and nesting, with and without the settings that demand absolute paths",
  "Paths, modifiers and blocks combine without bound, and a token taken or left in the wrong place shows only in certain combinations.",
  ["crates/dreammaker/src/parser.rs: Parser::{run,root,tree_entries,tree_entry,tree_path,proc_params_and_body,proc_parameter,return_type,read_any_tt,try_read_operator_name,var_suffix,input_specifier}", "crates/dreammaker/src/ast.rs: VarTypeBuilder, ProcDeclBuilder, ProcDeclKind, ProcFlags"])
p("C58", "Blocks are only a way to write paths",
  "An entry with a relative path, inside of blocks that spell out the path q, declares exactly what the entry with q in front of its path declares outside of them: at the root as an absolute path whatever the configuration, and between any two ways of distributing the names over blocks and path if relative paths are allowed. This goes for types, variables, values, procedures and blocks alike.",
  "every path, every distribution of its names over any number of blocks, every entry",
  "Unbounded nesting, and the words var, proc, verb, final and the modifiers may stand on either side of every brace.",
  ["crates/dreammaker/src/parser.rs: Parser::{tree_entries,tree_entry}"])
p("C59", "Parsing a file does not panic",
  "Whatever the text of a file, the parser ends with an object tree and diagnostics and does not panic.",
  "every text of a file, through lexer and indentation",
  "The texts on which it panics are rare and strange.",
  ["crates/dreammaker/src/parser.rs: Parser::{tree_entries,tree_entry,annotate,updated_location,peek}"])
p("C60", "A drawing of a map shows its objects in the right places and order",
  "Drawing a rectangle of a map gives an image of 32 pixels per tile in which each pixel has the colour obtained by painting over each other, on a transparent ground, the sprites of the objects on the rectangle's tiles: each object of the map file that the render passes let through, turned into other objects where a pass says so, with its own sprite between underlays and overlays, placed at its tile plus its offset, lower planes first, then lower layers, and otherwise in the order of the map (rows from the top, tiles from the left, objects in the order of the file). Sprites cut by the border are cut exactly there and nothing panics. Drawing a part gives the same pixels as drawing the whole wherever no outside sprite reaches.",
  "every map, icon file, set of render passes, rectangle of tiles and pixel",
  "Each pixel of each map is a separate case, with sprites hanging over the border of the image and of their tile in any way.",
  ["crates/dmm-tools/src/minimap.rs: generate, clip, get_atom_list, Neighborhood, Sprite, Layer", "crates/dmm-tools/src/dmi.rs: composite, Image", "crates/dmm-tools-cli/src/main.rs: minimap, render_many"])
p("C61", "Objects on a higher layer are drawn above",
  "Of two objects with different layer numbers (and the same plane) the one with the higher layer is drawn above the other, and the same number written as an integer and as a float is the same layer.",
  "every pair of layer numbers (32 bit floats)",
  "There are 2^64 pairs, and rounding goes wrong at a few of them only.",
  ["crates/dmm-tools/src/minimap.rs: Layer::from"])
p("C62", "The look of an object comes from its variables",
  "The value of a variable of an object on the map is the one written in the map file, or else the one of the nearest ancestor type that has a value for it, or null. The icon, state, direction, plane, layer and offset of the sprite are those of the variables; its colour is the one named or written as #rgb or #rrggbb, white if there is none or it cannot be read, with the variable alpha as its opacity; reading them never panics.",
  "every type, every list of variables, every text and number as their values",
  "Texts and numbers are unbounded in number, and ancestors in depth.",
  ["crates/dmm-tools/src/minimap.rs: GetVar::{get_var,get_var_notnull}, Sprite::from_vars, color_of, plane_of, layer_of", "crates/dreammaker/src/constants.rs: Constant::{to_int,as_str,as_path_str}"])
p("C63", "Render passes, layers and hiding follow the configuration",
  "A render pass is used if the command line includes it by name; else not if it is excluded by name; else if \"all\" is included; else not if \"all\" is excluded; else as the configuration file says, or by its own default; the passes come in their fixed order. A layer in the configuration counts for a type and all types below it that no deeper entry covers, whatever the order of the entries in the file and with or without a slash at the end; a type is hidden if the configuration lists it or a type above it, or its invisibility is above 60, or it is a mapping helper or shows the placeholder icon.",
  "every list of passes, command line, configuration (in any order) and type path",
  "The entries come out of a hash map in any order, and paths and names are arbitrary texts that may be prefixes of each other.",
  ["crates/dmm-tools/src/render_passes/mod.rs: configure, configure_list, FancyLayers, HideInvisible", "crates/dreammaker/src/objtree.rs: subpath"])
p("C64", "Icon smoothing joins neighbours that belong together",
  "An object with a smoothing flag is shown in the state (or the four corner pieces) determined by which of its eight neighbour tiles it joins: those with an object of a group it lists, or of its own type if it lists none, or the border of the map if it is told so; a diagonal counts only between two joined sides. A wall with diagonal corners whose two neighbouring sides join is cut off diagonally, and what lies on its other side is shown behind it. Loose objects are not smoothed, and objects without flags are left alone.",
  "every object, its variables, all nine tiles of objects around it and every set of flags",
  "Eight neighbour tiles hold any number of objects each with any variables.",
  ["crates/dmm-tools/src/render_passes/icon_smoothing.rs, icon_smoothing_2020.rs, icon_smoothing_2025.rs: neighborhood_appearance, calculate_adjacencies, find_type_in_direction, cardinal_smooth, diagonal_smooth, diagonal_underlay, bitmask_smooth, reverse_ndir"])
p("C65", "Cables are drawn connected to the cables next to them",
  "A cable is shown in the state of its layer with the numbers of the sides on which the next tile has a cable of the same layer and is not a terminal beside a storage unit (or the reverse), in ascending order, with -noconnection for no side and -node for several sides under a machine; if a cable is drawn connected to the next tile, the cable there is drawn connected back.",
  "every cable, its tile and its neighbours",
  "The tiles hold any number of any objects, and being mutual is about every pair of tiles.",
  ["crates/dmm-tools/src/render_passes/smart_cables.rs: neighborhood_appearance, should_have_node"])
p("C66", "Named arguments are checked against the procedure and its overrides",
  "A call that names an argument which the called procedure does not have is refused, pointing out exactly the overrides on other types that have it; an argument without a name after one with a name is refused, but for the global animate. A procedure that is called with named arguments, on a type that defines it, is reported if and only if it has overrides that lack some of the names; the report has, for the types of these overrides, exactly the missing names, and for each missing name the first place where it is used and the number of other places.",
  "every finished acyclic type tree, every list of calls of procedures of the tree, every list of parameters",
  "Type trees, overrides and calls combine without bound; tests look at a few overrides.",
  ["crates/dreamchecker/src/lib.rs: check_kwargs, finish_check_kwargs, visit_call", "crates/dreammaker/src/objtree.rs: ProcRef Display"])

p("C67", "Variable definitions that clash with an ancestor are reported, and only these",
  "The check of variable definitions ends and reports, once each, exactly: the variables that a type declares although a proper ancestor declares them, and the variables that a type defines although a proper ancestor declares them final, or private. The root does not count as an ancestor; not looked at are vars, parent_type on /client, and declarations in the builtin file.",
  "every finished acyclic type tree with any variables on its types",
  "Types, ancestors and variables combine without bound; tests look at one redeclaration.",
  ["crates/dreamchecker/src/lib.rs: check_var_defs", "crates/dreammaker/src/objtree.rs: iter_parent_types"])
p("C68", "The return type of a procedure is what its annotation says",
  "A path in a type annotation stands for as many lists as it has the word list, of the type named by the rest, whatever modifiers are mixed in, and is undefined exactly if the rest is. SpacemanDMM_return_type accepts exactly null, defined paths, parameters, X.type and X[_].type of a parameter X, parentheses, &&, || and ?:, and a call has the type that the last such setting stands for with its arguments (the last argument named after the parameter, or else the one at its place among those without a name): the path that is passed, the type of the argument with its lists taken off, and so on; without a setting the declared type.",
  "every type tree, every path, expression, list of parameters, list of arguments and list of settings",
  "Expressions nest without bound and are evaluated in every call.",
  ["crates/dreamchecker/src/type_expr.rs: TypeExprCompiler, TypeExpr::evaluate, TypeExprContext::get", "crates/dreamchecker/src/lib.rs: static_type, gather_settings, visit_call"])

p("C69", "What the checker makes of an expression",
  "For every expression, at any place in a procedure, the checker's knowledge of its value (type, constant, whether it is a variable from outside) is what the rules of the language of types give: locals before members, members by the nearest declaration, the type of the left side as the expected type of the right side, indexing a list giving its element type, a call giving its declared return type. Every problem it reports is true of some part of the expression that is really looked at, and every problem of such a part is reported: undefined variables, fields, procedures, paths, operators, private and protected access, ambiguous `!a & b` and `-a in b`, missing types. When nothing is reported, each name in it refers to something, and no part was skipped, apart from a short list.",
  "every object tree, set of directives, procedure, locals and expression of any depth",
  "expressions nest without bound and each rule depends on the knowledge about what stands before it, so a test only covers the nestings it lists; that nothing is skipped is a statement about all expressions",
  ["crates/dreamchecker/src/lib.rs:visit_expression", "crates/dreamchecker/src/lib.rs:visit_term", "crates/dreamchecker/src/lib.rs:visit_follow", "crates/dreamchecker/src/lib.rs:visit_call", "crates/dreamchecker/src/lib.rs:visit_new"])
p("C70", "The arguments of filter()",
  "A call of filter() is reported exactly when it is wrong: without a type (unless it uses arglist), with a type that is not a known text, with a parameter that this type does not have, or with flags that are not allowed for it (an unknown flag, or more than one where only one is allowed).",
  "every list of arguments and every expression given as flags",
  "flags combine with | to any depth and arguments come in any order and number",
  ["crates/dreamchecker/src/lib.rs:visit_call", "crates/dreamchecker/src/lib.rs:check_filter_flag", "crates/dreamchecker/src/lib.rs:VALID_FILTER_TYPES"])
p("C71", "What the checker makes of the body of a procedure",
  "Checking a procedure looks at every statement and expression of its body, except what comes after a point where it surely stops, knows at each the variables in scope (parameters, src, usr, args, and those declared before it in the same or an enclosing block, each with the type of its declaration), and reports exactly what is wrong: what C69 says of each expression, conditions that are constant, branches and loops never or always taken, what cannot be iterated over, unknown types in declarations, a value returned inside of spawn(), a discarded result of a pure procedure, misplaced settings, catch() with several parameters and || in a case. Whether the procedure counts as calling its parent is whether some ..() is looked at.",
  "every object tree, set of directives, list of parameters and body of statements, nested to any depth",
  "Statements nest without bound, and what is in scope and what is reachable at one depends on all that came before it; that nothing is skipped is a statement about all bodies.",
  ["crates/dreamchecker/src/lib.rs: run, visit_block, visit_statement, visit_control_condition, loop_condition_check, visit_var, visit_var_stmt", "crates/dreammaker/src/ast.rs: is_const_eval, is_static, VarTypeBuilder"])

p("C72", "What the language server offers to complete",
  "For any place in a file, the entries that completion offers are exactly: for a bare name the keywords (inside of a procedure), local variables, parameters, macros and the members of the type around and above; after a.b.c. the members of the type that the declarations of a, b and c say; in a path the types in the type that it names, after /proc or /verb the procedures or verbs declared there or above; in a definition what can be overridden, with the text that calls the parent. Of members with the same name only the nearest is offered, once, and every member on the way up is offered. What is asked for where something is missing replaces everything else.",
  "every object tree without circles, every list of annotations around the place, every query",
  "Types nest and inherit without bound, and what is offered depends on everything above a type and on every annotation around the place; that nothing is missing or shadowed wrongly is a statement about all trees.",
  ["crates/dm-langserver/src/completion.rs: unscoped_completions, scoped_completions, tree_completions, path_completions, combine_tree_path, follow_type_path", "crates/dm-langserver/src/main.rs: find_type_context, find_unscoped_var, find_scoped_type, Completion"])

p("C73", "What the language server finds as references and implementations",
  "For any symbol - a type, a variable of a type, a procedure, a local variable - the references that are found are exactly the places in values of variables and in code of procedures that use it: a bare name stands for the last local variable declared under it, otherwise for the variable of the nearest type above that declares it; after a dot the declared type of what stands before decides; a path names types, procedures and the variables set after it; a declaration uses the types it is written with; new without a type takes the type that is expected. The implementations are exactly the type itself, the types that set the variable and the types that have code for the procedure.",
  "every object tree without circles, all variables with values, all parameters and bodies of statements and expressions nested to any depth",
  "What a name stands for depends on everything declared before it and above, through expressions nested without bound; that no use is missed or counted for the wrong symbol is a statement about all programs.",
  ["crates/dm-langserver/src/find_references.rs: new, find_references, find_implementations, run, visit_statement, visit_var, visit_expression, visit_term, visit_new, visit_prefab, visit_field, visit_follow, visit_call, visit_arguments, static_type"])

p("C74", "Where the name at a place leads",
  "Going to the definition from a place leads to exactly what the names there stand for: a path to the type it names, or, for an override, to what is overridden; a path of a type followed by a procedure to the procedure; a name with nothing before it to the nearest local variable, else to the parameter, else to the variable of the type or of the nearest type above; a call to the last value of the procedure of the nearest type above; .. to what ..() calls there; a macro to its definition. Going to the type leads to the declared type of the variable. Looking for references or implementations looks up the symbol that declares what the name stands for. The help for a call shows the path of the procedure that is called, its parameters with their types, where in the text each is, and which one is being written.",
  "every object tree without circles, all variables and parameters of its types, and every list of annotations at a place",
  "It needs the nearest of all types above for every tree, place, hiding of names and text of a signature; tests have a handful.",
  ["crates/dm-langserver/src/main.rs: find_unscoped_var, symbol_id_at, GotoDefinition, GotoTypeDefinition, References, GotoImplementation, SignatureHelpRequest"])

p("C75", "The outline, the folding ranges and the links of a file",
  "The outline of a file has one symbol for each block, variable, procedure body, local variable and macro definition that was annotated in it, in the order in which they start, with its name, the last component of its path that is no keyword and was not said above it, and its kind; a symbol is below the newest block or procedure in which it starts, and, where ranges are nested, inside of the ranges of all above it. A range of lines can be folded exactly if it goes from a //#region to its //#endregion, between which all regions are closed, and no marker is used twice. Each include and resource of the file is a link, exactly where it is written, to its path. The request for the outline panics only if a variable was annotated with an empty path.",
  "every annotation tree built by inserts and merges, every file, every text of a file",
  "Nesting by ranges and matching of markers must hold for every arrangement of annotations and lines; tests show a few files.",
  ["crates/dm-langserver/src/main.rs: DocumentSymbolRequest, FoldingRangeRequest, DocumentLinkRequest, is_region_marker"])

p("C76", "Searching the workspace for symbols, and the object tree explorer",
  "A query that keeps nothing alphanumeric has no answer. Any other finds exactly the macros, the types but the root, and the variables and procedures declared where they are, that it is about: each once, macros first, then type by type, each with its name, icon, container and place (in its file, or in the reference if it is built in); if one of them has no place the search is refused. Whatever symbol there is, the beginning of its name finds it. The explorer gets, for the path of a type, the type with all its variables, all values of its procedures and the headings of the types in it, sorted by name, values of one procedure in their order and only the first saying whether it is a verb; any other path is refused. A client that wants the whole tree gets every type in it exactly once, in the order of the paths.",
  "every object tree that was built or finished, every query, every path, every table of macros and variables",
  "That nothing is missed or doubled is about every tree and every query; tests show a few.",
  ["crates/dm-langserver/src/main.rs: WorkspaceSymbol, convert_location, update_objtree, objtree_stub, objtree_with_vars_and_procs, objtree_recurse, objtree_with_placeholders, QueryObjectTree, is_constructor_name"])

p("C77", "What is shown of the name at a place",
  "Hovering over a name shows exactly: of a declaration of a variable or procedure, every type upwards that has it, topmost first, with its path, a link to its place, the value or the parameters, and the declaration where there is one; of a use of a variable, every type upwards that declares it, with its path, link and declaration; of a call, for every type upwards that declares the procedure, the path, link and parameters of the nearest type that has it - the one that going to the definition leads to; in each case the documentation of it, and of a macro its documentation. Names are shown only where there is a symbol to look for. The request is refused exactly if one of the places shown has no link, and is answered otherwise.",
  "every finished object tree without circles, every list of annotations at the place, every table of variables, parameters, documentation and links",
  "Which of the types above contribute, in which order and with whose parameters is about every tree and every place in the code; tests show a few.",
  ["crates/dm-langserver/src/main.rs: HoverRequest, construct_proc_hover, construct_var_hover, location_link", "crates/dreammaker/src/objtree.rs: pretty_path", "crates/dreammaker/src/ast.rs: Display for Parameter, Display for VarType"])

p("C78", "Types of variables and input types, as shown, read back as what they are",
  "The declaration of a variable shown to the user, cut at its slashes, consists of the words of its modifiers in their fixed order, the path of its type and its name, and reading those words again gives the same modifiers and the same path; the modifiers that are enumerated are exactly those that are shown. An input type that was read from words after `as` is shown, if it is not empty, as the words of all input types that are included in it, separated by bars, and reading these gives it back without an error. The path that stands for an input type is the path of the smallest set of kinds of atoms (or lists) that includes it, and there is none if no path includes it.",
  "every list of words before a name and after `as`, every set of modifiers and of input types",
  "Every combination of flags has its own text, and whether a text reads back as the same combination is about all of them; tests show a few.",
  ["crates/dreammaker/src/ast.rs: Display for InputType, InputType::to_typepath, VarTypeFlags::iter, Display for VarTypeFlags, Display for VarType, FromIterator for VarType", "crates/dreammaker/src/parser.rs: Parser::input_type"])

if __name__ == "__main__":
    for x in P: print(json.dumps(x))
