# Findings noted while reading (file:line refs under /repo/crates)
- interval-tree/node.rs: AVL, insert appends to data; delete; RangePairIter stack machine; IntoIter. BST key order = derived Ord on (start,end) lexicographic.
- dmm.rs: FormatKey(L,key): panics if L<3 && key>=52^L; L=0 underflow (key_length-1). adjust_key_length 2704/52. advance_key checked u16. base_52_reverse.
  Key::next is self.0+1 (overflow u16). to_raw/from_raw.
- dmm/read.rs: drops \t \n \r EVERYWHERE even in quoted strings; `\\"` bug: second backslash re-arms escaping (line ~92: `if ch == b'\\'` tested before `escaping`) -> "foo\\" never terminates.
  '//' outside double-quotes (e.g. in 'a//b' resource) starts comment.  key_length assert! panic on mismatched key length.
- save_tgm.rs: writes header, dictionary, grid in columns "(x,1,z) = {\"" newline, keys each newline, "\"}".
- indents.rs: current=Some((spi,0)) possible after inconsistent indentation; then '}' -> y-1 usize underflow (line 186) panic/wrap. 
- docs.rs simplify OK (prefix/suffix no overlap since nonempty line).
- error.rs FileList::register: len==0xfffe gives id 0xffff == FILEID_BAD (line 58-63); get_path: idx>len should be >= -> panic at idx==len (line 80); FILEID_BAD idx = 0xfffe.. 
- lexer.rs: Quote: contains "\"}" -> @@s@ (breaks if s has '@'); read_string; read_punct maximal munch w/ SPEEDY_TABLE; column +=1 at final newline may overflow; put_back twice panic.
- spaceman-dmm/history.rs: petgraph edges iterate most recent first; `.last()` = OLDEST outgoing edge -> redo after branching goes to the oldest branch (not the just-undone one).
- spaceman-dmm/map_repr.rs: get_instance uses `idx >= instances.len()` (len = live count) -> live instance with high idx reported None after a removal (line 332). save(): merge_base; Key::invalid sentinel. HashMap iteration order nondeterministic.
- switch_rand_range.rs: min uncovered check correct over Z; `end + 1` overflow if end = i32::MAX (f32 inf saturates).
- document.rs: total_offset spills past end of line into following lines (166-179); find_word panics at offset 0 / runs past end (208-240) (dead code: nobody calls it); replace_range start>end panics.
- jrpc_io.rs: only one header line supported (Content-Type breaks).
- symbol_search.rs starts_with / contains: correct = prefix / infix of simplified text.
- color.rs: parse∘format round trip; regex 3..8 hex.
- dmi.rs (dreammaker): Dir::clockwise_90(Southwest)=Northeast WRONG (line 175). parse_metadata offsets; dup index; panics on malformed.
- dmm-tools/dmi.rs composite: channel truncation `as u8` overflow e.g. white alpha1 over white alpha1: (s=2,d=255) -> 256 -> 0.
- background.rs poll/spawn state machine.
- config.rs severity override/filter.
- annotation.rs get_location = range(loc.pred(), loc).

* indents.rs:186: after an `inconsistent indentation` diagnostic the level may be `Some((unit, 0))`; a following `}` computes `y - 1`
  on 0: panic in debug, wrap to usize::MAX in release (then a loop pushing that many braces). `C16_total_refuted`.
* indents.rs:172: inside `{ }` at top level the unit is 1, so a block indented by two or more blanks is reported as "multiple indentation".

Preprocessor (preprocessor.rs), found while modelling it
* `#elif` evaluates its condition (and reports its errors) even when an earlier arm was taken.
* A function-like macro name that is not followed by `(`: the token after it is passed on without being expanded.
* `#if F` with F function-like at the end of the line: looking for `(` swallows the newline, so the condition goes on in the next line.
* `##` after an empty argument pastes with the token before that argument.
* `#define` as part of a condition line is executed even in a disabled region; `#if #if ...` recurses without bound (native stack).
* finalize: the counter is u16 and overflows after 65535 live definitions.
* Macro history is ordered by location, not by time, so across files it can give another answer than the run had (`C36_refuted_order`).
* `__FILE__` panics on a path that is not UTF-8 (not modelled).
* `#pragma multiple` in a file including itself never ends (`C41_multiple_refuted`).
* `in_interp_string -= 1` underflows: `#define F(x,y) y` and `F("a[b,c]d")` (`C41_panic`).

Map reader (dmm/read.rs)
* A line of more than 65535 bytes panics on load although saving it works (LocationTracker::next): a long list value is enough.
* Tabs and line breaks inside quoted strings are dropped; `//` outside double quotes (e.g. in a resource name) starts a comment; a
  string ending in an escaped backslash swallows the rest of the file (`C09_*_refuted`).
* A variable name whose UTF-8 ends in 0xA0 or 0x85 (e.g. U+00E0) loses that byte, because whitespace is tested on bytes as chars.
* max_y is only known from coordinates and the last block read: blocks of unequal height lose rows.

Expression parser (parser.rs), found while modelling it
* Superfluous commas in argument lists vanish: `f(,1)` is `f(1)` (`C44_commas`); in pick() they are errors.
* The arguments of `a::b(1, 2)` are parsed and dropped (`C44_scope_arguments`).
* A path of separators only (`/`) silently becomes `/__PARSE_ERROR__` (`C44_lone_slash`).
* `f_vars` in a prefab: a missing closing brace is an error, but `{}` after `/` is fine and gives no variables.
* `a in b to c` takes everything of level `in` into `c`: `x in 1 to y in z` is `x in (1 to (y in z))`.

Constants (constants.rs), found while modelling them
* **A string with an escaped quote corrupts the map file**: `"say \"hi\""` is loaded from a map, saved as `{"say \"hi\""}`, and
  on the next load the `}` ends the variables of the object; the value is still read (an unterminated string is accepted because
  the diagnostics of evaluate_str are dropped), and the next object on the tile becomes `}/turf` (`C46_escaped_quotes_refuted`).
* A type with variables as value of a variable (`/mob {x = 1}`) is saved but cannot be loaded (`C46_prefab_refuted`).
* evaluate_str ignores one token after the expression: `1 2` is 1, `1 )` is 1 (`C46_trailing_token_refuted`).
* `"a\"` (a raw string ending in a backslash, printed) evaluates to `a\"`: unterminated strings are accepted (`C46_backslash_refuted`).
* The type hint of null is not printed, so `null` of a typed variable is not equal to itself after a round trip (`C46_hint_refuted`).
* `rgb(1,2,space=0)` panics on `assert!(value_vec.len() >= 3)`; keyword arguments of rgb are used in written order.
* `&&` and `||` evaluate both sides; Constant::index is 0-based.

The object tree's constants (constants.rs evaluate_all), found while proving C47
* Whether `t.n` is accepted when `n` is not const depends on whether `n` happens to have been evaluated already, i.e. on which type
  is defined first (`C47_field_order_refuted`): must_be_const is only tested for variables without a stored constant.
* being_evaluated stays true when the evaluation fails, so every later variable that mentions the failed one is reported as
  "recursive constant reference" although nothing is recursive (`C47_blame_refuted`).
* Two types that name each other as parent_type are accepted by assign_parent_types; get_var_declaration then goes round for ever
  (`C47_knot_refuted`), and so does every other walk up the parents.
* A variable without expression is null, even if it is not const and used as a.b.
* A circle of parent_type settings is neither reported nor broken by assign_parent_types; is_subtype_of, get_proc and recurse_types
  then never end (`C50_knot_refuted`).

Dreamchecker's call tree, found while proving C51-C53
* A procedure with should_not_sleep that is called by an earlier one with it is marked as visited during that walk and then skipped as
  a root: if it sleeps, nothing at all is reported (`C51_skipped_refuted`).
* `visited` ignores the receiver and is_exact, so a first call on a narrow type (or `..()`) hides the overrides that a later call on a wider
  type can reach (`C51_narrow_refuted`).
* The purity check shows the location of the directive instead of that of the call from the second call on (`C52_location_refuted`), and says
  "SpacemanDMM_should_not_pure set here" for overrides.
* sleep_exempt is not copied to overrides; a procedure with waitfor = 0 or sleep_exempt that is called hides its overrides too.
* Directives are sorted by location; ones with equal locations come in the order of the hash map.

Dreamchecker's control flow, found while proving C54
* `do { if(a) break; else break } while(b)`: finalize clears fuzzy, the loop keeps breaks = true and everything behind the loop is reported as
  unreachable (`C54_do_break_refuted`); with continue in both branches below another if, the condition is wrongly reported as never
  reached (`C54_do_continue_refuted`).
* A range loop between literals passes the state of its body on without end_loop, so a break in both branches of its body makes the code
  behind the loop "unreachable" (`C54_range_break_refuted`).
* valid_for_range takes any step for valid, even if the loop is not entered (`C54_range_step_refuted`), and 0 to 0 for never entered, although the
  body runs once (`C54_range_zero_refuted`).
* A label behind a return is called unreachable even if a goto leads there (`C54_goto_refuted`).

The statement parser, found while proving C55
* `for(var/x as mob in L)`: the `as` is taken by the code for typed keys of key-value loops and then dropped; ForListStatement::input_type is
  always None unless `as` is written twice (`C56_filter_of_list_lost`, `C56_refuted`).  In the other forms (`for(i = 1 as num; ...)`) it is
  silently ignored as well.
* `switch(x) { ... else {} ; }` is an error, although a semicolon is accepted after every other case (`C55_ex12`).
* What stands behind the block of a proc body is not looked at (`C55_ex13`).
* `var/a, var/b` declares b with the type path `var` (`C55_ex6`).

The parser of files, found while proving C57 and C59
* When the tokens end inside a block of the tree, tree_entries takes the end of the file for the end of the block; the annotation after the
  block then looks at the next token, and the parser panics ("kept parsing after EOF", parser.rs:520).  The indentation processor closes open
  braces at the end of the file, but the reader of proc bodies matches parentheses and braces, so that `/obj{proc/f(){return(})` eats a brace
  too many (`C59_refuted`).
* A size on something that turns out to be a procedure or a block is read and dropped (`C57_ex12`).
* A relatively named type in front of a procedure is not reported although relative types are disallowed (rule E_proc in `Tree/Spec.v` has no
  condition on types; only the procedure itself is reported, and only if relative procedures are disallowed).
* The `in` list of a variable is read and dropped.

The minimap, found while proving C60 to C62
* render-many clamps the end of a chunk to the map but not its start: a chunk that starts beyond the edge panics (ndarray with a size
  that wrapped around; `C60_chunk_panics`).
* Layer::from(f32): 0.99999994 has the fraction 0 (f + 1 rounds up to 2), so it is put below 0.5; the same for -1e-10 (whole -1, fraction 0);
  40000.25 is put below 32767.5 because only the whole part saturates (`C61_order_refuted`).
* color_of sums up the digits of "#..." in an u32: ten digits overflow, a panic in debug builds (`C62_color_refuted`).  Characters that are
  no digits count as zero, so that "#red" is the colour #00eedd rather than white.

The render passes, found while proving C63 to C65
* The smoothing passes of 2020 and 2025 mean to leave loose objects alone, but ask `istype("/atom/movable/")` textually; object paths start
  with /obj, so a loose table is smoothed like a fixed one (`C64_anchored_refuted`).
* The pass of 2016 compares the keys of canSmoothWith with texts; the types that codebases list there are no texts, so nothing ever joins
  (`C64_types_refuted`).
* A tile of the map without objects counts as the border of the map (`joins_border`).
* Bitmask smoothing gives "-d" and an underlay also to a wall of which only one side joins (`is_end` in `Passes/Smooth.v`).
* Cables: on a tile with a storage unit and a terminal only the storage unit is looked at, so that the connection to a tile with a storage
  unit is drawn in one direction only (`C65_mutual_refuted`).

Named arguments, found while proving C66
* The table of used names is keyed by the text `{type of the call}/proc/{name}` and looked up by the text of the overridden procedures; where
  the type of the call inherits the procedure there is no procedure with this text, so that an override further down which lacks the name is
  never reported (`C66_inherited_refuted`).  The comment in the code ("so that calling /datum/foo() on a /datum/A won't complain about
  /datum/B/foo()") shows that such calls are meant to be checked.
* The text of a procedure that its type defines more than once ends in `[index/count]`, which no key does: such a procedure is not checked
  either (`C66_twice_refuted`).  The same for calls of procedures of the global scope (key "(global)/proc/..", text "/proc/..").
* A redefinition that is hidden behind a later one on the same type is still reported if the later one has the argument (`C66_hidden`).

Return types, found while proving C68
* `X[_]` without `.type` is accepted and means the same as `X` (`C68_index_ignored`); the comment in the code says that one /list is stripped.
* The kinds of slashes in a path are ignored: `.datum` and `:datum` mean /datum.
* Only arguments without a name are counted for the place of an argument.

Expressions, found while proving C69 and C70
* Purity: `x = 5` on a member is reported as a change, `src.x = 5` and `d.x = 5` are not: the result of a field access is never marked
  (`C69_changes_refuted`).
* `new /list(undefined)` reports nothing: /list has no New, and the arguments are only visited with the call of New (`C69_new_list_refuted`).
  `new a.b(...)` and the variables in `/obj{x = ...}` are never visited.
* Private variables: the static type of the value is compared with the type of the code, not the type that declares the variable; so a type's own
  code is refused access through a subtype, and a subtype has access (`C69_private_refuted`).
* `__IMPLIED_TYPE__` evaluates to the type of the code instead of the expected type: the binding `implied_type` is unused (`C69_branches_refuted`).
* `c ? a : b` has the type of `a` (`C69_branches_refuted`).
* filter(): flags in parentheses are refused (`C70_parentheses_refuted`).

Statements, found while proving C71
* `for(x = y to 5)` with `x` declared elsewhere: `y` is never visited (`C71_range_refuted`); nor is the assignment to `x` seen as a change.
* `spawn(input())`: the delay is visited after inside_newcontext is raised, so that it sleeps is missed, and calls in it are marked as
  of a new context (`C71_spawn_refuted`).
* A discarded result is reported even where SpacemanDMM_should_be_pure is set to FALSE: the value is ignored (`C71_pure_refuted`).
* `x << y` as a statement visits `x` twice: errors are reported twice and calls counted twice (`C71_twice_refuted`).
* The values of `set` statements are not visited (`C71_setting_refuted`).

Completion, found while proving C72
* After `/mob/proc/` a procedure that is declared on /datum and overridden on /mob is not offered: the name is marked as seen before it is tested for
  a declaration (`C72_overridden_refuted`).
* Inside of a type the global variables and procedures are offered for overriding: the way up goes through to the root (`C72_global_refuted`).
* `/datum/nothing/more/` offers what is in /datum: an unknown component ends the walk silently (`C72_unknown_refuted`).
* Before a dot the names usr, args, global, src, caller and callee are never local variables (`C72_hidden_refuted`).
* In the middle of a path, what is offered is what is in the component under the cursor and fits the last component (`C72_middle_refuted`).
* Proving `unlisted_iff` failed at first because the model was wrong: `_ :: _ as rest` in Coq binds `rest` to the last part only.

References, found while proving C73
* Local variables never go out of scope before the end of the procedure: a `var/owner` in an inner block takes all later uses of the
  type's variable `owner`, and of an outer local variable with its name (`C73_block_refuted`, `C73_arms_refuted`).
* `CRASH(x)`, `set name = x` and, without `var`, the start of `for(i = x to y)` are not visited (`C73_skipped_refuted`).
* Arguments of an unknown procedure, of `new` without a known type or `New`, of `new x(...)`, and what follows the path of a procedure
  in braces are not visited (`C73_arguments_refuted`); nor the `in` of a parameter (`C73_parameter_refuted`).

Going to definitions, found while proving C74

* Signature help and the type context take the first annotation of a kind, and the interval tree lists them by where they begin: for nested calls the
  help is that of the outer one, and in `/datum { item { ... } }` names are looked up in /datum (`C74_help_refuted`, `C74_block_refuted`).
* A path of a definition that names nothing leads to a global procedure with the last name, and so does `..` (`C74_global_refuted`,
  `C74_parent_refuted`): the way up includes the root.  `/datum/nothing` in an expression leads to /datum (`C74_nothing_refuted`).
* Local variables and parameters have no symbol, so no references (`C74_local_refuted`; the code says TODO).

Outline, found while proving C75

* The ranges of the outline end at the last location instead of after it: the last character is left out, a macro of one character has an empty
  range (`C75_end_refuted`); the links do add one column.
* What starts at the last location of a block is not below it (`C75_inside_refuted`); where ranges overlap, a symbol can reach out of its parent,
  because only the innermost section is asked where it ends (`C75_overlap_refuted`).  A first statement, that all of the enclosing ranges are above
  and no other, was wrong for this reason.

Symbols and the explorer, found while proving C76

* One symbol whose file has no url refuses the whole search (`C76_all_refuted`): `convert_location(..)?`.  The explorer sends such an entry without
  a place instead.
* `parent_path_str` would panic for the root (path_last_slash is usize::MAX); the test `!ty.is_root()` before it is needed for that, not only to
  hide the root.
* The reference of a built-in procedure is looked up in the documentation of its last value, not that of the declaration (`C76_docs_refuted`).
* The explorer's rows of variables and procedures are sorted stably, so the values of one procedure stay in the order in which they run; children
  are in order already, and sorting them again changes nothing.

### Hover (C77)
* The documentation shown is that of the topmost type that has one (`C77_docs_refuted`): the loops go upwards and overwrite `docstring`, while the
  link and the parameters are kept from the nearest type.
* A use of a variable shows only the types that declare it; the page of its declaration also shows those that set it (`C77_set_refuted`).
* One place without a link refuses the whole request (`C77_refused`): `location_link(..)?` also for types far above.
* A built-in place has the empty link, `[/datum]()`.

### Types as shown (C78)
* `InputType` is shown with every entry that it contains, so `movable` is shown as `mob|obj|movable`; the order written is lost (`C78_order_refuted`). Empty is shown as `()`, which does not read back.
* `to_typepath` compares with equality first, so `mob|null` has no path although `mob` has (`C78_null_refuted`).
