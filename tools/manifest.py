#!/usr/bin/env python3
"""Regenerates MANIFEST.json:  python3 tools/manifest.py > MANIFEST.json"""
import json
C=[]
def c(prop,status,theorems,note=""):
    C.append({"property":prop,"status":status,"theorems":theorems,"note":note})
c("C01","proved",["C01_multimap"],"Any lawful key order; node heights/u32 modelled as nat.")
c("C02","proved",["C02_no_panic_and_shallow","C02_live_keys_exist"],"")
c("C03","proved",["C03_range_query_exact","C03_iter_exact"],"Iterators modelled as the stack machines of the code; fuel exhaustion excluded by the statement.")
c("C04","proved",["C04_min_max","C04_into_iter_exact","C04_merge"],"")
c("C05","proved",["C05_annotation_lookups"],"Ends whose pred() is proper; the other two (0:0 of file 0 panics, 0:0 of the bad file) are characterised by C19_pred.")
c("C18","partial",["C18_registry_partial","C18_bad_id_refuted","C18_get_path_panics_iff"],"The clause about the bad id is refuted: the 65535th file gets FILEID_BAD; get_path panics for the id one past the last registered.")
c("C19","proved",["C19_pack","C19_pred","C19_before_meaning"],"")
c("C20","proved",["C20_recorded_exactly","C20_printed_exactly"],"TOML parsing is not modelled.")
c("C06","proved",["C06_format_then_read","C06_format_injective","C06_read_exact"],"Key lengths 1..12 (beyond 12 the usize power overflows; the code uses 1..3).")
c("C07","proved",["C07_adjusted_length_fits_and_is_minimal"],"")
c("C08","proved",["C08_coordinates","C08_reading_order"],"Dimensions below 2^31 (casts exact); ndarray modelled as row-major list.")
c("C32","partial",["C32_direction_algebra_partial","C32_offsets_cover","C32_int_bijection","C32_step_and_back","C32_clockwise_90_refuted"],"Everything but the clockwise quarter turn of Southwest, which the code gets wrong (dmi.rs:175): that clause is refuted.")
c("C33","proved",["C33_layout","C33_lookup","C33_rectangles","C33_descriptions_parse","C33_direction_order"],"From the description text; PNG decoding and f32 parsing are parameters.")
c("C34","partial",["C34_local","C34_pixel_partial","C34_channel_bound_refuted","C34_overrun_spills"],"Channel bounds proved for opaque source, clear or opaque destination; refuted for translucent destinations (u8 truncation). A target rectangle past the right edge spills into the next row.")
c("C21","partial",["C21_gap_exact","C21_never_partial","C21_never_refuted","C21_overflow"],"Gaps exact; the dead-case report is exact for cases containing an integer and refuted for the others (e.g. case 1.5); end + 1 overflows at i32::MAX.")
c("C22","partial",["C22_replay","C22_undo_restores","C22_redo_restores_partial","C22_clean_means_saved","C22_redo_refuted"],"Redo-after-undo restores the undone edit only when it is its parent's first branch: the code redoes the oldest branch (refuted by example otherwise).")
c("C35","proved",["C35_whole_components","C35_order"],"")
c("C23","proved",["C23_pool"],"Handles that are live; stale handles are the caller's error, as in the code.")
c("C24","partial",["C24_render_order","C24_no_panic","C24_contents","C24_vertices","C24_get_instance_partial","C24_get_instance_refuted"],"get_instance reports a live instance with a high index missing after removals (refuted); refresh_pops is not modelled.")
c("C37","partial",["C37_undo_add","C37_undo_remove_partial","C37_undo_remove_refuted"],"Undoing a removal is exact unless a second turf or area shares the tile: then the undo destroys that one (refuted).")
c("C25","partial",["C25_tiles_partial","C25_base_reuse","C25_no_panic","C25_order_exists","C25_empty_tile_refuted"],"Tiles that have atoms; a tile without atoms is written as key 0, another tile's contents (refuted).")
c("C26","partial",["C26_round_trip","C26_monotone","C26_boundaries","C26_resolution_partial","C26_past_end_refuted"],"Round trip, order and refusals in full; the clause that a column past the end of its line resolves to the end of that line is refuted: the code reaches into the next line.")
c("C27","proved",["C27_get_range","C27_synchronised","C27_isolation","C27_bad_ranges"],"Document store modelled as a function of the URL; file-system reads of unopened documents are not modelled.")
c("C28","proved",["C28_round_trip","C28_truncation","C28_second_header_refuted"],"Byte level, with UTF-8 encoding and decoding; also every crash point of the writer. A conforming message with a second header is misread (refuted extra).")
c("C29","proved",["C29_poll","C29_only_poll","C29_no_stale_results","C29_latest_is_seen"],"All interleavings of spawn, poll, and threads finishing or panicking.")
c("C30","proved",["C30_prefix_and_infix","C30_queries","C30_ascii","C30_members"],"Unicode tables are parameters.")
c("C31","proved",["C31_extract_exact","C31_ordered","C31_format_then_extract","C31_edit_in_place","C31_reformat_same"],"The colour regex is modelled by a matcher whose language is the grammar in the specification; the Unicode digit table is a parameter.")
c("C10","proved",["C10_locations","C10_monotone","C10_count_location","C10_from_location"],"")
c("C11","proved",["C11_maximal_munch","C11_spelling","C14_total"],"At the level of read_punct, and through the layout of C14_total for every punctuation token of every input.")
c("C13","partial",["C13_exact","C13_line","C13_nested_partial","C13_adjacent_refuted","block_extent_unique"],"The extent of every comment is characterised exactly (C13_exact); it is the matching close when delimiters do not touch; for touching ones (*/*/) the nesting claim is refuted.")
c("C14","proved",["C14_total","C14_final_newline","C14_increasing"],"Column and line counters unbounded (their limits are C10); f32 parsing and formatting are parameters.")
c("C12","partial",["C12_requote","C12_lexed","C12_at_sign_refuted","C12_raw_refuted"],"Holds for every string with complete escapes (which every lexed quoted literal has), at every reachable lexer state, unless it contains both quote-brace and an at sign; refuted for that case and for raw strings ending in a backslash.")
c("C15","proved",["C15_total","C15_tokens_kept","C15_significant","C15_no_blanks"],"Also for what comes out before a panic; inserted tokens are located and appear only at line starts and at the end.")
c("C16","proved",["C16_balanced","C16_with_diagnostics","C16_no_panic_without_diagnostic","C16_total_refuted"],"Also: with diagnostics, the excess of closing braces is the number of reported unmatched ones. Extra: after an inconsistent-indentation diagnostic a right brace can panic (refuted totality).")
c("C38","proved",["C38_depth_is_indentation"],"")
c("C17","proved",["C17_simplify","C17_unique","C17_text","C17_empty"],"Rendering of documentation comments: no panic, longest common margins removed, blank ends dropped, order kept; whole collections.")
c("C36","proved",["C36_reconstruct","C36_current","C36_run"],"Stack per macro at every point of a run; the map recovered from the finalised history for any place equals what the lines up to it leave in force, for runs whose lines about one macro are in the order of their places. C36_refuted_order shows a real program (a macro undefined after an #include) for which the order of places is not the order of time.")
c("C39","proved",["C39_conditional"],"For runs that end (C41). Programs in well-formed nesting; a part that is switched off may hold text, any conditional and the directives define/include/undef/warn/error/pragma.")
c("C40","proved",["C40_expansion"],"For runs that end (C41); texts without # outside macro bodies and without documentation comments; calls with the right number of arguments.")
c("C41","proved",["C41_ends","C41_multiple_refuted"],"Unless a #pragma multiple is executed (then a file that includes itself is entered forever: refuted). The run may end in a panic (C41_panic: counter of open interpolated strings).")
c("C09","proved",["C09_roundtrip","C09_backslash_refuted","C09_resource_refuted","C09_tab_refuted","C09_empty_tile_refuted","C09_name_refuted"],"Values are any type with any Display and evaluator; the condition on a value is that its text evaluates back to it and obeys the syntax in Dmm/TgmSpec.v. The refutations show texts outside of the conditions that do not survive.")
c("C42","proved",["C42_standard_layout"],"Same conditions as C09.")
c("C43","proved",["C43_raw_string","C43_unterminated"],"Not in the text of #warn/#error, which the lexer reads as one string.")
c("C44","proved",["C44_terminates","C44_parser_is_grammar","C44_unambiguous"],"Runs that report nothing. What is read in spite of a report (e.g. () for null) is not specified beyond termination. Parse/Demo.v runs lexer and parser on texts.")
c("C45","proved",["C45_precedence","C45_conditional"],"")
c("C46","proved",["C46_roundtrip","C46_injective","C46_map_roundtrip","C46_hint_refuted","C46_trailing_token_refuted","C46_interpolation_refuted","C46_backslash_refuted","C46_resource_refuted","C46_escaped_quotes_refuted","C46_prefab_refuted"],"Arithmetic on f32 is a parameter (any type with any operations); a number qualifies if its printed form is its literal. The map reader evaluates at the location of each value; the theorem fixes one valid location for all of them, and C46_roundtrip holds for every one. The refutations show what does not come back.")
c("C47","proved",["C47_terminates","C47_values","C47_reports","C47_consistent","C47_exact","C47_order","C47_circle","C47_find","C47_field_order_refuted","C47_blame_refuted","C47_knot_refuted"],"Arithmetic on f32, rgb(), the file system, procedures and navigate_path are parameters. With a.b on a non-const variable the order matters (refuted), which is why C47_values has a strict and a lax clause; C47_knot_refuted shows why inheritance has to be acyclic.")
c("C48","proved",["C48_equality","C48_prefab_equality","C48_equivalence","C48_hash","C48_prefab_hash"],"Variables have distinct names at every depth (they come from an IndexMap). That equal numbers have equal hashes (OrderedFloat) is a hypothesis on the parameter f_hash, met by Const/EqHashDemo.v.")
c("C49","proved",["C49_find","C49_place","C49_add","C49_finish","C49_recurse","C49_navigate","C49_navigate_path","C49_absolute","C49_type_by_path"],"Names without slashes. Paths that go through proc or verb are modelled (navigate_from) but their result is only specified by C50_calls.")
c("C50","proved",["C50_parent","C50_acyclic","C50_plain_acyclic","C50_subtype","C50_subtypes","C50_calls","C50_declaration","C50_overrides","C50_register","C50_knot_refuted"],"The value of parent_type is what evaluating its expression gave (a string, a path, something else, nothing). C50_knot_refuted: two types that name each other are accepted silently and the walks never end.")
c("C51","partial",["C51_ends","C51_sound","C51_complete_partial","C51_skipped_refuted","C51_narrow_refuted"],"Completeness holds under the two stated conditions only; without them it is false of the program (C51_skipped_refuted, C51_narrow_refuted). What bodies do (calls, sleeping builtins) is the input; the order of the procedures with the directive is that of the list.")
c("C52","proved",["C52_exact","C52_location_refuted"],"What bodies do is the input. The locations of all calls shown but the first are those of the directive (C52_location_refuted), which the statement spells out.")
c("C53","proved",["C53_gather","C53_copied","C53_override","C53_access"],"Which settings and calls there are is the input.")
c("C54","partial",["C54_sound_partial","C54_conditions","C54_reported","C54_do_break_refuted","C54_do_continue_refuted","C54_range_break_refuted","C54_range_step_refuted","C54_range_zero_refuted","C54_goto_refuted"],"Proved for orderly procedures (Flow/Spec.v): no goto; in do-while bodies no if/else or switch/default with a break (or a continue) in every branch; range loops between literals without step, not from 0 to 0, without break or continue of their own. Each of these exceptions is a wrong report of the program (refuted).")
c("C55","proved",["C55_terminates","C55_parser_is_grammar","C55_unambiguous","C55_unambiguous_statement","C55_nearest_else"],"On top of C44 (the parser of expressions). Locations, annotations and the notes about indentation are left out; documentation comments between the tokens are skipped, as in C44.")
c("C56","partial",["C56_filter_of_keys_partial","C56_filter_of_list_partial","C56_filter_of_list_lost","C56_refuted"],"True of loops over keys and values; false of loops over lists: the filter is read where it might belong to a key and then dropped (C56_filter_of_list_lost, for every such loop; C56_refuted), unless as is written twice (C56_filter_of_list_partial).")
c("C57","proved",["C57_terminates","C57_sound","C57_complete","C57_accepted","C57_unambiguous","C57_code"],"On top of C44 and C55. The calls of the tree builder are recorded instead of made; types are known by their paths. Documentation comments (and the warning when they stand at a block of variables or procedures), annotations, locations and the builder's own complaints are left out.")
c("C58","proved",["C58_out_of_blocks","C58_nesting"],"Stated on the grammar that C57 shows to be the parser's language.")
c("C59","partial",["C59_no_panic_partial","C59_panic_at_end","C59_open_block","C59_refuted"],"False of the program: C59_refuted has a text on which the lexer, the indentation processor and the parser together panic; C59_open_block: every well-formed block that is left open at the end of the tokens does. Proved: no panic on the files of the grammar, and panics only after the last token. The preprocessor between lexer and indentation processor is left out.")
c("C60","proved",["C60_image","C60_definite","C60_crop","C60_clip","C60_command","C60_chunk_panics"],"For sprites with offsets below 2^29, pictures below 2^32 pixels and icon files whose rectangles lie in their pictures (sprite_ok, rect_ok, icon_ok in Minimap/Spec.v). Passes are arbitrary functions that may only add to the lists they are given; the random pass, the bump allocator and messages about missing icons and types are left out. C60_chunk_panics: render-many panics for a chunk that starts beyond the map.")
c("C61","partial",["C61_order_partial","C61_order_refuted"],"True of the numbers from -32768 up to 32768 except 0.99999994 and the negative ones from -2^-25 on, with distinct layers kept apart if they differ by 2^-15; false of these exceptions (C61_order_refuted).")
c("C62","partial",["C62_variable","C62_color_partial","C62_named","C62_sprite","C62_color_refuted"],"False for colours of many digits: their value overflows an u32 and panics in a debug build (C62_color_refuted, and exactly when in C62_color_partial), and for texts like \"#red\", whose r counts as zero. Offsets whose sums overflow an i32 are excluded in C62_sprite.")
c("C63","proved",["C63_passes","C63_commas","C63_layer","C63_apply","C63_hide"],"The built-in layers of types are a parameter. Only the configurable lists, the layer rule and the early filter of HideInvisible; the list of passes itself is a parameter.")
c("C64","partial",["C64_corners_partial","C64_diagonal_partial","C64_bitmask_partial","C64_untouched","C64_anchored_refuted","C64_types_refuted"],"False of the program for loose objects: the test for them asks for a path below /atom/movable, which no object has (C64_anchored_refuted), and for the pass of 2016: a canSmoothWith of types never joins anything (C64_types_refuted). The rest is proved for the passes of 2020 and 2025, for objects whose path is not textually below /atom/movable; a wall of which only one side joins counts as cut off too. The smoothing flags of the 2016 pass are modelled only as far as find_type_in_direction.")
c("C65","partial",["C65_state","C65_untouched","C65_mutual_partial","C65_mutual_refuted"],"The state is proved for every cable; being mutual only where no tile has both a storage unit and a terminal, and false otherwise (C65_mutual_refuted).")
c("C66","partial",["C66_calls","C66_sound","C66_complete_partial","C66_inherited_refuted","C66_twice_refuted"],"What is said about calls, and that everything reported about overrides is so, is proved in full; that every bad override is reported holds where the type of the call defines the procedure itself, once. It is false where the type inherits the procedure (C66_inherited_refuted) or defines it twice (C66_twice_refuted).")
c("C67","proved",["C67_reports"],"Types are given by number; C49 shows that numbers and paths correspond.")
c("C68","proved",["C68_static","C68_split","C68_accepted","C68_value","C68_return"],"What is known about the arguments (their type, and their value if it is a path) is given: how the analysis finds it is not modelled.")
c("C69","partial",["C69_types","C69_events","C69_lookup","C69_quiet","C69_everything","C69_demo","C69_changes_refuted","C69_new_list_refuted","C69_private_refuted","C69_branches_refuted"],"All of visit_expression, visit_term, visit_follow, visit_new, visit_call but the named-argument checks (C66). Missing from the full property, because the code does not do it: changes through src. or any field are not seen as changes, arguments of new /list(..) and of new a.b(..) and the variables of prefabs are not looked at, private means private to the static type of the value, and only the first branch of ?: is known. Locations and hints for fixes are not modelled.")
c("C70","partial",["C70_flags","C70_reports","C70_accepted","C70_demo","C70_parentheses_refuted"],"The tables of types and flags are those of the code. Flags in parentheses are refused although the language allows them (C70_parentheses_refuted).")
c("C71","partial",["C71_events","C71_scope","C71_block","C71_flow","C71_run","C71_everything","C71_demo","C71_names","C71_range_refuted","C71_spawn_refuted","C71_pure_refuted","C71_twice_refuted","C71_setting_refuted"],"All of visit_statement but the check of switch(rand()) (C21). Missing from the full property, because the code does not do it: the first value of a for loop over numbers whose variable is declared elsewhere, the condition of a do-while loop whose first round surely ends it, and the values of settings are not looked at (C71_everything has the exact list; C71_range_refuted, C71_setting_refuted); the delay of spawn() counts as part of what is spawned (C71_spawn_refuted); SHOULD_BE_PURE set to false counts as set (C71_pure_refuted); the left side of << is reported twice (C71_twice_refuted).")
c("C72","partial",["C72_request","C72_unscoped","C72_scoped","C72_tree","C72_path","C72_type","C72_once","C72_nearest","C72_demo","C72_overridden_refuted","C72_global_refuted","C72_unknown_refuted","C72_hidden_refuted","C72_middle_refuted"],"C72_request has the exact list of what is offered, for every tree and place; details and documentation of the entries are left out. Missing from the full property, because the code does not do it: after /proc the declared procedures that a nearer type overrides are not offered (C72_overridden_refuted); global variables and procedures are offered for overriding in types (C72_global_refuted); an unknown component of a path is ignored with everything after it (C72_unknown_refuted); a local variable called usr, args etc. is not found before a dot (C72_hidden_refuted); in the middle of a path the wrong entries are offered (C72_middle_refuted).")
c("C73","partial",["C73_references","C73_implementations","C73_procedure","C73_expression","C73_types","C73_latest","C73_others","C73_catch","C73_complete","C73_demo","C73_own_value_demo","C73_parent_demo","C73_block_refuted","C73_arms_refuted","C73_skipped_refuted","C73_arguments_refuted","C73_parameter_refuted"],"C73_references has the exact places that are listed for every symbol, for every finished tree and all code; C73_complete: of the body of a procedure nothing is skipped but the three things in `missed`. Locations are the declaration and the term, follow or statement that stands there. Missing from the full property, because the code does not do it: local variables stay visible after their block (C73_block_refuted, C73_arms_refuted); CRASH(), values of settings and the start of a range without declaration are not looked at (C73_skipped_refuted), nor are arguments of unknown procedures and of new without a known New (C73_arguments_refuted), nor the list a parameter is chosen from (C73_parameter_refuted).")
c("C74","partial",["C74_definition","C74_one","C74_type","C74_symbol","C74_references","C74_signature","C74_parent","C74_call","C74_above","C74_local","C74_marks","C74_sequence_demo","C74_demo","C74_here","C74_global_refuted","C74_nothing_refuted","C74_local_refuted","C74_parent_refuted","C74_help_refuted","C74_block_refuted"],"The targets, types, symbols and signatures are exactly those of the specification (Lsp/GotoSpec.v), for every finished tree without circles and all annotations; C74_parent and C74_call: they agree with what ..() and a call run (C50, C51); C74_above: the symbol of a call is declared where the call leads or above. Missing from the full property, because the code does not do it: a path that names nothing may lead to a global procedure or to an outer type (C74_global_refuted, C74_nothing_refuted, C74_parent_refuted); local variables and parameters have no references (C74_local_refuted); of nested calls and blocks the outermost counts (C74_help_refuted, C74_block_refuted).")
c("C75","partial",["C75_document","C75_outline","C75_order","C75_each","C75_above","C75_within","C75_marker","C75_folds","C75_once","C75_links","C75_demo","C75_detail_demo","C75_folds_demo","C75_links_demo","C75_end_refuted","C75_inside_refuted","C75_overlap_refuted"],"C75_document: the request, over every annotation tree, gives the outline of the specification (Lsp/OutlineSpec.v) of exactly the annotations of the file, in order; C75_each, C75_above and C75_within say what this means; C75_folds and C75_once: the regions; C75_links: the links. Missing from the full property, because the code does not do it: the ranges of the outline leave out the last character (C75_end_refuted), what starts at the last location of a block is not below it (C75_inside_refuted), and where ranges overlap a symbol may reach out of the one above it (C75_overlap_refuted).")
c("C76","proved",["C76_symbols","C76_subject","C76_found","C76_query","C76_update","C76_once","C76_demo","C76_query_demo","C76_update_demo","C76_all_refuted","C76_override_refuted","C76_docs_refuted"],"C76_symbols: for every tree and query (with the meaning of C30), the list is exactly that of the specification (Lsp/ExplorerSpec.v), in order, or refused for a symbol without a place; no panic, because procedures of a built tree have values. C76_found: the beginning of a name finds the symbol. C76_query, C76_update, C76_once: the explorer. Beside the property: one symbol without a place hides all others (C76_all_refuted), overrides are not found (C76_override_refuted), and the place of a procedure is that of the declaration while the documentation is that of the last value (C76_docs_refuted).")
c("C77","partial",["C77_hover","C77_refused","C77_answered","C77_subject","C77_call","C77_demo","C77_refused_here","C77_here","C77_docs_refuted","C77_set_refuted"],"C77_hover: for every finished tree without circles and all annotations, the answer is exactly that of the specification (Lsp/HoverSpec.v); C77_refused, C77_answered: when it is refused; C77_call: a call shows the procedure that going to the definition leads to. Missing from the full property, because the code does not do it: the documentation shown is that of the topmost type that has one, not of the procedure or variable shown (C77_docs_refuted); a use of a variable shows neither where it is set nor its value (C77_set_refuted).")
c("C78","proved",["C78_variable","C78_read","C78_iterator","C78_input","C78_input_read","C78_nothing","C78_typepath","C78_demo","C78_order_refuted","C78_null_refuted"],"C78_variable: the declaration shown, cut at the slashes, is flags, path and name, and reads back as the same type; C78_read: whatever words are read give such a type. C78_input, C78_input_read: the words shown of an input type read back as it; C78_typepath: the path is that of the smallest set that includes it. Not claimed, because the code does not do it: the order written is lost and combinations are shown beside their parts (C78_order_refuted); with null there is no path (C78_null_refuted).")
#MORE
print(json.dumps({"claims":C},indent=1))
