{
 "claims": [
  {
   "property": "C01",
   "status": "partial",
   "theorems": [
    "C01_insertion_membership_refuted",
    "C01_insertion_loses_members_refuted",
    "C01_insertion_membership_partial",
    "C01_nothing_invented",
    "C01_thin_insertions_exact",
    "C01_single_insertions_exact",
    "C01_add_range_exact_partial"
   ],
   "note": "Full statement refuted: a range touching three or more stored ranges leaves stale ranges, making contains wrong and even dropping members. Exact membership proved for every history in which each range touches at most two stored ranges (in particular all add_one histories)."
  },
  {
   "property": "C02",
   "status": "partial",
   "theorems": [
    "C02_canonical_refuted",
    "C02_equality_refuted",
    "C02_canonical_partial",
    "C02_length_counts_members",
    "C02_get_min_is_minimum",
    "C02_canonical_equality"
   ],
   "note": "Refuted in general (same cause as C01); proved for narrow histories; consequences of canonical form proved for all canonical sets."
  },
  {
   "property": "C03",
   "status": "proved",
   "theorems": [
    "C03_substract_exact",
    "C03_complement_exact"
   ],
   "note": ""
  },
  {
   "property": "C04",
   "status": "proved",
   "theorems": [
    "C04_remove_one_exact",
    "C04_remove_one_read_only_panics"
   ],
   "note": ""
  },
  {
   "property": "C05",
   "status": "proved",
   "theorems": [
    "C05_to_token_string"
   ],
   "note": ""
  },
  {
   "property": "C06",
   "status": "proved",
   "theorems": [
    "C06_slice_window",
    "C06_la_zero_panics"
   ],
   "note": ""
  },
  {
   "property": "C07",
   "status": "proved",
   "theorems": [
    "C07_utf8_window",
    "C07_offset_search_complete"
   ],
   "note": ""
  },
  {
   "property": "C08",
   "status": "proved",
   "theorems": [
    "C08_slice_text",
    "C08_utf8_text",
    "C08_adjacent_concat",
    "C08_slice_text_clamped"
   ],
   "note": ""
  },
  {
   "property": "C09",
   "status": "proved",
   "theorems": [
    "C09_seek_restores",
    "C09_observers_do_not_move"
   ],
   "note": ""
  },
  {
   "property": "C10",
   "status": "partial",
   "theorems": [
    "C10_iteration_ends_refuted",
    "C10_utf8_iteration_ends_refuted",
    "C10_iteration_symbols_partial",
    "C10_utf8_iteration_symbols_partial",
    "C10_token_stream_iteration_refuted",
    "C10_common_stream_iteration_refuted"
   ],
   "note": "Refuted: IterWrapper::next consumes at EOF, so the terminating call panics on every input. The yielded symbols before that are proved correct."
  },
  {
   "property": "C11",
   "status": "proved",
   "theorems": [
    "C11_in_order",
    "C11_get"
   ],
   "note": ""
  },
  {
   "property": "C12",
   "status": "partial",
   "theorems": [
    "C12_lookbehind_refuted",
    "C12_lt_minus_one_partial",
    "C12_off_by_one",
    "C12_start_panics"
   ],
   "note": "Refuted for k>=2 (off by one), panics at the start; lt(-1) proved."
  },
  {
   "property": "C13",
   "status": "partial",
   "theorems": [
    "C13_forward_seek_refuted",
    "C13_seek_iff_buffered_partial"
   ],
   "note": "Refuted on every source (a fresh marked stream cannot seek to 1). Exactly the already buffered indices are reachable."
  },
  {
   "property": "C14",
   "status": "proved",
   "theorems": [
    "C14_mark_pins",
    "C14_last_release",
    "C14_release_order"
   ],
   "note": ""
  },
  {
   "property": "C15",
   "status": "partial",
   "theorems": [
    "C15_memory_grows_refuted",
    "C15_no_bound_refuted"
   ],
   "note": "Refuted: without marks every consumed token stays buffered, on every source."
  },
  {
   "property": "C16",
   "status": "proved",
   "theorems": [
    "C16_consume_next_visible",
    "C16_traversal"
   ],
   "note": "Traversal from a fresh stream assumes the first token is on channel (C17 shows why)."
  },
  {
   "property": "C17",
   "status": "partial",
   "theorems": [
    "C17_starts_on_channel_refuted",
    "C17_starts_at_zero_partial"
   ],
   "note": "Refuted; a fresh stream always starts at source token 0."
  },
  {
   "property": "C18",
   "status": "proved",
   "theorems": [
    "C18_lookahead",
    "C18_lookahead_unique"
   ],
   "note": ""
  },
  {
   "property": "C19",
   "status": "partial",
   "theorems": [
    "C19_lookbehind_panics_refuted",
    "C19_lookbehind_wrong_token_refuted",
    "C19_lookbehind_partial",
    "C19_lookbehind_none_partial"
   ],
   "note": "Refuted (panic, and wrong token instead of None); correct when the k-th previous on-channel token exists, None when k exceeds the index."
  },
  {
   "property": "C20",
   "status": "proved",
   "theorems": [
    "C20_range_text",
    "C20_outside_panics",
    "C20_all_text"
   ],
   "note": ""
  },
  {
   "property": "C71",
   "status": "partial",
   "theorems": [
    "C71_common_la_past_end",
    "C71_unbuffered_la_past_end_refuted"
   ],
   "note": "Holds for CommonTokenStream; refuted for UnbufferedTokenStream (INVALID_TYPE past EOF)."
  },
  {
   "property": "C72",
   "status": "proved",
   "theorems": [
    "C72_token_iterator"
   ],
   "note": ""
  },
  {
   "property": "C21",
   "status": "partial",
   "theorems": [
    "C21_merge_is_union",
    "C21_cache_shared_by_modes_refuted"
   ],
   "note": "The union law is proved for every merge with a cache filled in the same mode; refuted when one merge cache serves both modes, as adaptive_predict does: the cache key lacks the mode, so a full-context merge can return a wildcard result."
  },
  {
   "property": "C22",
   "status": "proved",
   "theorems": [
    "C22_wildcard_merge"
   ],
   "note": ""
  },
  {
   "property": "C23",
   "status": "proved",
   "theorems": [
    "C23_merge_well_formed",
    "C23_lookups_in_range"
   ],
   "note": "murmur3 is an abstract hash; the only panic is the code's own assertion that the hash of the result is not zero."
  },
  {
   "property": "C24",
   "status": "proved",
   "theorems": [
    "C24_shared_context"
   ],
   "note": ""
  },
  {
   "property": "C25",
   "status": "proved",
   "theorems": [
    "C25_from_rule_context"
   ],
   "note": ""
  },
  {
   "property": "C28",
   "status": "proved",
   "theorems": [
    "C28_evaluate_is_truth",
    "C28_and_is_conjunction",
    "C28_or_is_disjunction",
    "C28_or_absent",
    "C28_precedence_folded"
   ],
   "note": ""
  },
  {
   "property": "C29",
   "status": "proved",
   "theorems": [
    "C29_eval_precedence_sound"
   ],
   "note": ""
  },
  {
   "property": "C30",
   "status": "partial",
   "theorems": [
    "C30_precedence_trees_decided_refuted",
    "C30_mixed_tree_not_simplified_refuted",
    "C30_built_trees_decided_partial",
    "C30_flat_decided_partial"
   ],
   "note": "Refuted: the differs flag is inverted (semantic_context.rs 81, 111), so trees whose operands all change are returned unsimplified. Proved for the trees the constructors build from flat predicates."
  },
  {
   "property": "C26",
   "status": "proved",
   "theorems": [
    "C26_entries",
    "C26_lexer_entries",
    "C26_read_only_panics"
   ],
   "note": "Parser sets and ordered (lexer) sets; the only panic is merge's hash assertion (C23)."
  },
  {
   "property": "C27",
   "status": "proved",
   "theorems": [
    "C27_subsets",
    "C27_analyses",
    "C27_single_viable",
    "C27_state_with_one_alt",
    "C27_unique_alt",
    "C27_set_alts",
    "C27_sll_termination",
    "C27_conflicting_or_unique"
   ],
   "note": ""
  },
  {
   "property": "C31",
   "status": "partial",
   "theorems": [
    "C31_precedence_map",
    "C31_other_dfa_panics",
    "C31_switched_dfa_refuted"
   ],
   "note": "Proved for DFAs that DFA::new creates for precedence decisions, and the panics on all others; refuted for a DFA switched with set_precedence_dfa(true), which silently drops every store."
  },
  {
   "property": "C32",
   "status": "proved",
   "theorems": [
    "C32_parser_edges",
    "C32_lexer_edges"
   ],
   "note": ""
  },
  {
   "property": "C64",
   "status": "proved",
   "theorems": [
    "C64_dedup",
    "C64_states_stable"
   ],
   "note": ""
  },
  {
   "property": "C45",
   "status": "proved",
   "theorems": [
    "C45_add_transition"
   ],
   "note": ""
  },
  {
   "property": "C46",
   "status": "partial",
   "theorems": [
    "C46_matches_partial",
    "C46_reachable_target_partial",
    "C46_wildcard_ends_refuted",
    "C46_rule_transition_refuted"
   ],
   "note": "Holds for all kinds except: a wildcard never matches the smallest and largest symbol of the vocabulary, and a rule transition panics instead of matching nothing; both refuted."
  },
  {
   "property": "C73",
   "status": "partial",
   "theorems": [
    "C73_added_transition_kept_partial",
    "C73_set_then_not_set_refuted",
    "C73_second_epsilon_refuted"
   ],
   "note": "Holds for consuming transitions unless sets and not-sets are mixed; refuted for a not-set after an equal set, and for a second epsilon-like transition to the same target."
  },
  {
   "property": "C43",
   "status": "partial",
   "theorems": [
    "C43_bad_header",
    "C43_good_header",
    "C43_word_partial",
    "C43_wrap_refuted"
   ],
   "note": "Header check and word decoding proved for all inputs; the documented 16-bit wrap is refuted for the characters 0 and 1."
  },
  {
   "property": "C44",
   "status": "partial",
   "theorems": [
    "C44_round_trip_partial",
    "C44_high_label_refuted",
    "C44_removed_state_refuted"
   ],
   "note": "Round trip proved for every description whose values fit words below 65534 and without removed states; the two excluded cases are refuted."
  },
  {
   "property": "C47",
   "status": "partial",
   "theorems": [
    "C47_lookahead_sound",
    "C47_first_set_partial",
    "C47_exact_partial",
    "C47_wide_label_refuted",
    "C47_left_recursion_refuted"
   ],
   "note": "For every ATN the reported set is sound; the ranges inserted are exactly the FIRST set when no rule is left recursive; contains is exact when labels are thin or the history narrow. Refuted in general: wide labels (defect of C01) and hidden left recursion."
  },
  {
   "property": "C48",
   "status": "partial",
   "theorems": [
    "C48_expected_sound",
    "C48_expected_partial",
    "C48_merge_refuted"
   ],
   "note": "Soundness, termination and absence of panics for every ATN and stack; exact when lookahead sets are exact and merges narrow; refuted in general because merging interval sets loses members (C01)."
  },
  {
   "property": "C74",
   "status": "partial",
   "theorems": [
    "C74_context_lookahead_sound",
    "C74_context_lookahead_partial"
   ],
   "note": "Sound for every ATN and stack, exact for grammars without left recursion and with thin labels."
  },
  {
   "property": "C49",
   "status": "partial",
   "theorems": [
    "C49_walk_partial",
    "C49_order_unique",
    "C49_plain_context_refuted"
   ],
   "note": "Proved for every tree without plain contexts (all rule nodes of grammars without alternative labels); refuted for the unlabelled context that a failed rule with labelled alternatives leaves behind, which gets no callbacks."
  },
  {
   "property": "C50",
   "status": "proved",
   "theorems": [
    "C50_text_of_leaves"
   ],
   "note": ""
  },
  {
   "property": "C51",
   "status": "proved",
   "theorems": [
    "C51_rendering",
    "C51_faithful",
    "C51_unnamed_panics"
   ],
   "note": "Rendering for trees whose rule indices have names (otherwise it panics, also proved); injectivity on labels without blanks, parentheses and backslashes, up to the difference between a childless rule node and a leaf with its name."
  },
  {
   "property": "C52",
   "status": "proved",
   "theorems": [
    "C52_display_name",
    "C52_literal_symbolic",
    "C52_from_token_names"
   ],
   "note": ""
  },
  {
   "property": "C67",
   "status": "proved",
   "theorems": [
    "C67_supplied_text",
    "C67_input_slice",
    "C67_utf8_slice",
    "C67_beyond_input",
    "C67_no_source",
    "C67_eof_text",
    "C67_negative_start_panics"
   ],
   "note": "Positions inside the input, over code point vectors and over UTF-8 strings; a negative start panics."
  },
  {
   "property": "C68",
   "status": "proved",
   "theorems": [
    "C68_escape_pieces",
    "C68_no_whitespace",
    "C68_distributes",
    "C68_injective"
   ],
   "note": ""
  },
  {
   "property": "C69",
   "status": "proved",
   "theorems": [
    "C69_states_stack",
    "C69_missing_parent_panics"
   ],
   "note": "For chains that end in a context without invoking state, as the parser builds them; other chains panic (proved)."
  },
  {
   "property": "C70",
   "status": "proved",
   "theorems": [
    "C70_get_tokens",
    "C70_get_token",
    "C70_children_of_type",
    "C70_child_of_type"
   ],
   "note": ""
  },
  {
   "property": "C75",
   "status": "proved",
   "theorems": [
    "C75_rule_stack"
   ],
   "note": ""
  },
  {
   "property": "C76",
   "status": "proved",
   "theorems": [
    "C76_visit",
    "C76_leaves_in_order",
    "C76_plain_context_panics"
   ],
   "note": "For trees without plain contexts, which panic when visited (proved); overriding methods are assumed not to visit children themselves."
  },
  {
   "property": "C36",
   "status": "proved",
   "theorems": [
    "C36_positions",
    "C36_same_start_same_position"
   ],
   "note": "For lexers whose embedded code does not move the lexer and does not install tokens; any grammar, any cache."
  },
  {
   "property": "C38",
   "status": "proved",
   "theorems": [
    "C38_tiling",
    "C38_matches_contiguous"
   ],
   "note": "For lexers whose embedded code does not move the lexer and does not install tokens (installed tokens are lost, C40)."
  },
  {
   "property": "C39",
   "status": "proved",
   "theorems": [
    "C39_push_pop",
    "C39_pop_tells_the_mode",
    "C39_push_enters",
    "C39_set_mode",
    "C39_pop_empty"
   ],
   "note": ""
  },
  {
   "property": "C40",
   "status": "partial",
   "theorems": [
    "C40_installed_token_refuted",
    "C40_only_own_tokens_returned"
   ],
   "note": "The property is false of the code: an installed token is thrown away and the text matched is in no token; proved counterexample, and proved that only tokens made by emit or emit_eof are ever returned."
  },
  {
   "property": "C41",
   "status": "partial",
   "theorems": [
    "C41_set_column_partial",
    "C41_set_line_refuted"
   ],
   "note": "Setting the column works; set_line is false of the code: it overwrites the column and leaves the line (proved for all values)."
  },
  {
   "property": "C42",
   "status": "proved",
   "theorems": [
    "C42_execution",
    "C42_offsets"
   ],
   "note": ""
  },
  {
   "property": "C77",
   "status": "proved",
   "theorems": [
    "C77_token_text_code_points",
    "C77_token_text_utf8"
   ],
   "note": ""
  },
  {
   "property": "C33",
   "status": "proved",
   "theorems": [
    "C33_longest_match"
   ],
   "note": "For greedy lexer ATNs without predicates, with any cache warmed by earlier matches; the hash by which cached states are found is assumed free of collisions on the configuration lists lexing can build (an instance is exhibited)."
  },
  {
   "property": "C34",
   "status": "proved",
   "theorems": [
    "C34_first_rule"
   ],
   "note": "Same class and assumption as C33."
  },
  {
   "property": "C35",
   "status": "partial",
   "theorems": [
    "C35_same_result_partial",
    "C35_same_effects_partial",
    "C35_lazy_result_partial",
    "C35_lazy_effects_partial",
    "C35_actions_refuted"
   ],
   "note": "Token type and end position are proved independent of the cache; the whole lexer state is, if every rule passes one list of position-independent actions. With non-greedy rules the same, if each is an opening, a one-character non-greedy loop and a closing; other non-greedy rules are missing. In general the actions are not: proved counterexample, since the executor hash ignores appended actions."
  },
  {
   "property": "C37",
   "status": "proved",
   "theorems": [
    "C37_ends_with_eof",
    "C37_empty_match_refuted"
   ],
   "note": "For lexer ATNs in which no rule matches the empty text and no infinite sequence of steps consumes nothing; embedded code does not move in the input and installs no tokens; hash free of collisions as in C33. Shown false without the condition on empty matches (C37_empty_match_refuted), as the property says."
  },
  {
   "property": "C53",
   "status": "proved",
   "theorems": [
    "C53_rule_balanced"
   ],
   "note": "For every history of calls a generated non-left-recursive rule function can make, with any nesting, errors and recovery; runs cancelled by the bail-out strategy leave the context as it is."
  },
  {
   "property": "C54",
   "status": "partial",
   "theorems": [
    "C54_leaves",
    "C54_common",
    "C54_match_is_leaf",
    "C54_set_conjured_refuted"
   ],
   "note": "Leaves are exactly the tokens consumed, in order, with end-of-input and conjured tokens in between, and a token returned by match_token or match_wildcard is always the last leaf. Refuted in part: a token conjured at a set match is in no tree."
  },
  {
   "property": "C55",
   "status": "proved",
   "theorems": [
    "C55_restores",
    "C55_left_nesting",
    "C55_operators",
    "C55_state_not_restored_refuted"
   ],
   "note": "Context and precedence are restored and contexts nested as stated; the parser state is not restored (C55_state_not_restored_refuted), which the property does not ask for."
  },
  {
   "property": "C56",
   "status": "partial",
   "theorems": [
    "C56_order",
    "C56_walk",
    "C56_balanced",
    "C56_consume",
    "C56_removed",
    "C56_removed_refuted",
    "C56_unbalanced_error_refuted",
    "C56_unbalanced_label_refuted"
   ],
   "note": "Order of delivery in all runs; in runs without syntax errors the events are a walk over the tree, hence balanced, for rule functions that announce their context. Refuted: exit without enter after an early error and for labelled primaries of left-recursive rules; removal by address removes the wrong one of two zero-sized listeners."
  },
  {
   "property": "C57",
   "status": "proved",
   "theorems": [
    "C57_consume_until",
    "C57_common_input"
   ],
   "note": "consume_until skips exactly the maximal run of tokens outside the set before EOF, adds one node per token (error nodes in recovery mode) and terminates; stated over any input with a finite list of tokens ahead, CommonTokenStream is shown to be one"
  },
  {
   "property": "C58",
   "status": "proved",
   "theorems": [
    "C58_second_call_moves",
    "C58_no_state_twice",
    "C58_reachable"
   ],
   "note": "second recover at the same position and state, with any use of the strategy in between that neither matches nor moves, consumes a token; hence no state is recovered in twice at one position"
  },
  {
   "property": "C59",
   "status": "proved",
   "theorems": [
    "C59_at_most_once",
    "C59_enabled_again",
    "C59_reports"
   ],
   "note": "over every stretch of parsing without a match (including matches satisfied by a conjured token)"
  },
  {
   "property": "C60",
   "status": "proved",
   "theorems": [
    "C60_deletion",
    "C60_insertion",
    "C60_error"
   ],
   "note": "deletion, insertion and error case of recover_inline with the children added, the notices and the recovery mode afterwards; the conjured type is the least expected one if the expected set is canonical (C02)"
  },
  {
   "property": "C61",
   "status": "partial",
   "theorems": [
    "C61_mismatch",
    "C61_mismatch_other",
    "C61_sync",
    "C61_recover",
    "C61_run",
    "C61_stops"
   ],
   "note": "proved: cancellation wraps the original error, nothing consumed, sync never fails, whole rule functions end at once. False of the code: enclosing contexts do not record the exception, set_exception is a no-op (parser_rule_context.rs 326), and C61_mismatch shows the contexts unchanged"
  },
  {
   "property": "C62",
   "status": "proved",
   "theorems": [
    "C62_position_kept",
    "C62_common_stream",
    "C62_unbuffered_stream"
   ],
   "note": "for every grammar, cache contents, mode, user predicate and token stream obeying four position laws, and for the two token streams: the same position and the same tokens ahead"
  },
  {
   "property": "C63",
   "status": "partial",
   "theorems": [
    "C63_mark_released_partial",
    "C63_mark_leaks_on_error",
    "C63_mark_released_refuted",
    "C63_common_stream"
   ],
   "note": "false of the code: the error path of adaptive_predict never releases (C63_mark_released_refuted, C63_mark_leaks_on_error); proved when an alternative is returned, and for CommonTokenStream, which does not count marks"
  },
  {
   "property": "C65",
   "status": "partial",
   "theorems": [
    "C65_filter_partial",
    "C65_filter_as_coded",
    "C65_filter_refuted",
    "C65_outer_depth_forgotten"
   ],
   "note": "false in general: the map keeps one stack per state, the last, so a configuration subsumed by an earlier survivor is kept (C65_filter_refuted); proved when survivors sharing a state share the stack, and the exact behaviour for every set"
  },
  {
   "property": "C66",
   "status": "proved",
   "theorems": [
    "C66_collected",
    "C66_choice",
    "C66_conflict_settled"
   ],
   "note": "predicates recorded per open alternative are equivalent to the disjunction over its configurations, trivial if one is unpredicated; the accept state chooses the least alternative that is allowed; hash set orders arbitrary"
  },
  {
   "property": "C78",
   "status": "proved",
   "theorems": [
    "C78_predicates_at_start",
    "C78_common_stream",
    "C78_unbuffered_stream"
   ],
   "note": "position of the stream at every evaluation of a user predicate during a prediction"
  },
  {
   "property": "C79",
   "status": "partial",
   "theorems": [
    "C79_recover_stops",
    "C79_recover_partial",
    "C79_sync_loop_partial"
   ],
   "note": "where recover and the loop resynchronisation of sync stop, for any invocation stack: always at EOF or a token a rule under way can go on with; that no such token is skipped needs exact lookahead sets (C47) and unions within what interval sets do correctly (C01)"
  },
  {
   "property": "C80",
   "status": "partial",
   "theorems": [
    "C80_common_stream_partial",
    "C80_unbuffered_stream_partial",
    "C80_error_is_real_partial",
    "C80_sll_refuted",
    "C80_nested_start_rule_refuted",
    "C80_wildcard_refuted"
   ],
   "note": "proved in the LL modes for grammars without predicates, left recursion and invocations of the start rule, with wildcards below the largest token type, with returns by C85; any DFA history, stack, stream history and hash. Refuted outside: SLL mode, a start rule that is invoked, wildcards on the largest type"
  },
  {
   "property": "C81",
   "status": "proved",
   "theorems": [
    "C81_alternative_exists"
   ],
   "note": "for every ATN, mode, stream, predicates and every history of the DFA; calls that panic or do not return are not covered"
  },
  {
   "property": "C82",
   "status": "partial",
   "theorems": [
    "C82_messages",
    "C82_mismatch",
    "C82_inline_texts",
    "C82_expecting_partial",
    "C82_no_alternative",
    "C82_one_line_partial",
    "C82_one_line_refuted"
   ],
   "note": "forms, counting, offending token and quoted texts proved for all runs whose rule bodies do not make up mismatch errors; the expected set is exact where C48 is (exact lookahead sets, narrow merges). Single-line messages proved for all but 'no viable alternative', whose text the code does not escape: refuted by a run"
  },
  {
   "property": "C83",
   "status": "partial",
   "theorems": [
    "C83_registered",
    "C83_error_told",
    "C83_report_told",
    "C83_diagnosis",
    "C83_lexer_told",
    "C83_errors_only_refuted"
   ],
   "note": "all but the last sentence proved, the user's listeners assumed not to notify listeners themselves; the count is false of the code: diagnostic reports go through notify_error_listeners and are counted as syntax errors (refuted by a prediction on a valid input)"
  },
  {
   "property": "C84",
   "status": "partial",
   "theorems": [
    "C84_lists_transitions",
    "C84_lexer_lists_transitions",
    "C84_defined",
    "C84_lexer_defined",
    "C84_dump_dfa",
    "C84_predicates_refuted",
    "C84_precedence_refuted"
   ],
   "note": "lines, their order and the headings proved for every DFA that can be dumped, and that those without predicates on accepting states can. False of the code: an accepting state with predicates is unimplemented!() and panics; in precedence decisions the precedence slots of the start state are listed as transitions on tokens"
  },
  {
   "property": "C85",
   "status": "proved",
   "theorems": [
    "C85_common_stream_returns",
    "C85_unbuffered_stream_returns",
    "C85_fuel_plays_no_part",
    "C85_returns_right_partial",
    "C85_stalling_grammar_never_returns",
    "C85_any_grammar_refuted"
   ],
   "note": "for any grammar with well-formed transitions and no way to repeat the empty match, common and unbuffered streams with any history, DFAs left by any predictions of the decision; fuel is shown to play no part. The premise on repeated empty matches is needed (refuted without). For simple grammars the combination with C80 gives total correctness"
  },
  {
   "property": "C86",
   "status": "partial",
   "theorems": [
    "C86_sentences_accepted_partial",
    "C86_new_parser_partial",
    "C86_fuel_plays_no_part",
    "C86_wide_labels_refuted",
    "C86_hidden_first_token_refuted",
    "C86_unbuffered_stream_refuted"
   ],
   "note": "total correctness proved for grammars without predicates, left recursion and calls of the start rule, token streams whose first token is visible; with the default strategy for narrow labels only; a DFA of 2^64-1 states is a third outcome. Refuted by runs: wide labels with the default strategy, hidden first token, unbuffered stream"
  },
  {
   "property": "C87",
   "status": "partial",
   "theorems": [
    "C87_accepted_are_sentences",
    "C87_exactly_the_sentences_partial"
   ],
   "note": "soundness proved for all rule functions without predicates and left recursion, whatever is predicted; the equivalence with C86 within its restrictions"
  },
  {
   "property": "C88",
   "status": "partial",
   "theorems": [
    "C88_always_comes_back",
    "C88_decides_partial",
    "C88_first_stage_partial"
   ],
   "note": "coming back proved for every input and mode, for the grammars of C86 (no predicates, left recursion or calls of the start rule, first token visible); that it decides the language and that the first stage is safe within the restrictions of C86"
  },
  {
   "property": "C89",
   "status": "partial",
   "theorems": [
    "C89_never_comes_back",
    "C89_always_comes_back_refuted",
    "C89_bail_partial"
   ],
   "note": "refuted by a run that needs more than any fuel; what is left is C88, restated for the same conditions"
  },
  {
   "property": "C90",
   "status": "partial",
   "theorems": [
    "C90_one_by_one",
    "C90_one_by_one_at_the_end",
    "C90_nobody_looks_at_a_change",
    "C90_no_deadlock",
    "C90_no_endless_schedule",
    "C90_as_if_alone",
    "C90_predictions_return",
    "C90_predictions_right_partial"
   ],
   "note": "serialisation, mutual exclusion, freedom from deadlock and from endless schedules proved for all threads and schedules; that predictions return for the grammars of C85, while the fuel of the model lasts; that they are right within the restrictions of C80 (simple grammars, LL mode, the same hashing in all threads)"
  },
  {
   "property": "C91",
   "status": "partial",
   "theorems": [
    "C91_reentry_deadlocks",
    "C91_listener_deadlocks",
    "C91_nested_parser_refuted",
    "C91_other_grammar_partial",
    "C91_lexer_action_deadlocks",
    "C91_nested_lexer_refuted"
   ],
   "note": "refuted, for parsers and for lexers: the thread waits for itself, in every schedule. What is left: predictions of higher rank (of another grammar) in user code never deadlock"
  },
  {
   "property": "C92",
   "status": "partial",
   "theorems": [
    "C92_lazy_token_partial",
    "C92_longest_match_partial",
    "C92_same_tokens_partial",
    "C92_reference_partial",
    "C92_no_deadlock"
   ],
   "note": "longest match and first rule, and what C105 says of non-greedy rules, proved in every schedule, for the grammars of C33/C34/C105 without embedded code; equality with a lexer alone for those whose rules are greedy or delimited and pass one list of actions (as in C35); freedom from deadlock for all grammars whose actions do not lex"
  },
  {
   "property": "C93",
   "status": "proved",
   "theorems": [
    "C93_history",
    "C93_restores",
    "C93_leaves"
   ],
   "note": "arguments, return values and embedded actions are not modelled; predicates are arbitrary functions of the parser that change nothing"
  },
  {
   "property": "C94",
   "status": "proved",
   "theorems": [
    "C94_sound"
   ],
   "note": "for every grammar and all decisions; predicates: those that can hold in some state of the parser"
  },
  {
   "property": "C95",
   "status": "proved",
   "theorems": [
    "C95_derivation"
   ],
   "note": "for every grammar and all decisions; the calls the tool generates between matches are a parameter (plan_fits says which are allowed where)"
  },
  {
   "property": "C96",
   "status": "partial",
   "theorems": [
    "C96_spans",
    "C96_common",
    "C96_generated",
    "C96_recursive_eof_refuted",
    "C96_deleted_eof_refuted",
    "C96_hidden_first_refuted"
   ],
   "note": "proved for every node that read something: its interval is that of the tokens read, or ends at an end of input matched in it. Which of the two if both: not determined by the tree (refuted); the stream's first token has to be on the channel (a rule that reads no more than an off-channel first token panics: refuted)"
  },
  {
   "property": "C97",
   "status": "proved",
   "theorems": [
    "C97_text_to_tree",
    "C97_whole_text",
    "C97_generated"
   ],
   "note": "for lexers that make no empty tokens (their text is not the empty text at the end of input) and embedded code that keeps out of position, token and text; the lexing is done first, in the code it is done on demand, which the lexer cannot notice"
  },
  {
   "property": "C98",
   "status": "proved",
   "theorems": [
    "C98_tokens",
    "C98_unique",
    "C98_all_tokens"
   ],
   "note": "for grammars with greedy rules, one list of built-in commands per rule (C35 shows a counterexample without), no empty matches; the DFA cache has not overflowed its 32-bit numbers"
  },
  {
   "property": "C99",
   "status": "partial",
   "theorems": [
    "C99_one_reading",
    "C99_lexed",
    "C99_accepted",
    "C99_text_decided_partial"
   ],
   "note": "the reading and its uniqueness (for lexers whose rules are greedy or delimited), and that accepted texts are in the language, are proved for all parser grammars; the decision (acceptance of every sentence) within the restrictions of C86, C88 and C106; the lexing is done first, as in C97"
  },
  {
   "property": "C100",
   "status": "proved",
   "theorems": [
    "C100_operators",
    "C100_common_stream",
    "C100_unbuffered_stream"
   ],
   "note": "for rules of the form of OperatorSpec (one or more operators and levels, operators are tokens, what may follow an expression is not an operator and not under a user predicate); that one of the alternatives is chosen rather than an error reported when the token is no operator is not part of it; the DFA has not overflowed its 32-bit numbers"
  },
  {
   "property": "C101",
   "status": "proved",
   "theorems": [
    "C101_order",
    "C101_unique"
   ],
   "note": "for rules of the form of OrderSpec (prefix, suffix, binary and ternary operators that begin with a token, and primaries), over CommonTokenStream; the loop is decided by prediction and has a decision of its own; what may follow an expression is not an operator (C100)"
  },
  {
   "property": "C102",
   "status": "partial",
   "theorems": [
    "C102_form",
    "C102_one_line",
    "C102_numbers",
    "C102_text_refuted",
    "C102_text_partial",
    "C102_copies"
   ],
   "note": "that texts can be told apart is refuted for texts with backslashes (they are not escaped) and proved for others; everything else is proved for all tokens"
  },
  {
   "property": "C103",
   "status": "proved",
   "theorems": [
    "C103_contexts",
    "C103_merge",
    "C103_stacks",
    "C103_hash_law",
    "C103_configs",
    "C103_keys",
    "C103_unhashed"
   ],
   "note": "for any hash function and any sharing of addresses; a hash map is taken to find what is equal to the key, which the hash law allows"
  },
  {
   "property": "C104",
   "status": "proved",
   "theorems": [
    "C104_visit",
    "C104_determined",
    "C104_comes_back",
    "C104_value"
   ],
   "note": "for visitors that do not read the temporary result themselves and do not override visit_children"
  },
  {
   "property": "C105",
   "status": "proved",
   "theorems": [
    "C105_lazy_token",
    "C105_greedy_rules",
    "C105_first_closing"
   ],
   "note": "same class of grammars as C33, without the condition that decisions are greedy; that a token is the shortest text is for rules of the shape opening, one-character non-greedy loop, closing"
  },
  {
   "property": "C106",
   "status": "proved",
   "theorems": [
    "C106_tokens",
    "C106_unique",
    "C106_greedy",
    "C106_all_tokens"
   ],
   "note": "class of C98 without the condition that decisions are greedy; uniqueness and hence the converse for grammars whose rules are greedy or of the shape opening, one-character non-greedy loop, closing"
  },
  {
   "property": "C107",
   "status": "partial",
   "theorems": [
    "C107_printed",
    "C107_same",
    "C107_silent",
    "C107_tiled",
    "C107_rejoined",
    "C107_all_well",
    "C107_one_line_partial",
    "C107_one_line_refuted"
   ],
   "note": "proved but for the last sentence, which is false of the code (C107_tiled and C107_all_well are for lexers that make no end-of-input tokens by a rule or command): the dropped text is quoted without escapes, so a line break in it makes two lines; reports of text without line breaks are one line"
  }
 ]
}