{
 "claims": [
  {
   "property": "C01",
   "status": "proved",
   "theorems": [
    "C01_literal_found",
    "C01_literal_not_found",
    "C01_literal_panics",
    "C01_literal_inside"
   ],
   "note": ""
  },
  {
   "property": "C02",
   "status": "proved",
   "theorems": [
    "C02_regex_found",
    "C02_regex_not_found",
    "C02_regex_panics",
    "C02_regex_inside"
   ],
   "note": ""
  },
  {
   "property": "C03",
   "status": "proved",
   "theorems": [
    "C03_line_numbers",
    "C03_lines_ordered"
   ],
   "note": ""
  },
  {
   "property": "C04",
   "status": "proved",
   "theorems": [
    "C04_columns"
   ],
   "note": ""
  },
  {
   "property": "C05",
   "status": "proved",
   "theorems": [
    "C05_error_text",
    "C05_decimal_unique",
    "C05_error_text_panics"
   ],
   "note": ""
  },
  {
   "property": "C06",
   "status": "proved",
   "theorems": [
    "C06_text_exact_on_ascii",
    "C06_text_wrong_beyond_ascii_refuted"
   ],
   "note": "Exact on ASCII sources; the refuted theorem is the witness that it fails beyond ASCII."
  },
  {
   "property": "C07",
   "status": "proved",
   "theorems": [
    "C07_equals_found",
    "C07_equals_not_found",
    "C07_equals_panics"
   ],
   "note": ""
  },
  {
   "property": "C08",
   "status": "proved",
   "theorems": [
    "C08_matches_found",
    "C08_matches_empty",
    "C08_matches_not_found"
   ],
   "note": ""
  },
  {
   "property": "C09",
   "status": "proved",
   "theorems": [
    "C09_sequence_found",
    "C09_sequence_not_found",
    "C09_empty_start_panics",
    "C09_empty_end_panics"
   ],
   "note": ""
  },
  {
   "property": "C10",
   "status": "proved",
   "theorems": [
    "C10_quoting_round_trip"
   ],
   "note": ""
  },
  {
   "property": "C11",
   "status": "proved",
   "theorems": [
    "C11_sequence_panics"
   ],
   "note": ""
  },
  {
   "property": "C12",
   "status": "proved",
   "theorems": [
    "C12_not",
    "C12_not_never_consumes",
    "C12_not_panics",
    "C12_not_diverges",
    "C12_double_negation"
   ],
   "note": ""
  },
  {
   "property": "C13",
   "status": "proved",
   "theorems": [
    "C13_optional",
    "C13_optional_never_fails",
    "C13_optional_panics",
    "C13_optional_diverges",
    "C13_optional_idempotent"
   ],
   "note": ""
  },
  {
   "property": "C14",
   "status": "proved",
   "theorems": [
    "C14_discard",
    "C14_discard_other",
    "C14_discard_panics",
    "C14_discard_diverges"
   ],
   "note": ""
  },
  {
   "property": "C15",
   "status": "proved",
   "theorems": [
    "C15_switch"
   ],
   "note": ""
  },
  {
   "property": "C16",
   "status": "proved",
   "theorems": [
    "C16_program",
    "C16_program_only",
    "C16_failure_ends"
   ],
   "note": ""
  },
  {
   "property": "C17",
   "status": "proved",
   "theorems": [
    "C17_children_inside",
    "C17_smallest"
   ],
   "note": ""
  },
  {
   "property": "C18",
   "status": "proved",
   "theorems": [
    "C18_children_know_parent"
   ],
   "note": ""
  },
  {
   "property": "C19",
   "status": "proved",
   "theorems": [
    "C19_older_tokens_kept"
   ],
   "note": ""
  },
  {
   "property": "C20",
   "status": "proved",
   "theorems": [
    "C20_outcome_unique",
    "C20_fuel_monotone"
   ],
   "note": ""
  },
  {
   "property": "C21",
   "status": "proved",
   "theorems": [
    "C21_outer_scopes_kept",
    "C21_balanced",
    "C21_own_scope_restored"
   ],
   "note": ""
  },
  {
   "property": "C22",
   "status": "proved",
   "theorems": [
    "C22_get_after_set",
    "C22_other_names_and_scopes",
    "C22_pop_restores",
    "C22_innermost_first",
    "C22_unbound"
   ],
   "note": ""
  },
  {
   "property": "C23",
   "status": "proved",
   "theorems": [
    "C23_stored",
    "C23_fetch",
    "C23_fetch_bare",
    "C23_fetch_other",
    "C23_fetch_string_path",
    "C23_fetch_unbound",
    "C23_pin_stored",
    "C23_pin",
    "C23_pin_alone",
    "C23_offsets"
   ],
   "note": ""
  },
  {
   "property": "C24",
   "status": "proved",
   "theorems": [
    "C24_store_token",
    "C24_store_other",
    "C24_failed_store_of_literal"
   ],
   "note": ""
  },
  {
   "property": "C25",
   "status": "proved",
   "theorems": [
    "C25_reference",
    "C25_unknown_reference"
   ],
   "note": ""
  },
  {
   "property": "C26",
   "status": "proved",
   "theorems": [
    "C26_left_recursion",
    "C26_self_named_reference",
    "C26_reference_cycle"
   ],
   "note": ""
  },
  {
   "property": "C27",
   "status": "proved",
   "theorems": [
    "C27_loop",
    "C27_loop_only",
    "C27_rounds",
    "C27_in_order",
    "C27_written",
    "C27_inclusive_has_no_end"
   ],
   "note": ""
  },
  {
   "property": "C28",
   "status": "proved",
   "theorems": [
    "C28_minimum_not_enforced",
    "C28_minimum_out_of_reach",
    "C28_too_many_copies"
   ],
   "note": ""
  },
  {
   "property": "C29",
   "status": "proved",
   "theorems": [
    "C29_zero_matches_fail"
   ],
   "note": ""
  },
  {
   "property": "C30",
   "status": "proved",
   "theorems": [
    "C30_spins",
    "C30_ends"
   ],
   "note": ""
  },
  {
   "property": "C31",
   "status": "proved",
   "theorems": [
    "C31_longest_run"
   ],
   "note": ""
  },
  {
   "property": "C32",
   "status": "proved",
   "theorems": [
    "C32_break_own",
    "C32_break_other",
    "C32_break_empty",
    "C32_break_program"
   ],
   "note": ""
  },
  {
   "property": "C33",
   "status": "proved",
   "theorems": [
    "C33_continue_other_loop",
    "C33_continue_program",
    "C33_no_signal",
    "C33_continue_switch"
   ],
   "note": ""
  },
  {
   "property": "C34",
   "status": "proved",
   "theorems": [
    "C34_map_signals",
    "C34_map_user_success",
    "C34_map_user_failure",
    "C34_map_panics",
    "C34_map_diverges",
    "C34_map_errors",
    "C34_fatal_if_match",
    "C34_fatal_if_no_match",
    "C34_fatal_if_not_match",
    "C34_fatal_if_not_no_match",
    "C34_assert_if_match",
    "C34_assert_if_no_match",
    "C34_assert_if_not_match",
    "C34_assert_if_not_no_match",
    "C34_error_matcher",
    "C34_panic_matcher"
   ],
   "note": ""
  },
  {
   "property": "C35",
   "status": "proved",
   "theorems": [
    "C35_catch_success",
    "C35_catch_failure",
    "C35_catch_only",
    "C35_catch_panics",
    "C35_catch_diverges"
   ],
   "note": ""
  },
  {
   "property": "C36",
   "status": "proved",
   "theorems": [
    "C36_errors_at_root",
    "C36_any_tree"
   ],
   "note": ""
  },
  {
   "property": "C37",
   "status": "proved",
   "theorems": [
    "C37_token",
    "C37_failure"
   ],
   "note": ""
  },
  {
   "property": "C38",
   "status": "proved",
   "theorems": [
    "C38_ascii_same",
    "C38_ascii_nothing_else",
    "C38_only_panics",
    "C38_only_panics_back",
    "C38_shown",
    "C38_multibyte_refuted",
    "C38_outside_refuted",
    "C38_not_consuming_refuted"
   ],
   "note": "plain removes the wrapping Debug matchers from the grammar and from stored matchers. debug_placed: Debug wraps consuming matchers only and is not listed by a Register (a Debug is always consuming and called Debug; C38_not_consuming_refuted is the witness). The refuted theorems are the failures the statement mentions. The printed text is not modelled."
  },
  {
   "property": "C39",
   "status": "proved",
   "theorems": [
    "C39_visit",
    "C39_cycle"
   ],
   "note": ""
  },
  {
   "property": "C40",
   "status": "proved",
   "theorems": [
    "C40_ranges",
    "C40_reversed_rejected"
   ],
   "note": ""
  },
  {
   "property": "C41",
   "status": "proved",
   "theorems": [
    "C41_errors_ignored"
   ],
   "note": ""
  },
  {
   "property": "C42",
   "status": "proved",
   "theorems": [
    "C42_token_name",
    "C42_always_name"
   ],
   "note": ""
  },
  {
   "property": "C43",
   "status": "proved",
   "theorems": [
    "C43_alias",
    "C43_unresolved"
   ],
   "note": ""
  },
  {
   "property": "C44",
   "status": "proved",
   "theorems": [
    "C44_loses_modifiers"
   ],
   "note": ""
  },
  {
   "property": "C45",
   "status": "proved",
   "theorems": [
    "C45_ranges",
    "C45_boundaries",
    "C45_regexes"
   ],
   "note": ""
  },
  {
   "property": "C46",
   "status": "proved",
   "theorems": [
    "C46_monotone",
    "C46_order"
   ],
   "note": ""
  },
  {
   "property": "C47",
   "status": "proved",
   "theorems": [
    "C47_ends",
    "C47_ends_within",
    "C47_every_grammar",
    "C47_source_bound",
    "C47_not_eating_refuted",
    "C47_reference_refuted"
   ],
   "note": "Fuel bounds both the nesting of matchers and the iterations of each loop, so C47_ends_within and C47_source_bound are bounds on both. tame, returning and never_stops are about user closures: they keep existing tokens, come back, and do not return Stop. References to registered matchers are excluded by the statement; C47_reference_refuted shows why. C47_not_eating_refuted shows that a loop whose body consumes nothing spins for 2^64-1 iterations."
  },
  {
   "property": "C48",
   "status": "proved",
   "theorems": [
    "C48_layers",
    "C48_definition"
   ],
   "note": ""
  },
  {
   "property": "C49",
   "status": "proved",
   "theorems": [
    "C49_string_panics",
    "C49_first_character"
   ],
   "note": ""
  },
  {
   "property": "C50",
   "status": "proved",
   "theorems": [
    "C50_circle",
    "C50_self_import"
   ],
   "note": "The premise parses each file once, in the empty store (C54 carries it to any store). OOF for every depth and fuel: the code recurses until its stack is exhausted."
  },
  {
   "property": "C51",
   "status": "proved",
   "theorems": [
    "C51_trees",
    "C51_all_tokens"
   ],
   "note": ""
  },
  {
   "property": "C52",
   "status": "proved",
   "theorems": [
    "C52_assignments"
   ],
   "note": ""
  },
  {
   "property": "C53",
   "status": "proved",
   "theorems": [
    "C53_compiled"
   ],
   "note": ""
  },
  {
   "property": "C54",
   "status": "proved",
   "theorems": [
    "C54_same_elsewhere",
    "C54_nothing_else",
    "C54_no_user_code"
   ],
   "note": "moved_state puts the older contents in front and shifts addresses. movable asks the same of user closures; it is a theorem for grammars without user code."
  },
  {
   "property": "C55",
   "status": "proved",
   "theorems": [
    "C55_proxy"
   ],
   "note": ""
  },
  {
   "property": "C56",
   "status": "proved",
   "theorems": [
    "C56_expand"
   ],
   "note": ""
  },
  {
   "property": "C57",
   "status": "proved",
   "theorems": [
    "C57_given_scope",
    "C57_own_scope"
   ],
   "note": ""
  },
  {
   "property": "C58",
   "status": "proved",
   "theorems": [
    "C58_register",
    "C58_context"
   ],
   "note": ""
  },
  {
   "property": "C59",
   "status": "proved",
   "theorems": [
    "C59_store_text",
    "C59_nothing",
    "C59_break"
   ],
   "note": ""
  },
  {
   "property": "C60",
   "status": "proved",
   "theorems": [
    "C60_pattern",
    "C60_script",
    "C60_alone"
   ],
   "note": "Faulty patterns are C64. ASCII sources (offsets are bytes and characters at once). The name given to a capture is always \"Name\" and another name refers to the whole text of its statement, as C42 and C43 show; meaning and defines say so. Imports enter C60_script through all_stated, which asks that the imported file compiles. The converse (what is accepted was written this way) is false: the grammar accepts unclosed program matchers."
  },
  {
   "property": "C61",
   "status": "proved",
   "theorems": [
    "C61_project"
   ],
   "note": "sound asks that every imported name is given by a statement of the imported file; importing a name that is not there is an error (C44, C53). Circular imports never end: C50."
  },
  {
   "property": "C62",
   "status": "proved",
   "theorems": [
    "C62_dropped",
    "C62_junk",
    "C62_no_version",
    "C62_no_version_junk",
    "C62_bad_version",
    "C62_nothing"
   ],
   "note": "A text is broken here if, after any number of patterns and comments, something visible comes that is none of # ( < ? ! * + {. Other ways of being wrong inside a pattern are not covered."
  },
  {
   "property": "C63",
   "status": "proved",
   "theorems": [
    "C63_unquoted"
   ],
   "note": "Places are described by open_script (SpecSyntax.v). After a head whose version is missing or no number the place is not claimed."
  },
  {
   "property": "C64",
   "status": "proved",
   "theorems": [
    "C64_faults",
    "C64_pattern",
    "C64_script",
    "C64_alone"
   ],
   "note": "Which regular expressions compile is the environment (e_regex). C64_script needs the imports before the fault to succeed. With C60_alone every written script without imports is covered."
  },
  {
   "property": "C65",
   "status": "proved",
   "theorems": [
    "C65_tokens",
    "C65_script",
    "C65_forbidden",
    "C65_project",
    "C65_explored",
    "C65_not_both"
   ],
   "note": "The place of a forbidden import is only bounded by the source (trees of programs do not record where they start). cu_no_script takes files that are no written scripts from C62 and C63. Circles are C50."
  },
  {
   "property": "C66",
   "status": "proved",
   "theorems": [
    "C66_pattern",
    "C66_entry",
    "C66_script",
    "C66_project"
   ],
   "note": "The readings are inductive relations (SpecMatch.v) that do not mention the execution of matchers. Where no reading can be derived (references in circles that consume nothing) nothing is claimed. Non-ASCII texts are left out: values are wrong there (C06)."
  },
  {
   "property": "C67",
   "status": "proved",
   "theorems": [
    "C67_script"
   ],
   "note": "The condition (steady_script) is on the written script and does not mention execution. Regular expressions must not report more than the text they are given."
  },
  {
   "property": "C68",
   "status": "proved",
   "theorems": [
    "C68_unique",
    "C68_unique_entry",
    "C68_pattern",
    "C68_script",
    "C68_project",
    "C68_circular"
   ],
   "note": "Regular expressions must not report more than the text they are given (measured). With C66 this makes readings and executions the same thing: C66 is the one direction, C68 the other."
  },
  {
   "property": "C69",
   "status": "proved",
   "theorems": [
    "C69_grammar",
    "C69_parse",
    "C69_compile",
    "C69_str",
    "C69_file"
   ],
   "note": "The conditions (guarded, onward, keeps_names) are on the grammar alone and do not mention execution. What happens when files import each other in circles is C50. The bound on the nesting is not claimed to be the smallest."
  },
  {
   "property": "C70",
   "status": "proved",
   "theorems": [
    "C70_compare",
    "C70_compare_tokens",
    "C70_equivalence",
    "C70_same_elsewhere",
    "C70_same_texts",
    "C70_children_count_refuted"
   ],
   "note": "That children are not compared is C70_children_count_refuted. Results are compared together with the stores their tokens are in."
  },
  {
   "property": "C71",
   "status": "proved",
   "theorems": [
    "C71_text",
    "C71_lines",
    "C71_results_print",
    "C71_tokenized_prints",
    "C71_parents_are_older",
    "C71_columns",
    "C71_circle_never_prints"
   ],
   "note": "The text of the attributes (a HashMap) is a parameter. filial says of user code that it leaves parents older than children; the library's own closures are proved to."
  },
  {
   "property": "C72",
   "status": "proved",
   "theorems": [
    "C72_set_attribute",
    "C72_has_attribute",
    "C72_attribute_equals",
    "C72_value",
    "C72_set_value",
    "C72_set_value_hidden",
    "C72_set_value_refuted",
    "C72_enable",
    "C72_disable",
    "C72_enabled",
    "C72_flags_fit",
    "C72_find_child",
    "C72_has_child",
    "C72_find_fuzzy",
    "C72_find_among",
    "C72_add_child",
    "C72_set_texts",
    "C72_show_range"
   ],
   "note": "C72_set_value_refuted: setting the empty text does not make it the value. Flags are bytes."
  },
  {
   "property": "C73",
   "status": "proved",
   "theorems": [
    "C73_texts_follow_ranges",
    "C73_texts_are_source",
    "C73_tokenized"
   ],
   "note": "For standard tokens; the texts of pin tokens, which programs drop, are not updated by the code. Beyond ASCII the text of a range is not what is in the range (C06)."
  },
  {
   "property": "C74",
   "status": "proved",
   "theorems": [
    "C74_children",
    "C74_no_children",
    "C74_set_child",
    "C74_set_child_keeps",
    "C74_set_child_panics",
    "C74_shown_can_be_set_refuted",
    "C74_set_child_last",
    "C74_set_child_same",
    "C74_add_pattern",
    "C74_add_patterns",
    "C74_set_name",
    "C74_set_name_inside",
    "C74_set_name_ignored",
    "C74_set_name_last",
    "C74_set_name_consuming",
    "C74_new_store"
   ],
   "note": "Matchers are changed in place in Rust; here the changed matcher is returned. C74_shown_can_be_set_refuted: Store, Pin and Register show children that cannot be set."
  },
  {
   "property": "C75",
   "status": "proved",
   "theorems": [
    "C75_equals_for_equals",
    "C75_tokenizes",
    "C75_optional_optional",
    "C75_not_not",
    "C75_not_not_not",
    "C75_proxy_proxy",
    "C75_scope_scope",
    "C75_named_refuted"
   ],
   "note": "C75_named_refuted shows why the matchers around the place must not have names of their own."
  },
  {
   "property": "C76",
   "status": "proved",
   "theorems": [
    "C76_flag",
    "C76_flag_file",
    "C76_flag_text",
    "C76_printing",
    "C76_lines",
    "C76_silent",
    "C76_silent_project",
    "C76_success_is_silent_refuted"
   ],
   "note": "Lines printed before a panic are not kept by the model. C76_success_is_silent_refuted: a script compiled with success whose syntax error is only in the log."
  },
  {
   "property": "C77",
   "status": "proved",
   "theorems": [
    "C77_pattern",
    "C77_alone",
    "C77_script"
   ],
   "note": "Readings are derivations of writes and script_text (SpecSyntax.v), which are independent of the parser."
  },
  {
   "property": "C78",
   "status": "proved",
   "theorems": [
    "C78_runs",
    "C78_tokenizes"
   ],
   "note": "The set of names is a parameter that must be closed under the grammar; polite user code respects it."
  },
  {
   "property": "C79",
   "status": "proved",
   "theorems": [
    "C79_text",
    "C79_file",
    "C79_parses"
   ],
   "note": "self_contained holds for every environment; C79_parses needs user code that makes no errors (a compiled script runs none)."
  },
  {
   "property": "C80",
   "status": "proved",
   "theorems": [
    "C80_home",
    "C80_grammar",
    "C80_text",
    "C80_file"
   ],
   "note": "No condition on user code or texts."
  },
  {
   "property": "C81",
   "status": "proved",
   "theorems": [
    "C81_shapes"
   ],
   "note": "well_shaped and script_tree (SpecShape.v) list names and children as data; errors are only excluded below the root."
  },
  {
   "property": "C82",
   "status": "proved",
   "theorems": [
    "C82_no_panic",
    "C82_returns"
   ],
   "note": "C82_example_not_ascii: non-ASCII texts do panic."
  },
  {
   "property": "C83",
   "status": "proved",
   "theorems": [
    "C83_text",
    "C83_text_returns",
    "C83_file",
    "C83_signs",
    "C83_plain",
    "C83_filled",
    "C83_file_filled"
   ],
   "note": "hopeless and spoilt (SpecShape.v) say which tokens and files are to blame and for which panic. Stack overflow is not modelled (depth bounds: C69)."
  },
  {
   "property": "C84",
   "status": "proved",
   "theorems": [
    "C84_leaves"
   ],
   "note": "lexeme (SpecLex.v) is written from the predicates of SpecSyntax.v, not from the regular expressions of the grammar. Ranges are those of the matched text."
  },
  {
   "property": "C85",
   "status": "proved",
   "theorems": [
    "C85_window",
    "C85_only",
    "C85_panics",
    "C85_diverges"
   ],
   "note": "local (SpecShift.v) excludes Panic, Error, Catch, Pin, user matchers and every map but attributes and renaming: error texts hold lines and columns. C85_example_position and C85_example_accent show that the conditions are needed."
  },
  {
   "property": "C86",
   "status": "proved",
   "theorems": [
    "C86_fatal",
    "C86_text",
    "C86_file"
   ],
   "note": "rf_parse and rf_root are results of the parse without a reason; what leads to them is C62 and C63 for scripts as written, and not characterised for arbitrary texts. The places of imports are those of their tokens (C84 for names). Errors noted by the parser have the message of their token."
  },
  {
   "property": "C87",
   "status": "proved",
   "theorems": [
    "C87_text",
    "C87_file",
    "C87_file_unique",
    "C87_outcome",
    "C87_file_outcome"
   ],
   "note": ""
  }
 ]
}