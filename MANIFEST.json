{
 "claims": [
  {
   "property": "C01",
   "status": "proved",
   "theorems": [
    "C01_int_store_load"
   ],
   "note": ""
  },
  {
   "property": "C02",
   "status": "proved",
   "theorems": [
    "C02_inline_faithful",
    "C02_bool_as_int"
   ],
   "note": ""
  },
  {
   "property": "C03",
   "status": "partial",
   "theorems": [
    "C03_exclusion",
    "C03_exact",
    "C03_released",
    "C03_unbounded_refuted"
   ],
   "note": "The lock word is a u16: the guarantees hold up to 65535 simultaneous shared guards (C03_exclusion, C03_exact, C03_released); C03_unbounded_refuted shows that the next borrow is refused."
  },
  {
   "property": "C04",
   "status": "partial",
   "theorems": [
    "C04_refcount",
    "C04_unbounded_refuted"
   ],
   "note": "The count is a u32: proved up to 2^32 - 1 handles; C04_unbounded_refuted: beyond that the counter wraps and the object is freed early."
  },
  {
   "property": "C05",
   "status": "proved",
   "theorems": [
    "C05_range_progression"
   ],
   "note": ""
  },
  {
   "property": "C06",
   "status": "proved",
   "theorems": [
    "C06_range_membership"
   ],
   "note": ""
  },
  {
   "property": "C07",
   "status": "partial",
   "theorems": [
    "C07_range_len_refuted",
    "C07_range_len_partial"
   ],
   "note": "False of the code: len(range(0,5,2)) is 2. C07_range_len_partial says exactly when it is right (empty range, or the step divides the span) and that otherwise it is one too small."
  },
  {
   "property": "C08",
   "status": "partial",
   "theorems": [
    "C08_reverse",
    "C08_rindex_of_partial",
    "C08_rindex_of_refuted"
   ],
   "note": "Reversal is proved for all ranges. rindex_of/rfind: proved for every iterable except ranges and enumerations, where it is false (C08_rindex_of_refuted)."
  },
  {
   "property": "C09",
   "status": "partial",
   "theorems": [
    "C09_index",
    "C09_assign",
    "C09_string_partial",
    "C09_string_refuted"
   ],
   "note": "Proved for lists, vectors and ASCII strings; for non-ASCII strings false (C09_string_refuted): the code mixes byte and character counts and panics."
  },
  {
   "property": "C10",
   "status": "partial",
   "theorems": [
    "C10_slice",
    "C10_slice_laws",
    "C10_slice_value",
    "C10_string_partial",
    "C10_string_refuted"
   ],
   "note": "Proved for lists and vectors and for ASCII strings; false for other strings (C10_string_refuted)."
  },
  {
   "property": "C11",
   "status": "proved",
   "theorems": [
    "C11_arith",
    "C11_exact",
    "C11_laws"
   ],
   "note": ""
  },
  {
   "property": "C12",
   "status": "proved",
   "theorems": [
    "C12_division"
   ],
   "note": ""
  },
  {
   "property": "C13",
   "status": "partial",
   "theorems": [
    "C13_pow_partial",
    "C13_shift_partial",
    "C13_pow_refuted",
    "C13_shift_refuted",
    "C13_right_shift_refuted"
   ],
   "note": "Proved for exponents below 2^32 and shift amounts between -63 and 63; beyond that false of the code (three counterexamples): the exponent is truncated to u32, the amount masked to 6 bits."
  },
  {
   "property": "C14",
   "status": "proved",
   "theorems": [
    "C14_bitwise",
    "C14_not",
    "C14_de_morgan"
   ],
   "note": ""
  },
  {
   "property": "C15",
   "status": "partial",
   "theorems": [
    "C15_ring",
    "C15_pow_partial",
    "C15_division_partial",
    "C15_division_refuted"
   ],
   "note": "Ring operations proved for all operands; power for exponents below 2^32; division for components below the bound `tiny`, because the squared norm wraps beyond it (C15_division_refuted)."
  },
  {
   "property": "C16",
   "status": "proved",
   "theorems": [
    "C16_equality_equivalence",
    "C16_equality_kinds",
    "C16_equality_list",
    "C16_equality_dict"
   ],
   "note": ""
  },
  {
   "property": "C17",
   "status": "proved",
   "theorems": [
    "C17_total_order",
    "C17_trichotomy",
    "C17_string_order",
    "C17_int_order",
    "C17_operators_consistent"
   ],
   "note": ""
  },
  {
   "property": "C18",
   "status": "partial",
   "theorems": [
    "C18_mixed_order_refuted",
    "C18_bool_rational_refuted"
   ],
   "note": "False of the code: comparison is not transitive across kinds (two counterexamples)."
  },
  {
   "property": "C19",
   "status": "partial",
   "theorems": [
    "C19_equal_hash_refuted",
    "C19_int_rational_refuted",
    "C19_equal_hash_partial"
   ],
   "note": "False of the code for sets/dicts with several entries (order dependent hash) and for integral rationals; C19_equal_hash_partial proves it for all other values."
  },
  {
   "property": "C20",
   "status": "proved",
   "theorems": [
    "C20_dict",
    "C20_dict_read",
    "C20_set",
    "C20_remove_answer",
    "C20_pop_youngest"
   ],
   "note": ""
  },
  {
   "property": "C21",
   "status": "partial",
   "theorems": [
    "C21_builtins",
    "C21_builtins_agree",
    "C21_difference_order_refuted",
    "C21_operators"
   ],
   "note": "Everything is proved except that `difference` (the builtin, not `-`) keeps the order of the remaining elements, which is false."
  },
  {
   "property": "C22",
   "status": "proved",
   "theorems": [
    "C22_heap",
    "C22_heap_sort",
    "C22_heap_order"
   ],
   "note": ""
  },
  {
   "property": "C23",
   "status": "proved",
   "theorems": [
    "C23_sort",
    "C23_min_max",
    "C23_sum",
    "C23_zip",
    "C23_reverse"
   ],
   "note": ""
  },
  {
   "property": "C24",
   "status": "proved",
   "theorems": [
    "C24_insert",
    "C24_remove",
    "C24_ends",
    "C24_failure_atomic"
   ],
   "note": ""
  },
  {
   "property": "C25",
   "status": "proved",
   "theorems": [
    "C25_map",
    "C25_filter",
    "C25_any_all",
    "C25_find",
    "C25_rfind",
    "C25_flat_map",
    "C25_reduce",
    "C25_checks",
    "C25_stable",
    "C25_reduce_stable",
    "C25_index_of"
   ],
   "note": ""
  },
  {
   "property": "C26",
   "status": "proved",
   "theorems": [
    "C26_chunks",
    "C26_groups"
   ],
   "note": ""
  },
  {
   "property": "C27",
   "status": "partial",
   "theorems": [
    "C27_combinations",
    "C27_permutations",
    "C27_too_many",
    "C27_negative",
    "C27_zero_refuted"
   ],
   "note": "Proved for n >= 1 (and n larger than the length, and negative n); false for n = 0, which is rejected."
  },
  {
   "property": "C28",
   "status": "partial",
   "theorems": [
    "C28_char_exact",
    "C28_char_range_refuted",
    "C28_ord_char",
    "C28_char_ord",
    "C28_ord_char_refuted",
    "C28_hex",
    "C28_bin",
    "C28_hex_negative_refuted",
    "C28_reads",
    "C28_int_of_text",
    "C28_int_exact_refuted"
   ],
   "note": "Round trips proved where they hold; the counterexamples: char looks at the low 32 bits only, ord rejects non-ASCII characters, negative hex texts are not read back, 64-bit numerals are accepted."
  },
  {
   "property": "C29",
   "status": "partial",
   "theorems": [
    "C29_format",
    "C29_unique_reading",
    "C29_count",
    "C29_wrong_count",
    "C29_padding",
    "C29_width",
    "C29_no_crash",
    "C29_no_crash_refuted"
   ],
   "note": "Proved for all formats and arguments; a width that does not fit in a usize crashes the interpreter (C29_no_crash_refuted)."
  },
  {
   "property": "C30",
   "status": "partial",
   "theorems": [
    "C30_split_join",
    "C30_split_matches",
    "C30_split_chars",
    "C30_strip",
    "C30_case_partial"
   ],
   "note": "Missing: the regex engine (library fancy_regex) is not modelled, so nothing is said about escaping; case mapping only for ASCII."
  },
  {
   "property": "C31",
   "status": "proved",
   "theorems": [
    "C31_call_runs",
    "C31_parameters",
    "C31_call_too_few",
    "C31_call_error"
   ],
   "note": ""
  },
  {
   "property": "C32",
   "status": "partial",
   "theorems": [
    "C32_partial_application_partial",
    "C32_variadic_refuted"
   ],
   "note": "Proved unless the call reaches a variadic parameter, where it is false of the code (C32_variadic_refuted)."
  },
  {
   "property": "C33",
   "status": "partial",
   "theorems": [
    "C33_swap",
    "C33_unswapped",
    "C33_apply",
    "C33_section_left",
    "C33_section_right",
    "C33_section_right_symmetric",
    "C33_set_order_refuted"
   ],
   "note": "Proved for all operators; on sets the result is equal but the element order may differ (C33_set_order_refuted)."
  },
  {
   "property": "C34",
   "status": "partial",
   "theorems": [
    "C34_direct",
    "C34_no_crash",
    "C34_partially_applied",
    "C34_currying",
    "C34_fast0_partial",
    "C34_fast1_partial",
    "C34_fast2_partial",
    "C34_fast2_crash_refuted",
    "C34_fast1_min_refuted",
    "C34_fast_error_refuted"
   ],
   "note": "Direct calls, currying and partially applied builtins: proved. The fast paths with 0, 1 and 2 arguments: proved outside listed cases, in each of which they really differ (three counterexamples)."
  },
  {
   "property": "C35",
   "status": "partial",
   "theorems": [
    "C35_match",
    "C35_unique",
    "C35_lengths",
    "C35_sets_refuted",
    "C35_aliasing_refuted",
    "C35_string_crash_refuted",
    "C35_failed_match_assigns",
    "C35_two_stars_refuted",
    "C35_compiles"
   ],
   "note": "Proved for sequences (lists, vectors, ASCII strings) when the assignments leave the value alone; counterexamples: sets are refused, aliasing, non-ASCII strings crash, two stars in an assignment."
  },
  {
   "property": "C36",
   "status": "partial",
   "theorems": [
    "C36_ends",
    "C36_copy_partial",
    "C36_disjoint",
    "C36_equal",
    "C36_isomorphic_refuted",
    "C36_default_refuted"
   ],
   "note": "Proved for every closed object graph: termination, one-to-one correspondence, disjointness, equality; exceptions (false of the code): defaults of dicts are dropped, sets/dicts in cycles may lose entries."
  },
  {
   "property": "C37",
   "status": "partial",
   "theorems": [
    "C37_hit",
    "C37_failure_not_cached",
    "C37_exactly_once_refuted"
   ],
   "note": "Proved for all histories; `exactly once` is false for a re-entrant call with the same arguments."
  },
  {
   "property": "C38",
   "status": "proved",
   "theorems": [
    "C38_present",
    "C38_missing",
    "C38_default",
    "C38_once"
   ],
   "note": ""
  },
  {
   "property": "C39",
   "status": "proved",
   "theorems": [
    "C39_emit_preserves_traces",
    "C39_emit_twice",
    "C39_join_forward",
    "C39_join_reverse"
   ],
   "note": ""
  },
  {
   "property": "C40",
   "status": "proved",
   "theorems": [
    "C40_optimised_program_same_outcome",
    "C40_optimised_program_no_other_outcome",
    "C40_not_longer"
   ],
   "note": ""
  },
  {
   "property": "C41",
   "status": "proved",
   "theorems": [
    "C41_compiled_same_outcome",
    "C41_no_other_outcome",
    "C41_source_deterministic",
    "C41_expressions",
    "C41_value",
    "C41_error"
   ],
   "note": ""
  },
  {
   "property": "C42",
   "status": "proved",
   "theorems": [
    "C42_and_falsy",
    "C42_and_truthy",
    "C42_or_truthy",
    "C42_or_falsy",
    "C42_if",
    "C42_chain",
    "C42_chain_prefix"
   ],
   "note": ""
  },
  {
   "property": "C43",
   "status": "partial",
   "theorems": [
    "C43_expression_partial",
    "C43_program_partial",
    "C43_compiled_partial",
    "C43_complex_refuted",
    "C43_dead_error_refuted",
    "C43_exit_refuted"
   ],
   "note": "Proved for all expressions and programs without complex constants which are `gentle` (a syntactic condition: of operands that may be exchanged, all but one are constants, variables or partially applied builtins), for values and final states of runs without error. Missing: exchanging larger operands, where the final states differ by a renaming of addresses; errors. Three counterexamples: complex constants, errors in dead branches, `exit`."
  },
  {
   "property": "C44",
   "status": "proved",
   "theorems": [
    "C44_call",
    "C44_call_error",
    "C44_literal",
    "C44_literal_any",
    "C44_set_members",
    "C44_dict_lookup"
   ],
   "note": ""
  },
  {
   "property": "C45",
   "status": "partial",
   "theorems": [
    "C45_scoped_start",
    "C45_cells_stay",
    "C45_cells_stay_statements",
    "C45_declaration_fresh",
    "C45_activation_fresh",
    "C45_iteration_fresh",
    "C45_closure_shares",
    "C45_assign",
    "C45_compiled_partial",
    "C45_return_refuted",
    "C45_iterations_refuted",
    "C45_do_refuted"
   ],
   "note": "The meaning of variables is proved for all programs of the source semantics; compiled programs follow it (C45_compiled_partial) outside the exclusions of LangCheck.v, for which it is false of the code (three counterexamples)."
  },
  {
   "property": "C46",
   "status": "proved",
   "theorems": [
    "C46_return_restores",
    "C46_call_then_return"
   ],
   "note": ""
  },
  {
   "property": "C47",
   "status": "proved",
   "theorems": [
    "C47_undeclared",
    "C47_history",
    "C47_from_start"
   ],
   "note": ""
  },
  {
   "property": "C48",
   "status": "partial",
   "theorems": [
    "C48_segmentation",
    "C48_reread",
    "C48_ordered",
    "C48_order_of_line_breaks_refuted",
    "C48_error_location_refuted",
    "C48_ordered_always"
   ],
   "note": "Proved for every text; exceptions that are false of the code: line breaks inside strings come before the string token, and the error location of an unterminated string is outside of the text."
  },
  {
   "property": "C49",
   "status": "partial",
   "theorems": [
    "C49_spelled",
    "C49_lines",
    "C49_words",
    "C49_too_large",
    "C49_written",
    "C49_large_literal_refuted"
   ],
   "note": "Proved for all literals; literals from 2^62 to 2^63-1 are accepted but denote another number (C49_large_literal_refuted)."
  },
  {
   "property": "C50",
   "status": "partial",
   "theorems": [
    "C50_separator",
    "C50_white_space",
    "C50_comment",
    "C50_comment_end_refuted"
   ],
   "note": "Proved for white space and all comments that close properly; the end of a block comment is not its first star-slash in two cases (C50_comment_end_refuted)."
  },
  {
   "property": "C51",
   "status": "partial",
   "theorems": [
    "C51_failed_line",
    "C51_indices",
    "C51_eval_locals",
    "C51_field_names",
    "C51_functions",
    "C51_verdict",
    "C51_eval_verdict",
    "C51_literals",
    "C51_eval_refuted"
   ],
   "note": "Failed REPL line: nothing changes at all; every session: all indices keep their contents; functions declared are defined: proved for any parser behaviour made of the listed changes. False for eval: a failed eval is not undone, and an undeclared field in it makes all later lines fail (C51_eval_refuted)."
  },
  {
   "property": "C52",
   "status": "partial",
   "theorems": [
    "C52_detects_set",
    "C52_detects_dict",
    "C52_reports",
    "C52_no_false_alarm_set",
    "C52_no_false_alarm_dict",
    "C52_guard_clean",
    "C52_crash_refuted",
    "C52_later_refuted",
    "C52_list_refuted"
   ],
   "note": "Never succeeds on a self-containing structure, no false alarm otherwise, guard has no influence: proved for all heaps. False of the code: the failure may be a crash instead of the error (C52_crash_refuted), the element stays inserted and makes later operations crash (C52_later_refuted), lists that contain themselves overflow the stack (C52_list_refuted)."
  },
  {
   "property": "C53",
   "status": "proved",
   "theorems": [
    "C53_elementwise",
    "C53_broadcast"
   ],
   "note": ""
  },
  {
   "property": "C54",
   "status": "partial",
   "theorems": [
    "C54_reverse_enumerate_refuted",
    "C54_iterate",
    "C54_enumerate"
   ],
   "note": "Forward iteration proved for all; reverse iteration of an enumeration is false of the code."
  },
  {
   "property": "C55",
   "status": "proved",
   "theorems": [
    "C55_rational"
   ],
   "note": ""
  },
  {
   "property": "C56",
   "status": "partial",
   "theorems": [
    "C56_well_formed",
    "C56_no_crash_partial",
    "C56_no_crash_refuted"
   ],
   "note": "Well-formedness proved for all operators and values; no crash proved unless the left operand is the complex/rational corner case of C56_no_crash_refuted."
  },
  {
   "property": "C57",
   "status": "proved",
   "theorems": [
    "C57_in_range",
    "C57_in"
   ],
   "note": ""
  },
  {
   "property": "C58",
   "status": "partial",
   "theorems": [
    "C58_str_repeat",
    "C58_list_repeat_partial",
    "C58_list_repeat_refuted"
   ],
   "note": "Strings: all; lists: when n * len < 2^64, beyond which the element count wraps (C58_list_repeat_refuted)."
  },
  {
   "property": "C59",
   "status": "proved",
   "theorems": [
    "C59_max_min",
    "C59_max_min_bounds"
   ],
   "note": ""
  },
  {
   "property": "C60",
   "status": "proved",
   "theorems": [
    "C60_counter",
    "C60_collect",
    "C60_collect_error"
   ],
   "note": ""
  },
  {
   "property": "C61",
   "status": "partial",
   "theorems": [
    "C61_min_by",
    "C61_max_by",
    "C61_stops_at_error_refuted"
   ],
   "note": "Proved for key functions that do not fail; after a failing call the key function is still called on later elements (C61_stops_at_error_refuted)."
  },
  {
   "property": "C62",
   "status": "proved",
   "theorems": [
    "C62_gcd",
    "C62_arguments",
    "C62_lcm"
   ],
   "note": ""
  },
  {
   "property": "C63",
   "status": "partial",
   "theorems": [
    "C63_sqrt_int",
    "C63_sqrt_rational",
    "C63_rounding_refuted"
   ],
   "note": "Ints and squares of rationals: proved for all. For other rationals numerator and denominator are rounded separately, so the root may be exceeded (C63_rounding_refuted)."
  },
  {
   "property": "C64",
   "status": "partial",
   "theorems": [
    "C64_abs",
    "C64_abs_refuted",
    "C64_count",
    "C64_parts",
    "C64_parts_refuted"
   ],
   "note": "Proved for all values; two corner cases are false of the code: abs of the least int is itself (C64_abs_refuted), parts of complex numbers outside the int range wrap (C64_parts_refuted)."
  },
  {
   "property": "C65",
   "status": "proved",
   "theorems": [
    "C65_rational",
    "C65_parts",
    "C65_int",
    "C65_default"
   ],
   "note": ""
  },
  {
   "property": "C66",
   "status": "partial",
   "theorems": [
    "C66_types",
    "C66_native_refuted"
   ],
   "note": "Proved for structs and modules. False for native modules, which are all equal: the second one evaluates to the first (C66_native_refuted)."
  },
  {
   "property": "C67",
   "status": "partial",
   "theorems": [
    "C67_near",
    "C67_scoping_partial",
    "C67_unbound",
    "C67_blocks",
    "C67_declare",
    "C67_environment",
    "C67_refuted"
   ],
   "note": "False of the code for variables two or more functions up that an intermediate function has captured before (C67_refuted: the second use of such a variable is another variable, or an entry that does not exist). C67_near has no condition on the program: variables of the function, of the one directly around it, and globals. C67_scoping_partial: all others, in programs without such a repeated capture. Blocks, declarations and environments (C67_blocks, C67_declare, C67_environment) hold in general. Not modelled: self, modules, late bound globals."
  },
  {
   "property": "C68",
   "status": "proved",
   "theorems": [
    "C68_sound",
    "C68_complete",
    "C68_unambiguous",
    "C68_terminates",
    "C68_accepts",
    "C68_newlines",
    "C68_precedence",
    "C68_prefix",
    "C68_assignment",
    "C68_partial_operator_refuted",
    "C68_next_line_refuted"
   ],
   "note": "Function literals are one token, errors after the first are not modelled, assignment targets are not checked here. C68_partial_operator_refuted and C68_next_line_refuted do not contradict the statement; they refute two stronger readings: an operator with only a left operand is accepted only before ')'; a line starting with `max =` continues the one before."
  },
  {
   "property": "C69",
   "status": "partial",
   "theorems": [
    "C69_round_trip",
    "C69_deterministic",
    "C69_injective",
    "C69_str",
    "C69_quote_refuted",
    "C69_control_refuted",
    "C69_vector_refuted",
    "C69_dict_refuted",
    "C69_rational_refuted",
    "C69_range_refuted",
    "C69_complex_refuted"
   ],
   "note": "Proved end to end (printer, scanner, parser, literals) for all values in [readable]. False of the code for the others: strings with a single quote or control characters, vectors with fewer than two elements, empty dicts and ranges, rationals, heaps, complex numbers with a part out of the range of literals (C69_*_refuted). Structs and functions are printed but not read back; range and enumerate are taken not to be redefined."
  },
  {
   "property": "C70",
   "status": "partial",
   "theorems": [
    "C70_typeof",
    "C70_distinguishes",
    "C70_is_partial",
    "C70_own_partial",
    "C70_own_refuted",
    "C70_rejects"
   ],
   "note": "False of the code for ranges and enumerates (`x is typeof(x)` is a type error) and for field getters (it is false): C70_own_refuted. Everything else is proved for all values; the two theorems with suffix _partial leave out exactly these. Memoized functions are not values of this model."
  },
  {
   "property": "C71",
   "status": "proved",
   "theorems": [
    "C71_ends",
    "C71_only",
    "C71_tree",
    "C71_eval",
    "C71_itself"
   ],
   "note": "For every closed heap and every value in it. The time it takes can be exponential in the number of shared objects; not stated. Host stack depth is not modelled."
  },
  {
   "property": "C72",
   "status": "partial",
   "theorems": [
    "C72_line_partial",
    "C72_every_char",
    "C72_marks_partial",
    "C72_lines_partial",
    "C72_no_panic",
    "C72_unicode_refuted",
    "C72_end_refuted",
    "C72_join",
    "C72_trace",
    "C72_owner"
   ],
   "note": "False of the code for texts with non-ASCII characters (lines are found by counting bytes, places count characters): C72_unicode_refuted; and for places that end with the first character of a line (that line is not shown): C72_end_refuted. The partial theorems are for ASCII texts and for places that do not end so. No panic and the traces are proved in full. The texts of the errors are parameters."
  },
  {
   "property": "C73",
   "status": "proved",
   "theorems": [
    "C73_verdict",
    "C73_index",
    "C73_used",
    "C73_types",
    "C73_construct",
    "C73_module",
    "C73_read",
    "C73_write",
    "C73_modify",
    "C73_type",
    "C73_functions",
    "C73_others",
    "C73_no_panic"
   ],
   "note": "For all programs of declarations and uses of names; native modules are in C66. Functions are identified by the constant that is reserved for them; what they do when called is in C31-C32, C41. Names used without an explicit `self->` and u32 truncation are not modelled."
  },
  {
   "property": "C74",
   "status": "partial",
   "theorems": [
    "C74_text",
    "C74_painted",
    "C74_types",
    "C74_continuation_partial",
    "C74_continued_string_refuted",
    "C74_prefix_refuted",
    "C74_lines"
   ],
   "note": "The characters, the grammar and the colours of whole texts are proved in full. Continued lines: false of the code after a prefix which is not ASCII (the prefix is measured in bytes): C74_prefix_refuted, and for white space inside of a continued string: C74_continued_string_refuted; the partial theorem is for ASCII prefixes and says exactly what is shown then. The table of native names is a parameter."
  },
  {
   "property": "C75",
   "status": "partial",
   "theorems": [
    "C75_page",
    "C75_faithful",
    "C75_web_refuted"
   ],
   "note": "Proved for the HTML page. False of the code for the web terminal, which does not escape ampersands: C75_web_refuted. Reading HTML is specified for the tags and entities that are used."
  },
  {
   "property": "C76",
   "status": "proved",
   "theorems": [
    "C76_accepted",
    "C76_exact",
    "C76_unique",
    "C76_done",
    "C76_no_failure"
   ],
   "note": "Proved. Reading the file, printing and running are not part of it; --link arguments are split at the first '='."
  },
  {
   "property": "C77",
   "status": "partial",
   "theorems": [
    "C77_session_partial",
    "C77_deterministic",
    "C77_failure_partial",
    "C77_refuted"
   ],
   "note": "Partial: for lines outside the exceptions of LangCheck.v (C41), when the interpreter ends on each line; the printing of error reports is a parameter; the state after a failed line is described (code, variables, world), but what later lines do then is not, and does go wrong (C77_refuted). That the session has no other outcome than the interpreter's is by determinism (C41_no_other_outcome)."
  },
  {
   "property": "C78",
   "status": "partial",
   "theorems": [
    "C78_late_partial",
    "C78_late_last_partial",
    "C78_late_refuted_order",
    "C78_late_refuted_self",
    "C78_late_refuted_end"
   ],
   "note": "Partial: proved for blocks in which no two late references are adjacent and none is at the end of the block, when no method with self is declared later (loads, stores, functions, methods without self, fallbacks, errors; any number of references and declarations in any order). A block may also end with a late reference if it has no other one (C78_late_last_partial). False without each of the three (C78_late_refuted_order, _end, _self). One block of one function, complete before the declarations; patterns are left out."
  },
  {
   "property": "C79",
   "status": "partial",
   "theorems": [
    "C79_listing_partial",
    "C79_aligned",
    "C79_jump",
    "C79_names_refuted",
    "C79_number_refuted",
    "C79_assert_refuted"
   ],
   "note": "Partial: names are proved right for code without inserted opcodes, and wrong after a late-bound name (C79_names_refuted); the shown number is the last four digits (C79_number_refuted); assertions show a distance (C79_assert_refuted). The edits are removals and replacements at any place, which is what the passes of optimizer.rs consist of; the text of opcodes without variable and target, and the line of an instruction (SourceView::lineno, in Report.v), are parameters."
  },
  {
   "property": "C80",
   "status": "proved",
   "theorems": [
    "C80_lines",
    "C80_session",
    "C80_any_lines",
    "C80_pending",
    "C80_reader"
   ],
   "note": "For all compilers and machines (parameters), with the hypothesis that an aborted compilation leaves the machine as it was, which is C51 for the modelled one. Views added by eval() are part of the model; the line editor is not."
  }
 ]
}