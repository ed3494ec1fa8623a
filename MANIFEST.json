{
 "claims": [
  {
   "property": "C01",
   "status": "proved",
   "theorems": [
    "C01_combinators_restore_the_cursor",
    "C01_failed_match_keeps_cursor"
   ],
   "note": ""
  },
  {
   "property": "C02",
   "status": "proved",
   "theorems": [
    "C02_span_is_what_was_consumed",
    "C02_span_ends_at_cursor",
    "C02_span_inside",
    "C02_failure_inside"
   ],
   "note": ""
  },
  {
   "property": "C03",
   "status": "proved",
   "theorems": [
    "C03_boundaries",
    "C03_boundary_is_char_boundary",
    "C03_consume_refuted"
   ],
   "note": "C03_consume_refuted: the byte-counting consume(n) is the exception and is shown to violate the property; every other pattern is covered."
  },
  {
   "property": "C04",
   "status": "proved",
   "theorems": [
    "C04_no_panic",
    "C04_no_panic_policy",
    "C04_no_panic_any",
    "C04_longest_refuted",
    "C04_ltm_refuted"
   ],
   "note": "C04_no_panic_any covers policies and skip = false. The stated exceptions do panic: C04_longest_refuted, C04_ltm_refuted."
  },
  {
   "property": "C05",
   "status": "proved",
   "theorems": [
    "C05_sound",
    "C05_complete",
    "C05_spec_deterministic",
    "C05_policy_sound",
    "C05_policy_complete"
   ],
   "note": ""
  },
  {
   "property": "C06",
   "status": "proved",
   "theorems": [
    "C06_deterministic",
    "C06_ctor_deterministic",
    "C06_more_steps",
    "C06_ctor_more_steps",
    "C06_text_unchanged"
   ],
   "note": ""
  },
  {
   "property": "C07",
   "status": "proved",
   "theorems": [
    "C07_or",
    "C07_or_err",
    "C07_or_first",
    "C07_or_second",
    "C07_choice",
    "C07_choice_err",
    "C07_pair_choice",
    "C07_ctor_or_first",
    "C07_ctor_or_second",
    "C07_ctor_choice",
    "C07_ctor_pair_choice"
   ],
   "note": ""
  },
  {
   "property": "C08",
   "status": "proved",
   "theorems": [
    "C08_then",
    "C08_then_err",
    "C08_prefix",
    "C08_prefix_err",
    "C08_suffix",
    "C08_suffix_err",
    "C08_enclose",
    "C08_enclose_err",
    "C08_sep_once",
    "C08_sep_once_err",
    "C08_ctor_then",
    "C08_ctor_prefix",
    "C08_ctor_suffix",
    "C08_ctor_enclose",
    "C08_ctor_sep_once"
   ],
   "note": ""
  },
  {
   "property": "C09",
   "status": "proved",
   "theorems": [
    "C09_many0",
    "C09_many0_never_fails",
    "C09_many1",
    "C09_many1_err",
    "C09_once",
    "C09_once_err",
    "C09_opt",
    "C09_opt_never_fails",
    "C09_run_exists",
    "C09_run_unique"
   ],
   "note": ""
  },
  {
   "property": "C10",
   "status": "proved",
   "theorems": [
    "C10_between",
    "C10_between_err",
    "C10_times",
    "C10_times_err",
    "C10_then",
    "C10_then_err"
   ],
   "note": ""
  },
  {
   "property": "C11",
   "status": "proved",
   "theorems": [
    "C11_peek",
    "C11_peek_err",
    "C11_any_pattern",
    "C11_try_assert",
    "C11_is_mat"
   ],
   "note": ""
  },
  {
   "property": "C12",
   "status": "proved",
   "theorems": [
    "C12_empty",
    "C12_fail",
    "C12_start",
    "C12_end",
    "C12_consume",
    "C12_consume_err",
    "C12_consume_all"
   ],
   "note": ""
  },
  {
   "property": "C13",
   "status": "proved",
   "theorems": [
    "C13_literal",
    "C13_literal_err",
    "C13_bytes",
    "C13_span"
   ],
   "note": ""
  },
  {
   "property": "C14",
   "status": "partial",
   "theorems": [
    "C14_longest_partial",
    "C14_longest_err_partial",
    "C14_ctor",
    "C14_longest_refuted"
   ],
   "note": "Constructing mode in full (C14_ctor). Matching mode for parsers whose span starts at the cursor (C14_longest_partial); for others (a dynamic parser) it is false: the cursor is moved by the length of the span, not to its end (C14_longest_refuted), and the next parser can panic (C04_longest_refuted)."
  },
  {
   "property": "C15",
   "status": "partial",
   "theorems": [
    "C15_span_partial",
    "C15_span_exists",
    "C15_none",
    "C15_last_partial",
    "C15_refuted",
    "C15_pairs",
    "C15_ctor_value_partial",
    "C15_ctor_none",
    "C15_ctor_pair_value_partial",
    "C15_ctor_pair_none",
    "C15_ctor_refuted",
    "C15_ctor_empty_refuted"
   ],
   "note": "False of the code: C15_refuted, C15_ctor_refuted, C15_ctor_empty_refuted give inputs where the cursor is not at the end of the longest match. Proved: which span or value is returned, in both modes, what happens when nothing matches, and the full claim when the longest alternative is the last one. Missing: the cursor position in general, because it is wrong."
  },
  {
   "property": "C16",
   "status": "proved",
   "theorems": [
    "C16_sep",
    "C16_sep_err",
    "C16_sep_collect",
    "C16_sep_collect_err",
    "C16_noskip",
    "C16_noskip_err",
    "C16_collect_noskip",
    "C16_collect_noskip_err",
    "C16_ctor",
    "C16_noskip_refuted"
   ],
   "note": "With skip = false the cursor ends behind an uncounted last element (C16_noskip states it; C16_noskip_refuted shows that the cursor need not be at the end of the span)."
  },
  {
   "property": "C17",
   "status": "partial",
   "theorems": [
    "C17_repeat2_partial",
    "C17_sep2_partial",
    "C17_array",
    "C17_repeat2_overflow",
    "C17_sep2_overflow",
    "C17_repeat2_refuted",
    "C17_sep2_refuted",
    "C17_repeat2_agree_partial",
    "C17_sep2_agree_partial"
   ],
   "note": "False of the code: with N + 1 elements construction panics (C17_*_overflow, C17_*_refuted) and sep2 accepts N + 1 elements when matching. Proved for at most N elements."
  },
  {
   "property": "C18",
   "status": "proved",
   "theorems": [
    "C18_build_then_match",
    "C18_match_then_build",
    "C18_policies"
   ],
   "note": ""
  },
  {
   "property": "C19",
   "status": "partial",
   "theorems": [
    "C19_ctor",
    "C19_refuted",
    "C19_agree_partial",
    "C19_noskip"
   ],
   "note": "False of the code (C19_refuted). Proved: the exact behaviour (C19_ctor), agreement when no element matches directly after the list, agreement for skip = false."
  },
  {
   "property": "C20",
   "status": "proved",
   "theorems": [
    "C20_tree",
    "C20_policies",
    "C20_lossless"
   ],
   "note": ""
  },
  {
   "property": "C21",
   "status": "proved",
   "theorems": [
    "C21_calls",
    "C21_spy",
    "C21_in_order"
   ],
   "note": ""
  },
  {
   "property": "C22",
   "status": "proved",
   "theorems": [
    "C22_map",
    "C22_map_err",
    "C22_enclosing_restores",
    "C22_bare_map_refuted",
    "C22_repeat_refuted"
   ],
   "note": "The refuted theorems are the last clause of the property (a bare map does not backtrack) and a consequence of it."
  },
  {
   "property": "C23",
   "status": "proved",
   "theorems": [
    "C23_matching_terminates",
    "C23_checked_terminates",
    "C23_construction_terminates"
   ],
   "note": ""
  },
  {
   "property": "C24",
   "status": "proved",
   "theorems": [
    "C24_repeat",
    "C24_collect",
    "C24_sep",
    "C24_sep_collect",
    "C24_repeat_later",
    "C24_collect_later",
    "C24_ctor_repeat",
    "C24_ctor_collect",
    "C24_ctor_sep",
    "C24_ctor_sep_collect",
    "C24_policies"
   ],
   "note": ""
  },
  {
   "property": "C25",
   "status": "partial",
   "theorems": [
    "C25_find",
    "C25_find_none",
    "C25_find_cases",
    "C25_find_all",
    "C25_find_all_spans",
    "C25_find_all_ends",
    "C25_find_all_ordered",
    "C25_find_all_complete",
    "C25_exhausted",
    "C25_find_any_context",
    "C25_find_all_any_context",
    "C25_find_items",
    "C25_find_items_none",
    "C25_find_all_items",
    "C25_inside_character_refuted",
    "C25_longest_container_refuted",
    "C25_policy_overrun_refuted"
   ],
   "note": "Proved for every pattern that keeps to character boundaries (looks: no consume, consume_all, user closures) and, by offset, for every pattern. False of the code in three corners: C25_inside_character_refuted (byte-counting parsers match inside a character), C25_longest_container_refuted (find_all over a longest-match container repeats one match for ever), C25_policy_overrun_refuted (under a skipping policy the cursor may end past the end)."
  },
  {
   "property": "C26",
   "status": "proved",
   "theorems": [
    "C26_match_seq",
    "C26_match_seq_ends",
    "C26_contiguous",
    "C26_match_seq_items",
    "C26_items_end",
    "C26_match_seq_any_context"
   ],
   "note": ""
  },
  {
   "property": "C27",
   "status": "proved",
   "theorems": [
    "C27_policy_then_parser",
    "C27_leaf",
    "C27_span",
    "C27_skip_run",
    "C27_whitespace",
    "C27_then",
    "C27_policy_fails",
    "C27_combinator_span_refuted"
   ],
   "note": "C27_combinator_span_refuted: for repetitions the cursor may end after text skipped before the attempt that ended the loop; the property is about leaves."
  },
  {
   "property": "C28",
   "status": "partial",
   "theorems": [
    "C28_failure_after_skip_partial",
    "C28_restored_if_nothing_skipped_partial",
    "C28_try_mat_policy_partial",
    "C28_try_mat_refuted",
    "C28_try_mat_policy_refuted"
   ],
   "note": "False of the code: C28_try_mat_refuted and C28_try_mat_policy_refuted. Proved: the failing match leaves the cursor exactly after the skipped text, and restores it if nothing was skipped."
  },
  {
   "property": "C29",
   "status": "proved",
   "theorems": [
    "C29_units"
   ],
   "note": ""
  },
  {
   "property": "C30",
   "status": "proved",
   "theorems": [
    "C30_builder",
    "C30_builder_first",
    "C30_builder_closure",
    "C30_dynamic_then",
    "C30_dynamic_then_first",
    "C30_dynamic_then_closure"
   ],
   "note": ""
  },
  {
   "property": "C31",
   "status": "proved",
   "theorems": [
    "C31_min_length_sound",
    "C31_bytes",
    "C31_rejects",
    "C31_never_rejects_a_match",
    "C31_complement_refuted",
    "C31_once_count_refuted"
   ],
   "note": "The refuted theorems show where min_length over-estimates (complements, Once counts)."
  },
  {
   "property": "C32",
   "status": "proved",
   "theorems": [
    "C32_once_count",
    "C32_many0_at_least",
    "C32_many1_at_least",
    "C32_opt_at_most",
    "C32_between_times",
    "C32_at_least_times"
   ],
   "note": ""
  },
  {
   "property": "C33",
   "status": "proved",
   "theorems": [
    "C33_defined",
    "C33_smallest_cover",
    "C33_associative",
    "C33_in_order",
    "C33_associative_refuted"
   ],
   "note": "Associativity is proved whenever both groupings are defined; C33_associative_refuted shows one grouping can panic where the other does not, and C33_in_order proves both are defined for spans in order."
  },
  {
   "property": "C34",
   "status": "proved",
   "theorems": [
    "C34_history",
    "C34_since_clear",
    "C34_cases",
    "C34_new_with",
    "C34_capacity",
    "C34_add_span",
    "C34_try_cap",
    "C34_failed_try_cap",
    "C34_try_cap_only",
    "C34_slice",
    "C34_is_empty",
    "C34_never_emptied"
   ],
   "note": ""
  },
  {
   "property": "C35",
   "status": "proved",
   "theorems": [
    "C35_last_write",
    "C35_wiped",
    "C35_untouched",
    "C35_cases",
    "C35_contain",
    "C35_spans",
    "C35_dimensions",
    "C35_try_cap",
    "C35_try_cap_runs",
    "C35_new_with",
    "C35_slice",
    "C35_captured_text",
    "C35_row",
    "C35_is_empty"
   ],
   "note": ""
  },
  {
   "property": "C36",
   "status": "proved",
   "theorems": [
    "C36_vec_spans",
    "C36_vec_slices",
    "C36_vec_all_slices",
    "C36_captured_texts",
    "C36_slicing",
    "C36_slice_bytes",
    "C36_slice_defined",
    "C36_array_spans",
    "C36_array_slices",
    "C36_unique",
    "C36_hole_refuted",
    "C36_bad_range_refuted"
   ],
   "note": "C36_hole_refuted: the array iterators hide spans behind an empty slot (the last clause of the property). C36_bad_range_refuted: a slice iterator also hides spans behind one that is not a range of the text."
  },
  {
   "property": "C37",
   "status": "partial",
   "theorems": [
    "C37_slices_partial",
    "C37_array_slices_partial",
    "C37_exhausted_refuted",
    "C37_array_exhausted_refuted",
    "C37_loops_exhaust",
    "C37_hole_refuted",
    "C37_bytes"
   ],
   "note": "False of the code: size_hint panics once an iterator is exhausted (C37_exhausted_refuted, C37_array_exhausted_refuted, and C37_loops_exhaust: every full loop gets there) and over-estimates with holes (C37_hole_refuted). Proved: exact before exhaustion, and for the byte iterator at every point."
  },
  {
   "property": "C38",
   "status": "proved",
   "theorems": [
    "C38_le",
    "C38_be",
    "C38_unique",
    "C38_ne",
    "C38_short",
    "C38_le_encode",
    "C38_be_encode",
    "C38_parser",
    "C38_parser_short",
    "C38_types"
   ],
   "note": "f32/f64 decoders are modelled as their bit patterns only."
  },
  {
   "property": "C39",
   "status": "proved",
   "theorems": [
    "C39_bounded",
    "C39_bounded_err",
    "C39_bounded_partial_order",
    "C39_bounded_error_refuted",
    "C39_select",
    "C39_select_eq",
    "C39_with_default",
    "C39_with_default_parser",
    "C39_fixed_size",
    "C39_try_into",
    "C39_ranges",
    "C39_closures"
   ],
   "note": "C39_bounded_error_refuted: out-of-range values are reported as SelectEq; the Bounded error variant is never produced."
  },
  {
   "property": "C40",
   "status": "proved",
   "theorems": [
    "C40_history",
    "C40_accepts",
    "C40_poisoned",
    "C40_carries",
    "C40_default_rejects",
    "C40_clone_continues",
    "C40_clone_fresh_refuted",
    "C40_many1",
    "C40_many0",
    "C40_run_unique",
    "C40_dead",
    "C40_once",
    "C40_each_match_refuted",
    "C40_failure_kills_refuted",
    "C40_stateless"
   ],
   "note": "Matching is proved for once/many1/many0 without a condition. C40_each_match_refuted, C40_failure_kills_refuted and C40_clone_fresh_refuted show what a user might expect and does not get (no reset)."
  },
  {
   "property": "C41",
   "status": "proved",
   "theorems": [
    "C41_call",
    "C41_serial",
    "C41_bounded",
    "C41_no_underflow",
    "C41_prefix_first",
    "C41_accepted",
    "C41_alive",
    "C41_wait_free",
    "C41_lost_update_refuted",
    "C41_counter_up_refuted",
    "C41_revived_refuted"
   ],
   "note": "Interleavings are sequentially consistent; further reorderings of Relaxed accesses are not modelled. The three _refuted theorems are schedules that violate the single-threaded contract, among them the lost update."
  },
  {
   "property": "C42",
   "status": "proved",
   "theorems": [
    "C42_fixpoint_match",
    "C42_fixpoint_build",
    "C42_brackets",
    "C42_brackets_whole",
    "C42_any_depth"
   ],
   "note": ""
  },
  {
   "property": "C43",
   "status": "proved",
   "theorems": [
    "C43_branch",
    "C43_branch_err",
    "C43_any_pattern",
    "C43_test_error",
    "C43_ctor",
    "C43_ctor_test_error"
   ],
   "note": ""
  },
  {
   "property": "C44",
   "status": "proved",
   "theorems": [
    "C44_if_then",
    "C44_if_then_err",
    "C44_ctor_no",
    "C44_ctor_yes",
    "C44_ctor_err"
   ],
   "note": ""
  },
  {
   "property": "C45",
   "status": "proved",
   "theorems": [
    "C45_once",
    "C45_once_err",
    "C45_opt",
    "C45_many0",
    "C45_many0_err",
    "C45_many1",
    "C45_many1_err",
    "C45_between",
    "C45_times",
    "C45_opt_err",
    "C45_between_err",
    "C45_times_err",
    "C45_then",
    "C45_then_err"
   ],
   "note": ""
  },
  {
   "property": "C46",
   "status": "proved",
   "theorems": [
    "C46_match",
    "C46_whole",
    "C46_converse_refuted"
   ],
   "note": "For parsers without cursor-moving closures, including recursive ones (context-free reading). The converse inclusion is false: C46_converse_refuted."
  },
  {
   "property": "C47",
   "status": "proved",
   "theorems": [
    "C47_repeat",
    "C47_repeat_err",
    "C47_collect",
    "C47_collect_err",
    "C47_ctor_repeat",
    "C47_ctor_collect"
   ],
   "note": ""
  },
  {
   "property": "C48",
   "status": "proved",
   "theorems": [
    "C48_wrappers",
    "C48_wrappers_ctor",
    "C48_pat",
    "C48_pat_ctor",
    "C48_pat_ctor_err",
    "C48_map",
    "C48_leaf",
    "C48_none",
    "C48_none_ctor"
   ],
   "note": ""
  },
  {
   "property": "C49",
   "status": "proved",
   "theorems": [
    "C49_never_fails",
    "C49_never_fails_ctor",
    "C49_any_pattern",
    "C49_any_pattern_ctor",
    "C49_option"
   ],
   "note": ""
  },
  {
   "property": "C50",
   "status": "partial",
   "theorems": [
    "C50_orig_str",
    "C50_orig_bytes",
    "C50_orig_bytes_refuted",
    "C50_orig_sub",
    "C50_orig_sub_ok",
    "C50_peek",
    "C50_clone",
    "C50_history",
    "C50_history_defined"
   ],
   "note": "False of the code in one case: on byte contexts orig_at/peek_at/clone_at past the end panic (arithmetic underflow in len - offset) instead of returning OutOfBound (C50_orig_bytes_refuted). Everything else is proved."
  },
  {
   "property": "C51",
   "status": "proved",
   "theorems": [
    "C51_same_or_stuck",
    "C51_same_or_stuck_build",
    "C51_no_reentry",
    "C51_no_reentry_build",
    "C51_never_nested",
    "C51_never_nested_build",
    "C51_nested_stuck",
    "C51_reentry_stuck",
    "C51_nested_refuted"
   ],
   "note": "The model renders locking a mutex held by the current thread as Panic (std: deadlock or panic). C51_nested_refuted shows a balanced text the synchronized grammar never answers."
  },
  {
   "property": "C52",
   "status": "proved",
   "theorems": [
    "C52_match",
    "C52_ctor",
    "C52_handler",
    "C52_start_refuted"
   ],
   "note": "C52_start_refuted: the start anchor is the one exception named in the property."
  },
  {
   "property": "C53",
   "status": "proved",
   "theorems": [
    "C53_from_str_radix",
    "C53_from_str",
    "C53_unique",
    "C53_number_parser",
    "C53_number_parser_err"
   ],
   "note": "std's integer parsing is modelled digit by digit with its overflow checks."
  },
  {
   "property": "C54",
   "status": "proved",
   "theorems": [
    "C54_lossy",
    "C54_lossy_total",
    "C54_lossy_exact",
    "C54_lossy_marks",
    "C54_from_utf8",
    "C54_otherwise",
    "C54_unique",
    "C54_parser"
   ],
   "note": "std's validating decoder is modelled after the Unicode table of well-formed sequences, the lossy decoder after core::str::lossy."
  },
  {
   "property": "C55",
   "status": "proved",
   "theorems": [
    "C55_total",
    "C55_complete",
    "C55_sound",
    "C55_unique",
    "C55_prefix_free",
    "C55_json_refuted",
    "C55_lenient_refuted"
   ],
   "note": "The example's own notation is the specification (Json.v). f64 parsing is an arbitrary function. Deviations from RFC 8259 are shown by C55_json_refuted and C55_lenient_refuted."
  },
  {
   "property": "C56",
   "status": "proved",
   "theorems": [
    "C56_round_trip",
    "C56_truncated",
    "C56_damaged",
    "C56_not_png",
    "C56_total",
    "C56_sound",
    "C56_label_refuted"
   ],
   "note": "C56_label_refuted: the critical/ancillary labels printed by the example are swapped."
  },
  {
   "property": "C57",
   "status": "proved",
   "theorems": [
    "C57_division",
    "C57_bits",
    "C57_table",
    "C57_burst",
    "C57_four_bytes",
    "C57_detected"
   ],
   "note": ""
  },
  {
   "property": "C58",
   "status": "proved",
   "theorems": [
    "C58_body",
    "C58_total",
    "C58_never_fails",
    "C58_unique",
    "C58_stop",
    "C58_quoted"
   ],
   "note": ""
  },
  {
   "property": "C59",
   "status": "proved",
   "theorems": [
    "C59_class",
    "C59_regex",
    "C59_regex_err",
    "C59_spellings",
    "C59_honest"
   ],
   "note": "Macro calls are represented by their parsed tokens; charize! is the identity. neu!() with no argument names a function that does not exist (neu::space) and is not modelled."
  },
  {
   "property": "C60",
   "status": "proved",
   "theorems": [
    "C60_map_handler",
    "C60_map_handler_err",
    "C60_map",
    "C60_map_span",
    "C60_map_err",
    "C60_map_is_ctor",
    "C60_ctor",
    "C60_before",
    "C60_after",
    "C60_after_refuted"
   ],
   "note": "C60_after_refuted: an error of the step after the match leaves the cursor moved."
  },
  {
   "property": "C61",
   "status": "partial",
   "theorems": [
    "C61_skip_ws",
    "C61_skip_ws_err",
    "C61_leading",
    "C61_leading_err",
    "C61_run",
    "C61_skip_ws_value",
    "C61_leading_value",
    "C61_projections",
    "C61_then",
    "C61_map_to",
    "C61_map_map",
    "C61_if_else",
    "C61_not",
    "C61_or_and",
    "C61_not_unit",
    "C61_count",
    "C61_times",
    "C61_times_empty",
    "C61_times_refuted",
    "C61_times_never"
   ],
   "note": "False in one point: times(..0) is not refused although the range is empty (C61_times_refuted); C61_times_empty shows it is the only such range and C61_times_never that such a pattern always fails. map_to is modelled by its two fields. The rest is proved."
  },
  {
   "property": "C62",
   "status": "proved",
   "theorems": [
    "C62_times_cond",
    "C62_between_cond",
    "C62_many_cond",
    "C62_one_cond",
    "C62_cond_error",
    "C62_length_check",
    "C62_prefix_asked",
    "C62_answers",
    "C62_times",
    "C62_between",
    "C62_precheck",
    "C62_many",
    "C62_one",
    "C62_number",
    "C62_number_refuted"
   ],
   "note": "C62_number_refuted: the documented number unit accepts more than the three notations (0o7x1F whole), because an operand of or that was not asked is still waiting for its prefix. The theorems with suffix _cond cover conditions set by set_cond."
  },
  {
   "property": "C63",
   "status": "proved",
   "theorems": [
    "C63_exchange",
    "C63_exchange_building",
    "C63_try_mat",
    "C63_exchange_cells",
    "C63_exchange_cells_building"
   ],
   "note": ""
  },
  {
   "property": "C64",
   "status": "proved",
   "theorems": [
    "C64_equivalence",
    "C64_steady",
    "C64_or_assoc",
    "C64_or_idem",
    "C64_or_fail",
    "C64_choice_or",
    "C64_longest_assoc",
    "C64_longest_idem",
    "C64_then_assoc",
    "C64_then_assoc_building",
    "C64_then_empty",
    "C64_then_fail",
    "C64_sequences",
    "C64_prefix_suffix",
    "C64_if_then",
    "C64_literal",
    "C64_factor",
    "C64_option",
    "C64_lookahead",
    "C64_collect_repeat",
    "C64_repeat_unroll",
    "C64_map_map",
    "C64_or_assoc_refuted"
   ],
   "note": "Where sequences are compared the parts must be steady (C64_steady gives the class). C64_or_assoc_refuted: the laws are about plain contexts; under a policy or is not associative."
  },
  {
   "property": "C65",
   "status": "proved",
   "theorems": [
    "C65_unique",
    "C65_email",
    "C65_refuses",
    "C65_capture",
    "C65_capture_refuses",
    "C65_modes",
    "C65_in_regex",
    "C65_from_regex",
    "C65_regex_refuted"
   ],
   "note": ""
  },
  {
   "property": "C66",
   "status": "proved",
   "theorems": [
    "C66_color",
    "C66_color_err",
    "C66_color_unique",
    "C66_color_bytes",
    "C66_color_round_trip",
    "C66_lower_case_refuted",
    "C66_year",
    "C66_year_err"
   ],
   "note": ""
  },
  {
   "property": "C67",
   "status": "proved",
   "theorems": [
    "C67_report",
    "C67_truncated",
    "C67_not_png",
    "C67_all",
    "C67_total",
    "C67_agrees",
    "C67_bit5",
    "C67_bit5_refuted"
   ],
   "note": ""
  },
  {
   "property": "C68",
   "status": "proved",
   "theorems": [
    "C68_uses",
    "C68_uses_cursor",
    "C68_uses_err",
    "C68_total",
    "C68_written",
    "C68_one_letter_refuted",
    "C68_glued_refuted"
   ],
   "note": ""
  },
  {
   "property": "C69",
   "status": "proved",
   "theorems": [
    "C69_fields",
    "C69_cursor",
    "C69_err",
    "C69_total",
    "C69_written",
    "C69_pub_prefix_refuted",
    "C69_short_type_refuted"
   ],
   "note": ""
  },
  {
   "property": "C70",
   "status": "proved",
   "theorems": [
    "C70_every_handler",
    "C70_built",
    "C70_failed",
    "C70_policies_built",
    "C70_policies_failed",
    "C70_panicked",
    "C70_outcomes",
    "C70_deterministic",
    "C70_policies_deterministic",
    "C70_returns",
    "C70_no_panic",
    "C70_rejected_alternative",
    "C70_rejected_element_swallowed",
    "C70_option_keeps_state"
   ],
   "note": ""
  },
  {
   "property": "C71",
   "status": "proved",
   "theorems": [
    "C71_matching",
    "C71_constructing",
    "C71_matching_in_text",
    "C71_constructing_in_text",
    "C71_counts",
    "C71_option",
    "C71_second",
    "C71_assertion"
   ],
   "note": ""
  },
  {
   "property": "C72",
   "status": "proved",
   "theorems": [
    "C72_distinct",
    "C72_user_defined",
    "C72_visible"
   ],
   "note": ""
  },
  {
   "property": "C73",
   "status": "proved",
   "theorems": [
    "C73_matching",
    "C73_skipping",
    "C73_pieces",
    "C73_constructing",
    "C73_constructing_skipping",
    "C73_decoding_handler",
    "C73_single_wide_unit_differs"
   ],
   "note": ""
  },
  {
   "property": "C74",
   "status": "proved",
   "theorems": [
    "C74_value",
    "C74_no_panic",
    "C74_returned",
    "C74_extractors",
    "C74_select",
    "C74_same_type",
    "C74_with_default",
    "C74_with_default_ok",
    "C74_decoders",
    "C74_numbers",
    "C74_from_utf8",
    "C74_mapped"
   ],
   "note": ""
  },
  {
   "property": "C75",
   "status": "proved",
   "theorems": [
    "C75_total",
    "C75_accepts",
    "C75_rejects",
    "C75_borrowed",
    "C75_not_more",
    "C75_string"
   ],
   "note": "The decoding of numerals (str::parse::<f64>) is a parameter; it never fails on a numeral."
  },
  {
   "property": "C76",
   "status": "proved",
   "theorems": [
    "C76_brackets_total",
    "C76_brackets_accept",
    "C76_brackets_reject",
    "C76_brackets_unambiguous",
    "C76_xml_total",
    "C76_xml_reads",
    "C76_xml_fails",
    "C76_xml_round_trip",
    "C76_xml_unambiguous",
    "C76_xml_mismatch",
    "C76_xml_empty_name"
   ],
   "note": ""
  },
  {
   "property": "C77",
   "status": "proved",
   "theorems": [
    "C77_bounded",
    "C77_prefix_first",
    "C77_flag",
    "C77_alive",
    "C77_accepted",
    "C77_serial",
    "C77_interleavings",
    "C77_stale_refuted"
   ],
   "note": ""
  },
  {
   "property": "C78",
   "status": "proved",
   "theorems": [
    "C78_find_unit",
    "C78_position",
    "C78_find_unit_none",
    "C78_find_run",
    "C78_all_units",
    "C78_all_runs",
    "C78_find_text",
    "C78_find_text_none",
    "C78_occurrence",
    "C78_match_indices",
    "C78_empty_text"
   ],
   "note": ""
  },
  {
   "property": "C79",
   "status": "proved",
   "theorems": [
    "C79_match",
    "C79_whole",
    "C79_reject",
    "C79_unambiguous"
   ],
   "note": ""
  },
  {
   "property": "C80",
   "status": "proved",
   "theorems": [
    "C80_serial",
    "C80_exclusive",
    "C80_poison",
    "C80_one_panic",
    "C80_progress",
    "C80_bounded",
    "C80_alone"
   ],
   "note": ""
  },
  {
   "property": "C81",
   "status": "proved",
   "theorems": [
    "C81_match",
    "C81_any_policy",
    "C81_whole",
    "C81_reject",
    "C81_words",
    "C81_blank_token_refuted"
   ],
   "note": ""
  },
  {
   "property": "C82",
   "status": "proved",
   "theorems": [
    "C82_match",
    "C82_build",
    "C82_counts",
    "C82_classes",
    "C82_char",
    "C82_wrap",
    "C82_equivalence",
    "C82_off_text_refuted",
    "C82_exchange",
    "C82_bench_json",
    "C82_bench_json_language",
    "C82_policies",
    "C82_policies_counts"
   ],
   "note": ""
  },
  {
   "property": "C83",
   "status": "proved",
   "theorems": [
    "C83_build",
    "C83_sound",
    "C83_whole",
    "C83_values",
    "C83_reject",
    "C83_calculator"
   ],
   "note": ""
  },
  {
   "property": "C84",
   "status": "proved",
   "theorems": [
    "C84_sound",
    "C84_whole",
    "C84_values",
    "C84_reject",
    "C84_calculator",
    "C84_pattern_refuted"
   ],
   "note": ""
  },
  {
   "property": "C85",
   "status": "proved",
   "theorems": [
    "C85_no_deadlock",
    "C85_finite",
    "C85_alone",
    "C85_answers",
    "C85_released",
    "C85_locks",
    "C85_cycle_refuted"
   ],
   "note": ""
  },
  {
   "property": "C86",
   "status": "proved",
   "theorems": [
    "C86_in_order",
    "C86_build",
    "C86_log",
    "C86_leaves",
    "C86_whole",
    "C86_twice_refuted",
    "C86_given_up_refuted",
    "C86_absent_refuted"
   ],
   "note": ""
  },
  {
   "property": "C87",
   "status": "proved",
   "theorems": [
    "C87_counted",
    "C87_linear",
    "C87_whole",
    "C87_exponential_refuted",
    "C87_polynomial",
    "C87_quadratic",
    "C87_covers"
   ],
   "note": ""
  },
  {
   "property": "C88",
   "status": "proved",
   "theorems": [
    "C88_counted",
    "C88_flat",
    "C88_linear",
    "C88_reached",
    "C88_exact"
   ],
   "note": ""
  },
  {
   "property": "C89",
   "status": "proved",
   "theorems": [
    "C89_counted",
    "C89_seen",
    "C89_seen_skipping",
    "C89_grows",
    "C89_window",
    "C89_place",
    "C89_place_refuted",
    "C89_next",
    "C89_next_refuted"
   ],
   "note": ""
  },
  {
   "property": "C90",
   "status": "proved",
   "theorems": [
    "C90_counted",
    "C90_flat",
    "C90_linear",
    "C90_reached",
    "C90_polynomial",
    "C90_polynomial_refuted",
    "C90_exact",
    "C90_covers"
   ],
   "note": ""
  },
  {
   "property": "C91",
   "status": "proved",
   "theorems": [
    "C91_counted",
    "C91_seen",
    "C91_seen_skipping",
    "C91_grows",
    "C91_window",
    "C91_place",
    "C91_place_refuted",
    "C91_seen_refuted"
   ],
   "note": ""
  },
  {
   "property": "C92",
   "status": "proved",
   "theorems": [
    "C92_answers",
    "C92_panics",
    "C92_poison",
    "C92_exclusive",
    "C92_progress",
    "C92_bounded",
    "C92_plain",
    "C92_order",
    "C92_complete",
    "C92_poison_refuted"
   ],
   "note": ""
  }
 ]
}
