{
 "claims": [
  {
   "property": "C01",
   "status": "partial",
   "theorems": [
    "C01_consume_exact",
    "C01_consume_fails",
    "C01_offset_counts_consumed",
    "C01_consume_exact_slice",
    "C01_huge_size_refuted",
    "C01_release_consume_partial"
   ],
   "note": "Exact for ByteParser and SliceParser (MemoParser via C03) for every size in debug builds and sizes <= isize::MAX in release builds; C01_consume_fails gives the exact failure and when it is a panic. The refuted theorem shows a release build wraps on larger sizes. C01_release_consume_partial: consume of every usize in release builds, exactly."
  },
  {
   "property": "C02",
   "status": "partial",
   "theorems": [
    "C02_byte_refines_stack",
    "C02_debug_exact",
    "C02_debug_exact_memo",
    "C02_open_panics_refuted",
    "C02_release_exact_partial"
   ],
   "note": "Release: equal histories. Debug: equal to the reference machine with overflow checks (C02_debug_exact), which panics where the plain machine only fails (refuted theorem: opening an impossible window panics). The reference machine dissolves a window whose closing fails, as the code does. C02_release_exact_partial: release builds and every usize, equal to the machine that computes positions modulo 2^64 (SpecWrap)."
  },
  {
   "property": "C03",
   "status": "partial",
   "theorems": [
    "C03_memo_equals_byte",
    "C03_memo_equals_byte_programs",
    "C03_release_exact_partial",
    "C03_release_granted_partial",
    "C03_release_refuted"
   ],
   "note": "All histories and all programs, including error values; sizes as in arg_fits. Debug builds: every usize; release builds: sizes up to isize::MAX. Beyond that the property is false (C03_release_refuted: MemoParser panics printing its log where ByteParser fails, F49); C03_release_exact_partial gives MemoParser exactly and C03_release_granted_partial has them equal until a call is refused."
  },
  {
   "property": "C04",
   "status": "partial",
   "theorems": [
    "C04_slice_agrees_with_byte",
    "C04_slice_refines_dropping_stack",
    "C04_slice_all_histories",
    "C04_slice_closed",
    "C04_unclean_close_refuted",
    "C04_debug_all_sizes",
    "C04_release_refuted"
   ],
   "note": "The property's own hypothesis is closes_clean; the refuted theorem shows it is needed. The exact behaviour of SliceParser otherwise is C04_slice_refines_dropping_stack. C04_slice_all_histories extends that to every history, C04_slice_closed to the parser whose base view has been closed. Debug builds: every usize (C04_debug_all_sizes); release builds: sizes up to isize::MAX, beyond that refuted (C04_release_refuted, F1)."
  },
  {
   "property": "C05",
   "status": "partial",
   "theorems": [
    "C05_set_fit_exact",
    "C05_window_protects",
    "C05_release_refuted"
   ],
   "note": "ByteParser (MemoParser via C03). Debug builds: every usize; release builds: sizes up to isize::MAX, beyond that a window wider than the rest is opened (C05_release_refuted, F49)."
  },
  {
   "property": "C06",
   "status": "partial",
   "theorems": [
    "C06_enforce_target_partial",
    "C06_failed_close_refuted"
   ],
   "note": "Success/failure characterised; the last sentence of the property is false of the code (refuted): a failed close removes the window."
  },
  {
   "property": "C07",
   "status": "partial",
   "theorems": [
    "C07_test_predicts_byte",
    "C07_test_predicts_memo",
    "C07_test_predicts_slice",
    "C07_slice_base_window_refuted"
   ],
   "note": "Byte and Memo exact; Slice predicts enforce_target but answers true with no window open (refuted)."
  },
  {
   "property": "C08",
   "status": "partial",
   "theorems": [
    "C08_byte_no_ub_partial",
    "C08_memo_no_ub_partial",
    "C08_slice_no_ub",
    "C08_release_huge_size_refuted",
    "C08_release_exactly_partial",
    "C08_release_memo_refuted"
   ],
   "note": "Debug builds and SliceParser: all sizes. Release builds: sizes <= isize::MAX; beyond that undefined behaviour (refuted). C08_release_exactly_partial: for every usize, the histories of ByteParser that read outside the buffer are exactly those with a consume whose position plus size wraps under the limit. A refused MemoParser may do so while printing (C08_release_memo_refuted)."
  },
  {
   "property": "C09",
   "status": "partial",
   "theorems": [
    "C09_cleanup_byte",
    "C09_cleanup_memo",
    "C09_cleanup_slice",
    "C09_empty_byte_partial",
    "C09_empty_memo_partial",
    "C09_empty_slice_partial",
    "C09_empty_with_window_refuted",
    "C09_slice_empty_refuted"
   ],
   "note": "Bytes, segments and length exact for all three parsers. 'Empty exactly when no byte is left' fails with a window open and for SliceParser (refuted); the C09_empty_* theorems say exactly when the leftover is reported empty."
  },
  {
   "property": "C10",
   "status": "partial",
   "theorems": [
    "C10_memo_log_partial",
    "C10_memo_log_exact",
    "C10_skip_exactly_refuted"
   ],
   "note": "C10_memo_log_exact describes the log of every history; it equals the bytes consumed only without skip_exactly (refuted otherwise)."
  },
  {
   "property": "C11",
   "status": "partial",
   "theorems": [
    "C11_skip_is_consume_byte",
    "C11_skip_is_consume_slice",
    "C11_skip_closed_slice",
    "C11_skip_dynamic_byte",
    "C11_skip_dynamic_memo",
    "C11_skip_dynamic_slice",
    "C11_release_refuted"
   ],
   "note": "skip and skip_exactly on each parser; skip_dynamic and process_prefix for every legal prefix (an illegal u30 prefix panics: C31_prefix_panics_refuted). Debug builds: every usize; release builds: sizes up to isize::MAX, beyond that refuted (C11_release_refuted, F1)."
  },
  {
   "property": "C12",
   "status": "proved",
   "theorems": [
    "C12_empty_entries_byte",
    "C12_empty_entries_memo",
    "C12_search_byte",
    "C12_search_memo",
    "C12_search_slice",
    "C12_empty_entries"
   ],
   "note": "All three parsers, every window, for entries of at least one byte; the empty entry is C12_empty_entries, C12_empty_entries_byte and C12_empty_entries_memo."
  },
  {
   "property": "C13",
   "status": "proved",
   "theorems": [
    "C13_encode",
    "C13_decode",
    "C13_every_bytes",
    "C13_too_short"
   ],
   "note": ""
  },
  {
   "property": "C14",
   "status": "proved",
   "theorems": [
    "C14_bool",
    "C14_bool_rejects",
    "C14_cstyle",
    "C14_cstyle_rejects",
    "C14_data",
    "C14_data_rejects",
    "C14_option_rejects"
   ],
   "note": "bool, cstyle!, data!, Option; every schema and every parser."
  },
  {
   "property": "C15",
   "status": "proved",
   "theorems": [
    "C15_decode_any_bounds",
    "C15_rejects_any_bounds",
    "C15_encode_any_bounds",
    "C15_senseless_panics",
    "C15_senseless_decode_panics",
    "C15_decode",
    "C15_rejects",
    "C15_encode"
   ],
   "note": "C15_decode_any_bounds, C15_rejects_any_bounds and C15_encode_any_bounds need nothing of MIN and MAX unless invalid_range_checking is on; with it, bounds outside the OCaml integers or in the wrong order panic (C15_senseless_panics)."
  },
  {
   "property": "C16",
   "status": "partial",
   "theorems": [
    "C16_try_from_i32_partial",
    "C16_try_from_i32_refuted",
    "C16_to_i32",
    "C16_value",
    "C16_try_from_partial",
    "C16_try_from_refuted",
    "C16_try_from_positive",
    "C16_try_from_invalid_refuted",
    "C16_narrow_refuted",
    "C16_into_partial",
    "C16_into_refuted",
    "C16_default_partial",
    "C16_default_refuted",
    "C16_try_from_i32_outcome",
    "C16_from_i32",
    "C16_underlying",
    "C16_try_from_outcome",
    "C16_numeric_unchecked",
    "C16_insane_bounds"
   ],
   "note": "try_from_i32/to_i32 exact (debug overflow refuted). TryFrom exact for MIN <= 0 and a backer that holds the range; for MIN > 0 characterised exactly (positive) and refuted, also for narrow backers. Default/min_val/max_val: MIN <= 0; refuted for MIN > 0."
  },
  {
   "property": "C17",
   "status": "proved",
   "theorems": [
    "C17_encode",
    "C17_round_trip",
    "C17_decode"
   ],
   "note": ""
  },
  {
   "property": "C18",
   "status": "proved",
   "theorems": [
    "C18_encode",
    "C18_round_trip",
    "C18_decode"
   ],
   "note": ""
  },
  {
   "property": "C19",
   "status": "partial",
   "theorems": [
    "C19_natural_partial",
    "C19_integer_partial",
    "C19_natural_refuted",
    "C19_integer_refuted",
    "C19_unterminated"
   ],
   "note": "The property is false of the code (refuted for both types); proved: what is accepted is exactly any marked byte string, the written form is the unique minimal one and a shortest one."
  },
  {
   "property": "C20",
   "status": "proved",
   "theorems": [
    "C20_extremes",
    "C20_extremes_wire",
    "C20_round_trip",
    "C20_every_bytes",
    "C20_ranged",
    "C20_not_nan",
    "C20_order",
    "C20_constructors",
    "C20_default"
   ],
   "note": ""
  },
  {
   "property": "C21",
   "status": "proved",
   "theorems": [
    "C21_round_trip",
    "C21_wire_format",
    "C21_prefix_type"
   ],
   "note": "All schemas of the embedding (every combinator, named/recursive types, cstyle and data enums), every valid value; loops_ok excludes repeating a type which writes no bytes, and disciplined asks each greedy part to be framed."
  },
  {
   "property": "C22",
   "status": "proved",
   "theorems": [
    "C22_exact",
    "C22_prefix_free",
    "C22_injective"
   ],
   "note": "For schemas of kind self-delimiting, any continuation."
  },
  {
   "property": "C23",
   "status": "proved",
   "theorems": [
    "C23_truncated"
   ],
   "note": "Failing includes the panic of debug builds on a window that does not fit (F2)."
  },
  {
   "property": "C24",
   "status": "proved",
   "theorems": [
    "C24_valid_only",
    "C24_parse_valid_only"
   ],
   "note": "What a decode or parse returns satisfies well_typed, for every schema, parser and build mode."
  },
  {
   "property": "C25",
   "status": "proved",
   "theorems": [
    "C25_accepted_bytes"
   ],
   "note": "Canonical schemas: without N, Z and String, and Padded only with check_padding on (C19, C40, C41 say what happens there)."
  },
  {
   "property": "C26",
   "status": "proved",
   "theorems": [
    "C26_count",
    "C26_same_bytes"
   ],
   "note": ""
  },
  {
   "property": "C27",
   "status": "proved",
   "theorems": [
    "C27_every_target",
    "C27_counter"
   ],
   "note": ""
  },
  {
   "property": "C28",
   "status": "partial",
   "theorems": [
    "C28_padded_estimable",
    "C28_estimate_partial",
    "C28_estimate_deficit",
    "C28_enc_len",
    "C28_estimate_refuted",
    "C28_override_refuted"
   ],
   "note": "Exact when N is not 0; for N = 0 the estimate is short by one byte (refuted), exact deficit given."
  },
  {
   "property": "C29",
   "status": "partial",
   "theorems": [
    "C29_override_refuted",
    "C29_encode",
    "C29_decode"
   ],
   "note": "Encoding and decoding, every prefix width, without enc_len_estimable_override. With it the prefix of a payload holding the natural number 0 is one too small (C29_override_refuted, F8); C51_override_wire_format gives the bytes written then."
  },
  {
   "property": "C30",
   "status": "partial",
   "theorems": [
    "C30_terminates_partial",
    "C30_answers_partial",
    "C30_sequence_exact_partial",
    "C30_stuck_never_answers",
    "C30_terminates_refuted"
   ],
   "note": "Linear bound, in every build and on every input (undefined behaviour included), for schemas whose Sequence elements consume input (bounded sequences of empty elements included); a Sequence answers exactly when no element takes nothing before the end of the input (C30_sequence_exact_partial), and otherwise never returns, so the property as stated is refuted."
  },
  {
   "property": "C31",
   "status": "partial",
   "theorems": [
    "C31_no_panic_partial",
    "C31_memory_safe_partial",
    "C31_debug_dynamic_refuted",
    "C31_vpadded_refuted",
    "C31_panics_exactly_partial",
    "C31_undefined_exactly_partial",
    "C31_answers_partial",
    "C31_prefix_panics_refuted"
   ],
   "note": "Exact: decoding panics in debug builds on exactly the inputs SpecPanic describes (a length prefix exceeding the whole input, or VPadded that does not fit, after a well-formed beginning) and in release builds on exactly the inputs SpecSpill describes (a VPadded that does not fit, whose contents begin with an N or Z; ByteParser and MemoParser only, F39); every other input is answered. Refuted as a blanket claim by F2 and F7; process_prefix and skip_dynamic panic on an illegal u30 prefix (refuted). In release builds the behaviour is undefined on exactly the inputs SpecSpill describes (a VPadded that does not fit, whose contents begin by taking everything left), for the ByteParser and the MemoParser only (C31_undefined_exactly_partial)."
  },
  {
   "property": "C32",
   "status": "partial",
   "theorems": [
    "C32_parse_same",
    "C32_decode_same_partial",
    "C32_slice_refuted",
    "C32_memo_identical_partial",
    "C32_parsers_agree_on_programs"
   ],
   "note": "parse: all three parsers, every schema. try_decode: with check_complete_parse the SliceParser accepts nothing (refuted, F21)."
  },
  {
   "property": "C33",
   "status": "partial",
   "theorems": [
    "C33_decoded_bounds_partial",
    "C33_underfull_refuted",
    "C33_histories",
    "C33_pushes",
    "C33_push_full"
   ],
   "note": "Proved: decoding bounds, push histories, every safe way of building. An under-full FixSeq encodes (refuted, F9)."
  },
  {
   "property": "C34",
   "status": "partial",
   "theorems": [
    "C34_lim_try_from",
    "C34_fix_try_from_vec",
    "C34_fix_try_from_slice_partial",
    "C34_fix_try_from_slice_refuted",
    "C34_collect_empty_partial",
    "C34_collect_too_long_partial",
    "C34_collect_refuted"
   ],
   "note": "False of the code: from_iter and extend lose every element that fits (F10, proved for every fused iterator), and FixSeq refuses short slices (F23). Proved: the TryFrom conversions, the refusal of too many, empty iterators."
  },
  {
   "property": "C35",
   "status": "proved",
   "theorems": [
    "C35_to_hex",
    "C35_round_trip",
    "C35_case_insensitive"
   ],
   "note": ""
  },
  {
   "property": "C36",
   "status": "partial",
   "theorems": [
    "C36_accepts_partial",
    "C36_odd",
    "C36_rejects_partial",
    "C36_accepts_exactly",
    "C36_refuses_exactly_partial",
    "C36_plus_refuted",
    "C36_panic_refuted"
   ],
   "note": "False of the code: a sign is accepted and a non-ASCII string can panic (F15); what is accepted is characterised exactly."
  },
  {
   "property": "C37",
   "status": "partial",
   "theorems": [
    "C37_true",
    "C37_false_partial",
    "C37_exactly_partial",
    "C37_panic_refuted"
   ],
   "note": "Proved: true exactly when from_hex gives the bytes; false otherwise for ASCII strings. Outside ASCII it can panic (F15)."
  },
  {
   "property": "C38",
   "status": "proved",
   "theorems": [
    "C38_lengths_add_up",
    "C38_concat_total",
    "C38_splitting_keeps_elements"
   ],
   "note": ""
  },
  {
   "property": "C39",
   "status": "proved",
   "theorems": [
    "C39_any_double_ended_iteration",
    "C39_forwards_backwards",
    "C39_collect_then_iterate",
    "C39_lengths_from_both_ends",
    "C39_segments_from_both_ends",
    "C39_unfreeze"
   ],
   "note": ""
  },
  {
   "property": "C40",
   "status": "proved",
   "theorems": [
    "C40_round_trip",
    "C40_lossy",
    "C40_lossy_exact",
    "C40_lossy_total"
   ],
   "note": "Lossy decoding is exact: the result is the input with maximal ill-formed subparts substituted by U+FFFD, as the Unicode standard recommends and the Rust documentation promises."
  },
  {
   "property": "C41",
   "status": "proved",
   "theorems": [
    "C41_padded_encode",
    "C41_padded_decode",
    "C41_vpadded_encode",
    "C41_vpadded_decode"
   ],
   "note": "Padded and VPadded, encoding and decoding, debug and release builds."
  },
  {
   "property": "C42",
   "status": "partial",
   "theorems": [
    "C42_check_on_partial",
    "C42_check_off",
    "C42_slice_refuted"
   ],
   "note": "ByteParser and MemoParser; SliceParser reports a spurious error (refuted)."
  },
  {
   "property": "C43",
   "status": "partial",
   "theorems": [
    "C43_fixed_length_partial",
    "C43_fixed_length_refuted"
   ],
   "note": "Types without under-full FixSeq (refuted there)."
  },
  {
   "property": "C44",
   "status": "partial",
   "theorems": [
    "C44_byte_iterator",
    "C44_memo_iterator",
    "C44_slice_iterator",
    "C44_release_refuted"
   ],
   "note": "All three parsers. Refuted in release builds for windows opened with a size beyond isize::MAX (C44_release_refuted, F49)."
  },
  {
   "property": "C45",
   "status": "partial",
   "theorems": [
    "C45_error_numbers_byte_partial",
    "C45_set_fit_fails_partial",
    "C45_error_numbers_slice",
    "C45_overflow_excess",
    "C45_overflow_asking",
    "C45_bytes_left_refuted",
    "C45_window_width_refuted"
   ],
   "note": "consume/skip/close errors exact; set_fit errors are described exactly too (C45_set_fit_fails_partial) and report wrong numbers on Byte/Memo (refuted)."
  },
  {
   "property": "C46",
   "status": "proved",
   "theorems": [
    "C46_restrict",
    "C46_restrict_float"
   ],
   "note": "With MIN > 0 the argument is the offset from MIN, as the documentation says."
  },
  {
   "property": "C47",
   "status": "partial",
   "theorems": [
    "C47_get_slice_debug",
    "C47_get_slice_partial",
    "C47_get_byte_partial",
    "C47_slice_buffer",
    "C47_get_byte_end_refuted",
    "C47_get_slice_wrap_refuted"
   ],
   "note": "get_byte at index = length and get_slice with a wrapping end are undefined behaviour (refuted)."
  },
  {
   "property": "C48",
   "status": "partial",
   "theorems": [
    "C48_constructors",
    "C48_try_from_array",
    "C48_from_array_refuted"
   ],
   "note": "All constructors that check; From<[u8; N]> of FixedString checks nothing (refuted)."
  },
  {
   "property": "C49",
   "status": "proved",
   "theorems": [
    "C49_strict_contents",
    "C49_memo_contents",
    "C49_promote",
    "C49_strict_hex",
    "C49_strict_bin",
    "C49_same_either_builder"
   ],
   "note": "StrictBuilder promote takes a StrictBuilder, hence the separate C49_promote; hex and bin of MemoBuilder follow by C49_same_either_builder."
  },
  {
   "property": "C50",
   "status": "partial",
   "theorems": [
    "C50_groups_kept",
    "C50_builder_display",
    "C50_display_unambiguous",
    "C50_splitvec_display",
    "C50_splitvec_debug",
    "C50_buffer_display_partial",
    "C50_buffer_display_refuted"
   ],
   "note": "Holds for MemoBuilder and SplitVec. Refuted for the Display of the finalized MemoBuffer, which prints a separator after every byte instead of every group (F17); the partial theorem says what it prints."
  },
  {
   "property": "C51",
   "status": "proved",
   "theorems": [
    "C51_options_only_restrict",
    "C51_profile_irrelevant",
    "C51_panics_are_rejections",
    "C51_panics_are_errors",
    "C51_encoding_same",
    "C51_override_wire_format",
    "C51_override_same",
    "C51_override_round_trip"
   ],
   "note": "With enc_len_estimable_override the encoding differs exactly for values with a zero N inside a Dynamic (F8): C51_override_wire_format gives the bytes, C51_override_same the exact condition."
  },
  {
   "property": "C52",
   "status": "partial",
   "theorems": [
    "C52_valid_tags",
    "C52_try_from_inverse",
    "C52_names",
    "C52_no_name",
    "C52_decode_is_try_from",
    "C52_data_refuses",
    "C52_option_refuses",
    "C52_encoding_starts_with_tag",
    "C52_duplicate_discriminant_refuted"
   ],
   "note": "Needs distinct discriminants: cstyle! enforces this at compile time, data! does not (F26, C52_duplicate_discriminant_refuted)."
  },
  {
   "property": "C53",
   "status": "proved",
   "theorems": [
    "C53_errors_justified",
    "C53_take_tagword",
    "C53_take_tagword_sound"
   ],
   "note": "The numbers in window errors (offset, limit) are the subject of C45."
  },
  {
   "property": "C54",
   "status": "proved",
   "theorems": [
    "C54_take_is_decode",
    "C54_take_value",
    "C54_take_short",
    "C54_take_f64"
   ],
   "note": "take_f64 and take_bool are the decoders of f64 and bool literally."
  },
  {
   "property": "C55",
   "status": "partial",
   "theorems": [
    "C55_same_as_bytes",
    "C55_conversion_error",
    "C55_text_exact_partial",
    "C55_unit_partial",
    "C55_unit_refuted",
    "C55_decode",
    "C55_decode_memo",
    "C55_round_trip",
    "C55_hex_text",
    "C55_hex_macro",
    "C55_text_panics_refuted"
   ],
   "note": "Exact for every input; with implicit_hexstring a text outside ASCII can panic in try_decode (refuted, F15), and without check_complete_parse () is decoded from any text, hexadecimal or not (C55_unit_partial, C55_unit_refuted, F42)."
  },
  {
   "property": "C56",
   "status": "proved",
   "theorems": [
    "C56_constructors",
    "C56_decoding",
    "C56_into_vec",
    "C56_huge_bound_differs"
   ],
   "note": "Bounds up to u32::MAX; beyond that ArrayVec panics where Vec does not (C56_huge_bound_differs)."
  },
  {
   "property": "C57",
   "status": "proved",
   "theorems": [
    "C57_widening_exact",
    "C57_accepted",
    "C57_accepted_any_bounds",
    "C57_nan_refused",
    "C57_get_validated"
   ],
   "note": "Exact for all patterns and bounds."
  },
  {
   "property": "C58",
   "status": "proved",
   "theorems": [
    "C58_bad_payload_panics",
    "C58_length_prefix",
    "C58_prefix_written",
    "C58_refused_panics"
   ],
   "note": "Exact; the agreement with the encoder also holds with enc_len_estimable_override."
  },
  {
   "property": "C59",
   "status": "proved",
   "theorems": [
    "C59_natural",
    "C59_integer",
    "C59_targets",
    "C59_round_trip"
   ],
   "note": "num-bigint's own conversion is taken from its documentation."
  },
  {
   "property": "C60",
   "status": "proved",
   "theorems": [
    "C60_exactly_the_grammar",
    "C60_try_decode",
    "C60_unambiguous",
    "C60_encoded",
    "C60_outside_rejected"
   ],
   "note": "Full equivalence between parsing and an inductive grammar, in both directions, for every type, configuration and parser; try_decode, unambiguity, encoded bytes and refusal outside the grammar follow. The refusal theorem assumes what C30 and F7 require for decoding to end inside its input."
  },
  {
   "property": "C61",
   "status": "partial",
   "theorems": [
    "C61_no_strings_partial",
    "C61_strings_partial",
    "C61_stable",
    "C61_strings_refuted"
   ],
   "note": "True without strings, and with strings while every length prefix can hold three times the input. Refuted in general (F20): lossy decoding lengthens strings, and the result may no longer fit the length prefix it was read from, so that encoding panics."
  },
  {
   "property": "C62",
   "status": "proved",
   "theorems": [
    "C62_decode",
    "C62_reads",
    "C62_encode",
    "C62_bytes",
    "C62_round_trip",
    "C62_known",
    "C62_unknown",
    "C62_applies"
   ],
   "note": "The macros are functions from declarations to emitted code, the code is given a meaning, and the meaning is shown equal to the struct codec of which C21-C32 speak."
  },
  {
   "property": "C63",
   "status": "partial",
   "theorems": [
    "C63_fixed_length_partial",
    "C63_fixed_length_refuted"
   ],
   "note": "Holds for unit structs, empty tuple structs and structs with named fields; for a tuple struct with fields the emitted code is malformed (finding F24)."
  },
  {
   "property": "C64",
   "status": "proved",
   "theorems": [
    "C64_proportional",
    "C64_certificate",
    "C64_read",
    "C64_no_common_multiple"
   ],
   "note": "For terminating declarations (the hypothesis of C30). Weight counts nodes and payload bytes of the value, not allocator overhead or spare capacity. C64_no_common_multiple shows that the constant must depend on the type."
  },
  {
   "property": "C65",
   "status": "proved",
   "theorems": [
    "C65_numbers",
    "C65_bytes",
    "C65_tag",
    "C65_unambiguous",
    "C65_tag_unambiguous",
    "C65_tag_expected",
    "C65_hex"
   ],
   "note": "Messages of all errors whose text is written by this library; the texts of foreign errors (Utf8Error, boxed errors, f64 numerals) are parameters. Tag errors display neither tag width nor the list of valid tags, so their unambiguity is about discriminant and type name (C65_tag_unambiguous). F29: discriminants are printed two digits short of the full width."
  },
  {
   "property": "C66",
   "status": "proved",
   "theorems": [
    "C66_zarith",
    "C66_zarith_unambiguous",
    "C66_debug",
    "C66_ranged",
    "C66_ranged_case"
   ],
   "note": "BigUint/BigInt decimal display is modelled from its documentation by repeated division; padding and alternate flags of the formatter are not modelled."
  },
  {
   "property": "C67",
   "status": "proved",
   "theorems": [
    "C67_make",
    "C67_make_only",
    "C67_history",
    "C67_history_panics",
    "C67_text",
    "C67_text_back",
    "C67_append",
    "C67_debug",
    "C67_order",
    "C67_order_text",
    "C67_equal",
    "C67_equal_text"
   ],
   "note": "Vec's own behaviour (extend, write, indexing, Ord by memcmp then length) is from its documentation. as_mut_vec is any function on the vector. Texts with a plus sign are accepted loosely: C36/C37."
  },
  {
   "property": "C68",
   "status": "proved",
   "theorems": [
    "C68_order",
    "C68_equality",
    "C68_agree",
    "C68_dual",
    "C68_transitive",
    "C68_equal_substitutes",
    "C68_total",
    "C68_float"
   ],
   "note": "val_cmp/val_eq model the derived and hand-written instances; less/same are the independent order. The contract theorems (agree, dual, transitive, equal_substitutes) need no hypothesis at all."
  },
  {
   "property": "C69",
   "status": "partial",
   "theorems": [
    "C69_identity_partial",
    "C69_encoding_partial",
    "C69_reflexive_partial",
    "C69_floats_partial",
    "C69_encoding_floats_partial",
    "C69_refuted"
   ],
   "note": "Proved where no floating-point number occurs, and with them characterised exactly: == ignores the signs of zeros and rejects NaN, and ignores nothing else; encodings tell all values apart. Refuted for f64 and RangedFloat: 0.0 == -0.0 although encoded differently, and a decoded NaN is not equal to the one encoded (F31)."
  },
  {
   "property": "C70",
   "status": "partial",
   "theorems": [
    "C70_check_partial",
    "C70_check_either",
    "C70_main",
    "C70_main_refuted"
   ],
   "note": "Proved as an equivalence under implicit_hexstring for every type; a value holding NaN never passes. Without that feature (the default) the text is decoded as raw bytes and main panics at its first assertion (F30)."
  },
  {
   "property": "C71",
   "status": "partial",
   "theorems": [
    "C71_contents",
    "C71_bytes_not_empty",
    "C71_empty_partial",
    "C71_empty_refuted",
    "C71_append_drains_partial",
    "C71_append_drains_refuted"
   ],
   "note": "Contents, length and segments proved for every history. is_empty answers false for a leftover with windows but no bytes (F14), and append to an Empty leftover copies and leaves the vector as it was (F32): both refuted, with the exact conditions proved as partial theorems."
  },
  {
   "property": "C72",
   "status": "proved",
   "theorems": [
    "C72_display",
    "C72_debug",
    "C72_display_tells",
    "C72_debug_tells",
    "C72_span_texts_tell",
    "C72_leftover_text",
    "C72_leftover_tells",
    "C72_equal",
    "C72_leftover_equal"
   ],
   "note": "Debug of SplitVec<T> is modelled at T = u8. Segments that print alike need not compare equal: the last may be open in one and closed in the other."
  },
  {
   "property": "C73",
   "status": "proved",
   "theorems": [
    "C73_equal_hash_alike",
    "C73_unequal_differ",
    "C73_prefix_free",
    "C73_wrappers"
   ],
   "note": "Proved for all types without floats (f64 and RangedFloat have no Hash). Hashing is modelled as the byte string fed to the hasher on a 64-bit little-endian machine; the hasher itself is outside."
  },
  {
   "property": "C74",
   "status": "partial",
   "theorems": [
    "C74_display",
    "C74_unambiguous_partial",
    "C74_unambiguous_refuted",
    "C74_fixed_string",
    "C74_valid_utf8",
    "C74_fixed_bytes",
    "C74_dynamic_debug",
    "C74_dynamic_debug_refuted"
   ],
   "note": "Partial: fixed strings that are not UTF-8 can print alike although they differ (C74_unambiguous_refuted), and with enc_len_estimable_override a Dynamic's Debug can give a wrong length (C74_dynamic_debug_refuted). f64's text and the Debug text of the payload are parameters."
  },
  {
   "property": "C75",
   "status": "proved",
   "theorems": [
    "C75_proportional",
    "C75_certificate",
    "C75_no_common_multiple",
    "C75_endless"
   ],
   "note": "Every outcome (value, error, panic, undefined behaviour) and any fuel is covered, without assuming that padding keeps its windows: C75_proportional; the constants are checkable by computation: C75_certificate. That K must depend on the type and that loops_ok is needed is shown by C75_no_common_multiple and C75_endless. The unit of work is one parser call or one byte handed out; allocation is C64's."
  },
  {
   "property": "C76",
   "status": "partial",
   "theorems": [
    "C76_same_encoding",
    "C76_proportional_partial",
    "C76_bound",
    "C76_at_least",
    "C76_refuted",
    "C76_override_bound",
    "C76_override_refuted"
   ],
   "note": "Proved for types that nest Dynamics to a fixed depth (C76_proportional_partial, with a computable certificate). Refuted for types that recur through Dynamic: the default enc_len writes the contents to a sink, so each nested Dynamic is written twice, and n of them take at least 2^n (C76_refuted: a message of 5n+1 bytes that decodes in linear time). The exponent is exactly the depth (C76_bound, C76_at_least). With enc_len_estimable_override the depth is a factor (C76_override_bound) and the worst case quadratic (C76_override_refuted). C76_same_encoding says the metered encoder is the modelled encoder."
  },
  {
   "property": "C77",
   "status": "proved",
   "theorems": [
    "C77_new_reader",
    "C77_old_reader",
    "C77_values",
    "C77_encoding"
   ],
   "note": "All three directions proved. C77_positive_min and C77_fix_to_lim show why the relation leaves out a lowered positive MIN and FixSeq to LimSeq."
  },
  {
   "property": "C78",
   "status": "proved",
   "theorems": [
    "C78_exactly_the_grammar",
    "C78_whole_grammar",
    "C78_as_the_library",
    "C78_refuses",
    "C78_stack",
    "C78_slice",
    "C78_byte"
   ],
   "note": "Proved for every handler keeping the contract of SpecCustom. In release builds VPadded of positive width is left out of the direction from reading to the grammar and of refusals (F7: its window size wraps and the call is outside the contract)."
  },
  {
   "property": "C79",
   "status": "proved",
   "theorems": [
    "C79_no_lookahead",
    "C79_cut",
    "C79_stream",
    "C79_split"
   ],
   "note": "Proved for all accepted bytes, not only for encodings as in C22 and C23. C79_looks_ahead shows a type that is not self-delimiting (FixSeq<(), 1>) and depends on whether anything follows."
  },
  {
   "property": "C80",
   "status": "proved",
   "theorems": [
    "C80_ends",
    "C80_raised",
    "C80_texts",
    "C80_slice_not_quoted",
    "C80_decoding",
    "C80_repeats"
   ],
   "note": "Proved. C80_slice_not_quoted: InternalError::SliceCoerceFailure does not quote its cause, but decoding never reports it (C53). C80_repeats is finding F36."
  },
  {
   "property": "C81",
   "status": "proved",
   "theorems": [
    "C81_byte",
    "C81_memo",
    "C81_slice",
    "C81_leftover",
    "C81_window_left_open"
   ],
   "note": "All three parsers. The additional windows of a failed decoder stay open (F37, C81_window_left_open). Release builds: types without VPadded (F7)."
  },
  {
   "property": "C82",
   "status": "partial",
   "theorems": [
    "C82_frames",
    "C82_more_frames",
    "C82_not_recursive_partial",
    "C82_linear_partial",
    "C82_value_needs",
    "C82_value_exact",
    "C82_deep_input_refuted"
   ],
   "note": "C82_frames: counting frames changes no answer. Types not defined in terms of themselves need a number of frames fixed by the type (C82_not_recursive_partial); the others at most a number proportional to the input (C82_linear_partial). A value takes exactly as many frames as it has levels (C82_value_exact, C82_value_needs), so for a type that contains itself no number is enough: a chain of 0xff bytes as long as the number overruns it (C82_deep_input_refuted, F38). Partial because of that. Frames are counted, not their size in bytes; encoding is counted in C88, dropping nested values is not counted."
  },
  {
   "property": "C83",
   "status": "proved",
   "theorems": [
    "C83_same_decoder",
    "C83_proportional",
    "C83_certificate",
    "C83_only_the_value",
    "C83_slots_up_front",
    "C83_slots_kept"
   ],
   "note": "C83_same_decoder: the program whose reservations are counted gives the answers of the decoder. C83_proportional and, with constants to be checked by computation, C83_certificate bound the most ever reserved; C83_only_the_value says what is left at the end. C83_slots_up_front and C83_slots_kept say what bounded sequences reserve beyond their input (F40). Not counted: the input itself, error values, the storage of big numbers (C64 bounds it), the parser's own stacks."
  },
  {
   "property": "C84",
   "status": "proved",
   "theorems": [
    "C84_same_bytes",
    "C84_encode",
    "C84_same_calls",
    "C84_library"
   ],
   "note": "C84_same_bytes and C84_encode for targets that keep what they get; C84_same_calls for targets of any kind that return the documented counts; C84_library: the library's own targets keep the contract. Complete."
  },
  {
   "property": "C85",
   "status": "proved",
   "theorems": [
    "C85_round_trip",
    "C85_prefix",
    "C85_option",
    "C85_nullable",
    "C85_sequence",
    "C85_lim",
    "C85_fix",
    "C85_dynamic",
    "C85_vpadded",
    "C85_padded",
    "C85_box",
    "C85_struct",
    "C85_enum",
    "C85_library",
    "C85_same_wrappers",
    "C85_string"
   ],
   "note": "One theorem per wrapper: C85_option, C85_nullable, C85_sequence, C85_lim, C85_fix, C85_dynamic, C85_vpadded, C85_padded, C85_box, C85_struct, C85_enum; C85_round_trip and C85_prefix say what an implementation gives; C85_library: the types of the closed model are such implementations; C85_same_wrappers: the wrappers of the two models are the same programs; C85_string: a type of our own. Elements of sequences have to know where they end and must not be empty, as in C05. Complete."
  },
  {
   "property": "C86",
   "status": "proved",
   "theorems": [
    "C86_decode",
    "C86_decode_fails",
    "C86_decode_library",
    "C86_dynamic",
    "C86_option",
    "C86_nullable",
    "C86_sequence",
    "C86_lim",
    "C86_fix",
    "C86_vpadded",
    "C86_padded",
    "C86_box",
    "C86_struct",
    "C86_enum",
    "C86_tidy_wrappers",
    "C86_tidy_struct",
    "C86_tidy_enum",
    "C86_tidy_library",
    "C86_tidy_ops",
    "C86_tidy_bind",
    "C86_tidy_window",
    "C86_tidy_string"
   ],
   "note": "One equivalence per wrapper: C86_dynamic (a length prefix confines every decoder), C86_option, C86_nullable, C86_sequence, C86_lim, C86_fix, C86_vpadded, C86_padded, C86_box, C86_struct, C86_enum; C86_decode for try_decode; C86_tidy_*: the wrappers, the types of the library and decoders put together from the parser's methods keep to the rules. C86_case_thief shows the rules are needed. VPadded on inputs shorter than its padding is excluded (F7); so is SliceParser under complete-parse, which always refuses (F21). Complete."
  },
  {
   "property": "C87",
   "status": "proved",
   "theorems": [
    "C87_to_bytes",
    "C87_to_bytes_full",
    "C87_write_to_vec",
    "C87_encode",
    "C87_miscount"
   ],
   "note": "C87_to_bytes, C87_to_bytes_full, C87_write_to_vec and C87_encode: equal to the trait's methods for all types, so the other theorems about to_bytes and encode hold of these calls; C87_miscount: exactly when the debug assertion of Vec<u8> fails. Complete."
  },
  {
   "property": "C88",
   "status": "proved",
   "theorems": [
    "C88_enough",
    "C88_to_bytes",
    "C88_lengths",
    "C88_same_answer",
    "C88_needs",
    "C88_decoded",
    "C88_more_than_decoding"
   ],
   "note": "C88_enough, C88_to_bytes, C88_lengths: two frames for each level are enough for any target and both ways of computing lengths; C88_same_answer: counting changes no answer; C88_needs: a frame for each level is needed; C88_decoded: twice the frames decoding took are enough, and C88_more_than_decoding (F43): those decoding took are not. Frames are counted, not their size in bytes; dropping values is not counted. Complete."
  },
  {
   "property": "C89",
   "status": "partial",
   "theorems": [
    "C89_byte_parser",
    "C89_memo_parser",
    "C89_slice_parser_partial",
    "C89_frames",
    "C89_slice_frames",
    "C89_slice_test_refuted",
    "C89_slice_nothing_refuted",
    "C89_release_refuted"
   ],
   "note": "C89_byte_parser, C89_memo_parser: all seven laws in every reachable state, for every usize in debug builds and every size up to isize::MAX in release builds. C89_slice_parser_partial: the laws about reading while its last frame is open, those about windows while one is. Missing because false: SliceParser without a window of the caller's (C89_slice_test_refuted, F4), after its last frame was closed (C89_slice_nothing_refuted), release builds and sizes beyond isize::MAX (C89_release_refuted, F1). Items 2c and 7a of the README's list are misprints (F45); the laws follow the trait's documentation there. C89_frames: the frames of ByteParser and MemoParser are sorted and lie between the offset and the end; C89_slice_frames: those of SliceParser make up the end of the input."
  },
  {
   "property": "C90",
   "status": "proved",
   "theorems": [
    "C90_no_other_answer",
    "C90_enough",
    "C90_proportional",
    "C90_slots_up_front"
   ],
   "note": "The program of C83 with an allocator that can refuse. C90_no_other_answer for any allocator; C90_enough from the peak use of C83; C90_proportional with C83's multiple; C90_slots_up_front is F46."
  },
  {
   "property": "C91",
   "status": "proved",
   "theorems": [
    "C91_same_bytes",
    "C91_announcements",
    "C91_room",
    "C91_full_allocates_once",
    "C91_growth",
    "C91_dynamic_allocates_once"
   ],
   "note": "Vec<u8> with capacity and number of allocations as a target (growth as in the standard library). C91_announcements is about the calls any target receives; the others follow. C91_override_reallocates shows that the condition on zeros is needed (F8)."
  },
  {
   "property": "C92",
   "status": "proved",
   "theorems": [
    "C92_decode",
    "C92_encode",
    "C92_one_to_one",
    "C92_plain_decode",
    "C92_plain_decode_back",
    "C92_plain_encode",
    "C92_bytes_are_a_sequence",
    "C92_boxes_are_invisible"
   ],
   "note": "Through the grammar (C60) and the wire format (C21). plain (SpecPlain) is the schema with the differences removed. That an input is refused is shared as well; which error it is refused with may differ."
  },
  {
   "property": "C93",
   "status": "proved",
   "theorems": [
    "C93_written",
    "C93_taken",
    "C93_taken_extra",
    "C93_written_bytes",
    "C93_taken_bytes",
    "C93_merges",
    "C93_alike"
   ],
   "note": "C93_written gives the spans and the text of the builder, C93_taken and C93_taken_extra the log of the parser. C93_merges: the groups as written are joined groups as read; C93_alike: they are equal without Some, N and Z. The tag of Some that shares its group is F47."
  },
  {
   "property": "C94",
   "status": "proved",
   "theorems": [
    "C94_unchanged_byte",
    "C94_unchanged_memo",
    "C94_history_byte",
    "C94_history_memo",
    "C94_slice_quiet",
    "C94_byte",
    "C94_memo",
    "C94_slice",
    "C94_leftover",
    "C94_unchanged_all_sizes_byte",
    "C94_unchanged_all_sizes_memo"
   ],
   "note": "Panic inside a method: state unchanged (C94_unchanged_*), histories that carry on (C94_history_*). Panic inside a decoder: C94_byte, C94_memo, C94_slice, C94_leftover. SliceParser's methods never panic (C94_slice_quiet); its decoders can (C94_slice_case). C94_unchanged_all_sizes_byte and _memo: a method that panics changes nothing, for every usize in release builds too."
  },
  {
   "property": "C95",
   "status": "proved",
   "theorems": [
    "C95_same",
    "C95_exact",
    "C95_library",
    "C95_written",
    "C95_whole",
    "C95_dangling_with_override"
   ],
   "note": "ModelInterrupt is write_to once more, keeping the target's state on a panic; C95_same proves it the same function. C95_exact and C95_library give the bytes, C95_written that they are the beginning of the format. C95_whole needs the default features: C95_dangling_with_override is F48."
  },
  {
   "property": "C96",
   "status": "partial",
   "theorems": [
    "C96_exact",
    "C96_round_trip_partial",
    "C96_never_decoded",
    "C96_unique",
    "C96_exists",
    "C96_zero",
    "C96_fixseq_refuted",
    "C96_ranged_refuted"
   ],
   "note": "C96_exact says for which types the default is a value: FixSeq<T, N> with N > 0 (its default is empty) and RangedInt with MIN > 0 (MIN is stored as if it were the distance from MIN) break it (F50, C96_fixseq_refuted, C96_ranged_refuted). C96_never_decoded: a broken default is a value no input decodes to. Not modelled: the allocation of N elements by the defaults of LimSeq and FixSeq without arrayvec. C96_exists: which types have a default at all; C96_zero: where 0 is in range its encoding is all zeros."
  },
  {
   "property": "C97",
   "status": "proved",
   "theorems": [
    "C97_written",
    "C97_in_order",
    "C97_open_end",
    "C97_broken_off",
    "C97_unambiguous",
    "C97_restart",
    "C97_envelope"
   ],
   "note": "C97_written (any target of C84), C97_in_order, C97_open_end, C97_broken_off (in debug builds it may end in the panic F2 instead of an error), C97_unambiguous, C97_restart (all types and inputs; without VPadded in release builds, F7), C97_envelope."
  },
  {
   "property": "C98",
   "status": "partial",
   "theorems": [
    "C98_text_partial",
    "C98_text_unique",
    "C98_panics_refuted",
    "C98_encodable_prints",
    "C98_unambiguous_partial",
    "C98_delimited_partial",
    "C98_unambiguous_refuted"
   ],
   "note": "C98_text_partial (the text; panics exactly if the contents of a Dynamic cannot be encoded, F51), C98_text_unique, C98_encodable_prints (every configuration), C98_unambiguous_partial and C98_delimited_partial (every configuration; no NaN). Fails: C98_panics_refuted, C98_unambiguous_refuted (NaNs print alike)."
  },
  {
   "property": "C99",
   "status": "proved",
   "theorems": [
    "C99_order",
    "C99_composite",
    "C99_hex",
    "C99_exclusions"
   ],
   "note": "C99_order, C99_composite (bytes may follow), C99_hex; C99_exclusions: a pair in the wrong order, or with equal encodings, for each kind of type left out. sorted (SpecSort) lists the types."
  },
  {
   "property": "C100",
   "status": "proved",
   "theorems": [
    "C100_read",
    "C100_replace",
    "C100_contained",
    "C100_window",
    "C100_field_place",
    "C100_element_place"
   ],
   "note": "C100_read, C100_replace, C100_contained, C100_window, C100_field_place, C100_element_place. spot (SpecPatch) says where a part lies; overwrite writes bytes over others. C100_unfixed: a part without fixed length is not contained."
  },
  {
   "property": "C101",
   "status": "proved",
   "theorems": [
    "C101_encoding",
    "C101_reading",
    "C101_decoding",
    "C101_met"
   ],
   "note": "C101_encoding, C101_reading, C101_decoding, C101_met. least, most, sized, reached in SpecExtent."
  },
  {
   "property": "C102",
   "status": "proved",
   "theorems": [
    "C102_text",
    "C102_part_texts",
    "C102_unambiguous",
    "C102_parts_unambiguous",
    "C102_printable",
    "C102_decode",
    "C102_panic"
   ],
   "note": "C102_text, C102_part_texts, C102_unambiguous, C102_parts_unambiguous, C102_printable, C102_decode, C102_panic. Floats other than NaN; the texts of FromUtf8Error and of a boxed foreign error are given."
  },
  {
   "property": "C103",
   "status": "partial",
   "theorems": [
    "C103_memo_partial",
    "C103_memo_constant_partial",
    "C103_memo_refuted",
    "C103_unit_partial"
   ],
   "note": "C103_memo_partial: it panics and names the type. C103_memo_constant_partial: the rest of the message does not depend on the error, C103_memo_refuted: two inputs decode tells apart and decode_memo does not. C103_unit_partial: for () it says ParseError, which the error never is. Finding F52."
  },
  {
   "property": "C104",
   "status": "proved",
   "theorems": [
    "C104_final",
    "C104_final_byte",
    "C104_wait",
    "C104_final_slice",
    "C104_wait_slice",
    "C104_no_better"
   ],
   "note": "C104_final, C104_final_byte, C104_wait (ByteParser, MemoParser), C104_final_slice, C104_wait_slice (SliceParser), C104_no_better. may_be_short and slice_may_be_short in SpecFinal. pads_ok excludes VPadded of positive width in release builds of the MemoParser (F7)."
  },
  {
   "property": "C105",
   "status": "proved",
   "theorems": [
    "C105_text",
    "C105_unambiguous",
    "C105_resume",
    "C105_builder",
    "C105_builder_tells",
    "C105_buffer",
    "C105_buffer_tells",
    "C105_index"
   ],
   "note": "C105_text, C105_unambiguous, C105_resume, C105_builder, C105_builder_tells, C105_buffer, C105_buffer_tells, C105_index."
  },
  {
   "property": "C106",
   "status": "proved",
   "theorems": [
    "C106_window_byte",
    "C106_window_memo",
    "C106_window_slice",
    "C106_payload_error",
    "C106_payload_value",
    "C106_payload_trailing",
    "C106_payload_slice",
    "C106_payload_reads",
    "C106_payload_residue",
    "C106_payload_only",
    "C106_reserved_error",
    "C106_reserved_slice"
   ],
   "note": "C106_window_byte, C106_window_memo, C106_window_slice, C106_payload_error, C106_payload_value, C106_payload_trailing, C106_payload_slice, C106_payload_reads, C106_payload_residue, C106_payload_only (payload_read shows its hypotheses met), C106_reserved_error, C106_reserved_slice."
  }
 ]
}