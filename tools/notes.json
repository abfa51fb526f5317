{
 "C01": {
  "status": "partial",
  "note": "Exact for ByteParser and SliceParser (MemoParser via C03) for every size in debug builds and sizes <= isize::MAX in release builds; C01_consume_fails gives the exact failure and when it is a panic. The refuted theorem shows a release build wraps on larger sizes. C01_release_consume_partial: consume of every usize in release builds, exactly."
 },
 "C02": {
  "status": "partial",
  "note": "Release: equal histories. Debug: equal to the reference machine with overflow checks (C02_debug_exact), which panics where the plain machine only fails (refuted theorem: opening an impossible window panics). The reference machine dissolves a window whose closing fails, as the code does. C02_release_exact_partial: release builds and every usize, equal to the machine that computes positions modulo 2^64 (SpecWrap)."
 },
 "C03": {
  "note": "All histories and all programs, including error values; sizes as in arg_fits. Debug builds: every usize; release builds: sizes up to isize::MAX. Beyond that the property is false (C03_release_refuted: MemoParser panics printing its log where ByteParser fails, F49); C03_release_exact_partial gives MemoParser exactly and C03_release_granted_partial has them equal until a call is refused."
 },
 "C04": {
  "note": "The property's own hypothesis is closes_clean; the refuted theorem shows it is needed. The exact behaviour of SliceParser otherwise is C04_slice_refines_dropping_stack. C04_slice_all_histories extends that to every history, C04_slice_closed to the parser whose base view has been closed. Debug builds: every usize (C04_debug_all_sizes); release builds: sizes up to isize::MAX, beyond that refuted (C04_release_refuted, F1)."
 },
 "C05": {
  "note": "ByteParser (MemoParser via C03). Debug builds: every usize; release builds: sizes up to isize::MAX, beyond that a window wider than the rest is opened (C05_release_refuted, F49)."
 },
 "C06": {
  "note": "Success/failure characterised; the last sentence of the property is false of the code (refuted): a failed close removes the window."
 },
 "C07": {
  "note": "Byte and Memo exact; Slice predicts enforce_target but answers true with no window open (refuted)."
 },
 "C08": {
  "note": "Debug builds and SliceParser: all sizes. Release builds: sizes <= isize::MAX; beyond that undefined behaviour (refuted). C08_release_exactly_partial: for every usize, the histories of ByteParser that read outside the buffer are exactly those with a consume whose position plus size wraps under the limit. A refused MemoParser may do so while printing (C08_release_memo_refuted)."
 },
 "C09": {
  "note": "Bytes, segments and length exact for all three parsers. 'Empty exactly when no byte is left' fails with a window open and for SliceParser (refuted); the C09_empty_* theorems say exactly when the leftover is reported empty."
 },
 "C10": {
  "note": "C10_memo_log_exact describes the log of every history; it equals the bytes consumed only without skip_exactly (refuted otherwise)."
 },
 "C11": {
  "note": "skip and skip_exactly on each parser; skip_dynamic and process_prefix for every legal prefix (an illegal u30 prefix panics: C31_prefix_panics_refuted). Debug builds: every usize; release builds: sizes up to isize::MAX, beyond that refuted (C11_release_refuted, F1)."
 },
 "C32": {
  "note": "parse: all three parsers, every schema. try_decode: with check_complete_parse the SliceParser accepts nothing (refuted, F21)."
 },
 "C45": {
  "note": "consume/skip/close errors exact; set_fit errors are described exactly too (C45_set_fit_fails_partial) and report wrong numbers on Byte/Memo (refuted)."
 },
 "C47": {
  "note": "get_byte at index = length and get_slice with a wrapping end are undefined behaviour (refuted)."
 },
 "C21": {
  "note": "All schemas of the embedding (every combinator, named/recursive types, cstyle and data enums), every valid value; loops_ok excludes repeating a type which writes no bytes, and disciplined asks each greedy part to be framed."
 },
 "C22": {
  "note": "For schemas of kind self-delimiting, any continuation."
 },
 "C23": {
  "note": "Failing includes the panic of debug builds on a window that does not fit (F2)."
 },
 "C24": {
  "note": "What a decode or parse returns satisfies well_typed, for every schema, parser and build mode."
 },
 "C25": {
  "note": "Canonical schemas: without N, Z and String, and Padded only with check_padding on (C19, C40, C41 say what happens there)."
 },
 "C26": {
  "note": ""
 },
 "C27": {
  "note": ""
 },
 "C28": {
  "note": "Exact when N is not 0; for N = 0 the estimate is short by one byte (refuted), exact deficit given."
 },
 "C29": {
  "note": "Encoding and decoding, every prefix width, without enc_len_estimable_override. With it the prefix of a payload holding the natural number 0 is one too small (C29_override_refuted, F8); C51_override_wire_format gives the bytes written then."
 },
 "C30": {
  "note": "Linear bound, in every build and on every input (undefined behaviour included), for schemas whose Sequence elements consume input (bounded sequences of empty elements included); a Sequence answers exactly when no element takes nothing before the end of the input (C30_sequence_exact_partial), and otherwise never returns, so the property as stated is refuted."
 },
 "C31": {
  "note": "Exact: decoding panics in debug builds on exactly the inputs SpecPanic describes (a length prefix exceeding the whole input, or VPadded that does not fit, after a well-formed beginning) and in release builds on exactly the inputs SpecSpill describes (a VPadded that does not fit, whose contents begin with an N or Z; ByteParser and MemoParser only, F39); every other input is answered. Refuted as a blanket claim by F2 and F7; process_prefix and skip_dynamic panic on an illegal u30 prefix (refuted). In release builds the behaviour is undefined on exactly the inputs SpecSpill describes (a VPadded that does not fit, whose contents begin by taking everything left), for the ByteParser and the MemoParser only (C31_undefined_exactly_partial)."
 },
 "C33": {
  "note": "Proved: decoding bounds, push histories, every safe way of building. An under-full FixSeq encodes (refuted, F9)."
 },
 "C41": {
  "note": "Padded and VPadded, encoding and decoding, debug and release builds."
 },
 "C42": {
  "note": "ByteParser and MemoParser; SliceParser reports a spurious error (refuted)."
 },
 "C43": {
  "note": "Types without under-full FixSeq (refuted there)."
 },
 "C13": {
  "note": ""
 },
 "C14": {
  "note": "bool, cstyle!, data!, Option; every schema and every parser."
 },
 "C15": {
  "note": "C15_decode_any_bounds, C15_rejects_any_bounds and C15_encode_any_bounds need nothing of MIN and MAX unless invalid_range_checking is on; with it, bounds outside the OCaml integers or in the wrong order panic (C15_senseless_panics)."
 },
 "C16": {
  "note": "try_from_i32/to_i32 exact (debug overflow refuted). TryFrom exact for MIN <= 0 and a backer that holds the range; for MIN > 0 characterised exactly (positive) and refuted, also for narrow backers. Default/min_val/max_val: MIN <= 0; refuted for MIN > 0."
 },
 "C17": {
  "note": ""
 },
 "C18": {
  "note": ""
 },
 "C19": {
  "note": "The property is false of the code (refuted for both types); proved: what is accepted is exactly any marked byte string, the written form is the unique minimal one and a shortest one."
 },
 "C20": {
  "note": ""
 },
 "C40": {
  "note": "Lossy decoding is exact: the result is the input with maximal ill-formed subparts substituted by U+FFFD, as the Unicode standard recommends and the Rust documentation promises."
 },
 "C46": {
  "note": "With MIN > 0 the argument is the offset from MIN, as the documentation says."
 },
 "C12": {
  "note": "All three parsers, every window, for entries of at least one byte; the empty entry is C12_empty_entries, C12_empty_entries_byte and C12_empty_entries_memo."
 },
 "C34": {
  "note": "False of the code: from_iter and extend lose every element that fits (F10, proved for every fused iterator), and FixSeq refuses short slices (F23). Proved: the TryFrom conversions, the refusal of too many, empty iterators."
 },
 "C35": {
  "note": ""
 },
 "C36": {
  "note": "False of the code: a sign is accepted and a non-ASCII string can panic (F15); what is accepted is characterised exactly."
 },
 "C37": {
  "note": "Proved: true exactly when from_hex gives the bytes; false otherwise for ASCII strings. Outside ASCII it can panic (F15)."
 },
 "C48": {
  "note": "All constructors that check; From<[u8; N]> of FixedString checks nothing (refuted)."
 },
 "C49": {
  "note": "StrictBuilder promote takes a StrictBuilder, hence the separate C49_promote; hex and bin of MemoBuilder follow by C49_same_either_builder."
 },
 "C50": {
  "note": "Holds for MemoBuilder and SplitVec. Refuted for the Display of the finalized MemoBuffer, which prints a separator after every byte instead of every group (F17); the partial theorem says what it prints."
 },
 "C51": {
  "note": "With enc_len_estimable_override the encoding differs exactly for values with a zero N inside a Dynamic (F8): C51_override_wire_format gives the bytes, C51_override_same the exact condition."
 },
 "C52": {
  "note": "Needs distinct discriminants: cstyle! enforces this at compile time, data! does not (F26, C52_duplicate_discriminant_refuted)."
 },
 "C53": {
  "note": "The numbers in window errors (offset, limit) are the subject of C45."
 },
 "C54": {
  "note": "take_f64 and take_bool are the decoders of f64 and bool literally."
 },
 "C55": {
  "note": "Exact for every input; with implicit_hexstring a text outside ASCII can panic in try_decode (refuted, F15), and without check_complete_parse () is decoded from any text, hexadecimal or not (C55_unit_partial, C55_unit_refuted, F42)."
 },
 "C56": {
  "note": "Bounds up to u32::MAX; beyond that ArrayVec panics where Vec does not (C56_huge_bound_differs)."
 },
 "C57": {
  "note": "Exact for all patterns and bounds."
 },
 "C58": {
  "note": "Exact; the agreement with the encoder also holds with enc_len_estimable_override."
 },
 "C59": {
  "note": "num-bigint's own conversion is taken from its documentation."
 },
 "C60": {
  "note": "Full equivalence between parsing and an inductive grammar, in both directions, for every type, configuration and parser; try_decode, unambiguity, encoded bytes and refusal outside the grammar follow. The refusal theorem assumes what C30 and F7 require for decoding to end inside its input."
 },
 "C61": {
  "note": "True without strings, and with strings while every length prefix can hold three times the input. Refuted in general (F20): lossy decoding lengthens strings, and the result may no longer fit the length prefix it was read from, so that encoding panics."
 },
 "C62": {
  "note": "The macros are functions from declarations to emitted code, the code is given a meaning, and the meaning is shown equal to the struct codec of which C21-C32 speak."
 },
 "C63": {
  "note": "Holds for unit structs, empty tuple structs and structs with named fields; for a tuple struct with fields the emitted code is malformed (finding F24)."
 },
 "C64": {
  "note": "For terminating declarations (the hypothesis of C30). Weight counts nodes and payload bytes of the value, not allocator overhead or spare capacity. C64_no_common_multiple shows that the constant must depend on the type."
 },
 "C65": {
  "note": "Messages of all errors whose text is written by this library; the texts of foreign errors (Utf8Error, boxed errors, f64 numerals) are parameters. Tag errors display neither tag width nor the list of valid tags, so their unambiguity is about discriminant and type name (C65_tag_unambiguous). F29: discriminants are printed two digits short of the full width."
 },
 "C66": {
  "note": "BigUint/BigInt decimal display is modelled from its documentation by repeated division; padding and alternate flags of the formatter are not modelled."
 },
 "C67": {
  "note": "Vec's own behaviour (extend, write, indexing, Ord by memcmp then length) is from its documentation. as_mut_vec is any function on the vector. Texts with a plus sign are accepted loosely: C36/C37."
 },
 "C68": {
  "note": "val_cmp/val_eq model the derived and hand-written instances; less/same are the independent order. The contract theorems (agree, dual, transitive, equal_substitutes) need no hypothesis at all."
 },
 "C69": {
  "note": "Proved where no floating-point number occurs, and with them characterised exactly: == ignores the signs of zeros and rejects NaN, and ignores nothing else; encodings tell all values apart. Refuted for f64 and RangedFloat: 0.0 == -0.0 although encoded differently, and a decoded NaN is not equal to the one encoded (F31)."
 },
 "C70": {
  "note": "Proved as an equivalence under implicit_hexstring for every type; a value holding NaN never passes. Without that feature (the default) the text is decoded as raw bytes and main panics at its first assertion (F30)."
 },
 "C71": {
  "note": "Contents, length and segments proved for every history. is_empty answers false for a leftover with windows but no bytes (F14), and append to an Empty leftover copies and leaves the vector as it was (F32): both refuted, with the exact conditions proved as partial theorems."
 },
 "C72": {
  "note": "Debug of SplitVec<T> is modelled at T = u8. Segments that print alike need not compare equal: the last may be open in one and closed in the other."
 },
 "C73": {
  "note": "Proved for all types without floats (f64 and RangedFloat have no Hash). Hashing is modelled as the byte string fed to the hasher on a 64-bit little-endian machine; the hasher itself is outside."
 },
 "C74": {
  "note": "Partial: fixed strings that are not UTF-8 can print alike although they differ (C74_unambiguous_refuted), and with enc_len_estimable_override a Dynamic's Debug can give a wrong length (C74_dynamic_debug_refuted). f64's text and the Debug text of the payload are parameters."
 },
 "C75": {
  "note": "Every outcome (value, error, panic, undefined behaviour) and any fuel is covered, without assuming that padding keeps its windows: C75_proportional; the constants are checkable by computation: C75_certificate. That K must depend on the type and that loops_ok is needed is shown by C75_no_common_multiple and C75_endless. The unit of work is one parser call or one byte handed out; allocation is C64's."
 },
 "C76": {
  "note": "Proved for types that nest Dynamics to a fixed depth (C76_proportional_partial, with a computable certificate). Refuted for types that recur through Dynamic: the default enc_len writes the contents to a sink, so each nested Dynamic is written twice, and n of them take at least 2^n (C76_refuted: a message of 5n+1 bytes that decodes in linear time). The exponent is exactly the depth (C76_bound, C76_at_least). With enc_len_estimable_override the depth is a factor (C76_override_bound) and the worst case quadratic (C76_override_refuted). C76_same_encoding says the metered encoder is the modelled encoder."
 },
 "C77": {
  "note": "All three directions proved. C77_positive_min and C77_fix_to_lim show why the relation leaves out a lowered positive MIN and FixSeq to LimSeq."
 },
 "C78": {
  "note": "Proved for every handler keeping the contract of SpecCustom. In release builds VPadded of positive width is left out of the direction from reading to the grammar and of refusals (F7: its window size wraps and the call is outside the contract)."
 },
 "C79": {
  "note": "Proved for all accepted bytes, not only for encodings as in C22 and C23. C79_looks_ahead shows a type that is not self-delimiting (FixSeq<(), 1>) and depends on whether anything follows."
 },
 "C80": {
  "note": "Proved. C80_slice_not_quoted: InternalError::SliceCoerceFailure does not quote its cause, but decoding never reports it (C53). C80_repeats is finding F36."
 },
 "C81": {
  "note": "All three parsers. The additional windows of a failed decoder stay open (F37, C81_window_left_open). Release builds: types without VPadded (F7)."
 },
 "C82": {
  "note": "C82_frames: counting frames changes no answer. Types not defined in terms of themselves need a number of frames fixed by the type (C82_not_recursive_partial); the others at most a number proportional to the input (C82_linear_partial). A value takes exactly as many frames as it has levels (C82_value_exact, C82_value_needs), so for a type that contains itself no number is enough: a chain of 0xff bytes as long as the number overruns it (C82_deep_input_refuted, F38). Partial because of that. Frames are counted, not their size in bytes; encoding is counted in C88, dropping nested values is not counted."
 },
 "C83": {
  "note": "C83_same_decoder: the program whose reservations are counted gives the answers of the decoder. C83_proportional and, with constants to be checked by computation, C83_certificate bound the most ever reserved; C83_only_the_value says what is left at the end. C83_slots_up_front and C83_slots_kept say what bounded sequences reserve beyond their input (F40). Not counted: the input itself, error values, the storage of big numbers (C64 bounds it), the parser's own stacks."
 },
 "C84": {
  "note": "C84_same_bytes and C84_encode for targets that keep what they get; C84_same_calls for targets of any kind that return the documented counts; C84_library: the library's own targets keep the contract. Complete."
 },
 "C85": {
  "note": "One theorem per wrapper: C85_option, C85_nullable, C85_sequence, C85_lim, C85_fix, C85_dynamic, C85_vpadded, C85_padded, C85_box, C85_struct, C85_enum; C85_round_trip and C85_prefix say what an implementation gives; C85_library: the types of the closed model are such implementations; C85_same_wrappers: the wrappers of the two models are the same programs; C85_string: a type of our own. Elements of sequences have to know where they end and must not be empty, as in C05. Complete."
 },
 "C86": {
  "note": "One equivalence per wrapper: C86_dynamic (a length prefix confines every decoder), C86_option, C86_nullable, C86_sequence, C86_lim, C86_fix, C86_vpadded, C86_padded, C86_box, C86_struct, C86_enum; C86_decode for try_decode; C86_tidy_*: the wrappers, the types of the library and decoders put together from the parser's methods keep to the rules. C86_case_thief shows the rules are needed. VPadded on inputs shorter than its padding is excluded (F7); so is SliceParser under complete-parse, which always refuses (F21). Complete."
 },
 "C87": {
  "note": "C87_to_bytes, C87_to_bytes_full, C87_write_to_vec and C87_encode: equal to the trait's methods for all types, so the other theorems about to_bytes and encode hold of these calls; C87_miscount: exactly when the debug assertion of Vec<u8> fails. Complete."
 },
 "C88": {
  "note": "C88_enough, C88_to_bytes, C88_lengths: two frames for each level are enough for any target and both ways of computing lengths; C88_same_answer: counting changes no answer; C88_needs: a frame for each level is needed; C88_decoded: twice the frames decoding took are enough, and C88_more_than_decoding (F43): those decoding took are not. Frames are counted, not their size in bytes; dropping values is not counted. Complete."
 },
 "C89": {
  "note": "C89_byte_parser, C89_memo_parser: all seven laws in every reachable state, for every usize in debug builds and every size up to isize::MAX in release builds. C89_slice_parser_partial: the laws about reading while its last frame is open, those about windows while one is. Missing because false: SliceParser without a window of the caller's (C89_slice_test_refuted, F4), after its last frame was closed (C89_slice_nothing_refuted), release builds and sizes beyond isize::MAX (C89_release_refuted, F1). Items 2c and 7a of the README's list are misprints (F45); the laws follow the trait's documentation there. C89_frames: the frames of ByteParser and MemoParser are sorted and lie between the offset and the end; C89_slice_frames: those of SliceParser make up the end of the input."
 },
 "C90": {
  "note": "The program of C83 with an allocator that can refuse. C90_no_other_answer for any allocator; C90_enough from the peak use of C83; C90_proportional with C83's multiple; C90_slots_up_front is F46."
 },
 "C91": {
  "note": "Vec<u8> with capacity and number of allocations as a target (growth as in the standard library). C91_announcements is about the calls any target receives; the others follow. C91_override_reallocates shows that the condition on zeros is needed (F8)."
 },
 "C92": {
  "note": "Through the grammar (C60) and the wire format (C21). plain (SpecPlain) is the schema with the differences removed. That an input is refused is shared as well; which error it is refused with may differ."
 },
 "C93": {
  "note": "C93_written gives the spans and the text of the builder, C93_taken and C93_taken_extra the log of the parser. C93_merges: the groups as written are joined groups as read; C93_alike: they are equal without Some, N and Z. The tag of Some that shares its group is F47."
 },
 "C94": {
  "note": "Panic inside a method: state unchanged (C94_unchanged_*), histories that carry on (C94_history_*). Panic inside a decoder: C94_byte, C94_memo, C94_slice, C94_leftover. SliceParser's methods never panic (C94_slice_quiet); its decoders can (C94_slice_case). C94_unchanged_all_sizes_byte and _memo: a method that panics changes nothing, for every usize in release builds too."
 },
 "C95": {
  "note": "ModelInterrupt is write_to once more, keeping the target's state on a panic; C95_same proves it the same function. C95_exact and C95_library give the bytes, C95_written that they are the beginning of the format. C95_whole needs the default features: C95_dangling_with_override is F48."
 },
 "C44": {
  "note": "All three parsers. Refuted in release builds for windows opened with a size beyond isize::MAX (C44_release_refuted, F49)."
 },
 "C96": {
  "note": "C96_exact says for which types the default is a value: FixSeq<T, N> with N > 0 (its default is empty) and RangedInt with MIN > 0 (MIN is stored as if it were the distance from MIN) break it (F50, C96_fixseq_refuted, C96_ranged_refuted). C96_never_decoded: a broken default is a value no input decodes to. Not modelled: the allocation of N elements by the defaults of LimSeq and FixSeq without arrayvec. C96_exists: which types have a default at all; C96_zero: where 0 is in range its encoding is all zeros."
 },
 "C97": {
  "note": "C97_written (any target of C84), C97_in_order, C97_open_end, C97_broken_off (in debug builds it may end in the panic F2 instead of an error), C97_unambiguous, C97_restart (all types and inputs; without VPadded in release builds, F7), C97_envelope."
 },
 "C98": {
  "note": "C98_text_partial (the text; panics exactly if the contents of a Dynamic cannot be encoded, F51), C98_text_unique, C98_encodable_prints (every configuration), C98_unambiguous_partial and C98_delimited_partial (every configuration; no NaN). Fails: C98_panics_refuted, C98_unambiguous_refuted (NaNs print alike)."
 },
 "C99": {
  "note": "C99_order, C99_composite (bytes may follow), C99_hex; C99_exclusions: a pair in the wrong order, or with equal encodings, for each kind of type left out. sorted (SpecSort) lists the types."
 },
 "C100": {
  "note": "C100_read, C100_replace, C100_contained, C100_window, C100_field_place, C100_element_place. spot (SpecPatch) says where a part lies; overwrite writes bytes over others. C100_unfixed: a part without fixed length is not contained."
 },
 "C101": {
  "note": "C101_encoding, C101_reading, C101_decoding, C101_met. least, most, sized, reached in SpecExtent."
 },
 "C102": {
  "note": "C102_text, C102_part_texts, C102_unambiguous, C102_parts_unambiguous, C102_printable, C102_decode, C102_panic. Floats other than NaN; the texts of FromUtf8Error and of a boxed foreign error are given."
 },
 "C103": {
  "note": "C103_memo_partial: it panics and names the type. C103_memo_constant_partial: the rest of the message does not depend on the error, C103_memo_refuted: two inputs decode tells apart and decode_memo does not. C103_unit_partial: for () it says ParseError, which the error never is. Finding F52."
 },
 "C104": {
  "note": "C104_final, C104_final_byte, C104_wait (ByteParser, MemoParser), C104_final_slice, C104_wait_slice (SliceParser), C104_no_better. may_be_short and slice_may_be_short in SpecFinal. pads_ok excludes VPadded of positive width in release builds of the MemoParser (F7)."
 },
 "C105": {
  "note": "C105_text, C105_unambiguous, C105_resume, C105_builder, C105_builder_tells, C105_buffer, C105_buffer_tells, C105_index."
 },
 "C106": {
  "note": "C106_window_byte, C106_window_memo, C106_window_slice, C106_payload_error, C106_payload_value, C106_payload_trailing, C106_payload_slice, C106_payload_reads, C106_payload_residue, C106_payload_only (payload_read shows its hypotheses met), C106_reserved_error, C106_reserved_slice."
 }
}