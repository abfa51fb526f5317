# Formal model of `tedium` (tezos-data-model)

Sections 1-3 were written before the proofs; findings, coverage and trusted base are updated as the model grows.
The status of each property and the exact theorem names are in `MANIFEST.json`.

## 1. What is modelled and how

The code is a Rust library for the binary encoding used by Tezos.  It has a stateful core (parsers with
context windows), a family of codec combinators, length estimators, output targets, and a few independent
containers (SplitVec, HexString, bounded sequences).  All of it is sequential and deterministic, so the model is a
set of total Gallina functions.  `/repo` was only read, never built or run.

Conventions

* A byte is a `Z` in `0..255`, a `usize` is a `Z` in `0..2^64-1` (64-bit target assumed).
* Rust results are `res A := ROk a | RErr e | RPanic | RUB | RDiv`: `Ok`, `Err`, a panic, undefined behaviour
  (an out-of-bounds `get_unchecked`), and "fuel exhausted" (the program is still running).
* A `&mut self` method is a function `P -> res A * P`; the state is returned also when the call fails.
* Arithmetic that can overflow `usize` takes the build mode: in `Debug` overflow is a panic, in `Release` it wraps
  modulo 2^64.  `debug_assert!` is checked in `Debug` only.
* Cargo features which change behaviour (`check_padding`, `check_complete_parse`, `enc_len_estimable_override`,
  `implicit_hexstring`) are fields of a configuration record over which theorems quantify.
* Generic Rust code over `P: Parser` and `U: Target` is Gallina code over a record of operations, so that it is
  written once and instantiated with the models of ByteParser, MemoParser, SliceParser and of each target.
* Types that implement Encode/Decode/Estimable are a deep embedding `ty` with values `val`; encode, parse,
  estimate are functions over them, one match arm per Rust impl.  Recursive types go through a table of named types
  (`AutoBox`).  Parsing recurses on fuel.  ModelOpen gives the wrappers a second time, as functions on arbitrary
  implementations of the traits (C85); C85_same_wrappers shows that both readings are the same programs.

Files (`rocq/theories/`): `Base` (results, arithmetic), `Model*` (code, with a file:line citation on each
definition), `Spec*` (small independent specifications), `Proof*`, `Properties*` (theorems only, each closed by
`exact`, with `Print Assumptions`, and `Example`s showing that the hypotheses can be met).

## 2. Specifications used to state properties

* Reference parser: a stack of byte lists `(cur, outer)`; `consume n` takes from the front of `cur`;
  `set_fit n` splits `cur`; `enforce_target` pops an empty `cur` when `outer` is not empty.
* Wire format: big-endian two's complement; zarith groups described as a weighted sum of digits; Dynamic as
  "length, then payload"; and so on, given as a relation, not as code.
* Schema discipline (`kind`): a schema is self-delimiting, or needs exactly `m` bytes of its window left behind it.
* IEEE order: a finite double is an integer multiple of 2^-1074.
* UTF-8: encoding of Unicode scalar values; lossy decoding as substitution of maximal subparts.
* Wire grammar (`SpecGrammar.v`): an inductive relation between a type, the bytes of a window, a value and the bytes left,
  one rule per form of type and no parsers, positions, windows or errors (C60).
* Order of values (`SpecCompare.v`): inductive relations `less` and `same`, one rule per form of type (C68).
* HexString histories (`SpecHexString.v`): what each operation does to a list of bytes (C67).  Texts (`SpecDisplay.v`): what a
  message must mention and how numbers are read back (C65, C66).

## 3. Plan per property

| id | model | proof |
|----|-------|-------|
| C01 C02 C05 C06 C07 | ContextOffset + ByteParser (`ModelParser`), reference parser (`SpecParser`) | forward simulation per call, lifted to call lists by induction; failing `enforce_target` separately (suspected violation: pops first) |
| C03 | MemoParser | state equality up to the log, induction over call lists |
| C04 | SliceParser | simulation to the same reference parser on well-bracketed histories |
| C08 | unchecked accessors return `RUB` when out of range | invariant `cur <= limit <= len`; witness for wrap-around in Release |
| C09 | LeftoverState, cleanup loops, SplitVec | induction over the window stack |
| C10 | MemoParser log | invariant over histories without `skip_exactly`; witness with it |
| C11 C12 C44 | skip*, process_prefix, fast_kv_search, iterator | simulation + induction on the list |
| C13 C14 C15 C16 C46 | integers, tags, RangedInt, BoundsError | arithmetic on base-256 digits |
| C17 C18 C19 | N, Z with to_radix_le/from_radix_le | digit-list lemmas, induction on digits |
| C20 | f64 as its bit pattern; comparison via stdlib SpecFloat | case analysis, comparison correct w.r.t. exact value |
| C21 C22 C23 C24 C25 C30 C31 C32 | deep embedding, generic parse over parser record | induction over fuel / values on the reference parser, transferred by simulation |
| C26 C27 C28 C29 C43 | generic write_to over target record, estimate | induction over values |
| C33 C34 | bounded sequence API with explicit iterators | induction; witnesses for `nth`-consuming checks |
| C35 C36 C37 | hexstring on byte strings with UTF-8 boundary check | induction on pairs of digits, finite sweeps over 256 |
| C38 C39 | SpanBuffer, SplitVec, Spans iterator (down to core's Chain) | invariant over op lists |
| C40 | from_utf8 / from_utf8_lossy | decoding of scalar values, case analysis |
| C41 | Padded, VPadded | part of the codec model |
| C42 | try_decode | composition of parse and cleanup |
| C45 | error payloads | per-call lemmas; witness for `bytes_left` |
| C47 C48 | buffer accessors, fixed-size constructors | direct |
| C49 C50 | StrictBuilder, MemoBuilder, their finalized and printed forms (`ModelBuilder`) | laws of a builder proved once per builder, induction over call lists; the printed form as a relation, with a uniqueness theorem |
| C51 | the same decoder under two configurations | simulation of the decoder under one configuration by that under the other, by induction over fuel |
| C52 | `ModelEnum`: the functions generated by `cstyle!` and `data!` over the list of discriminants | lemmas on first-match search; decoding by the decoder of `ProofDec` |
| C53 | `SpecError.justified`, `ModelEnum.validator` | errors raised by the program are tracked through `run` by induction over the program and fuel; errors of the parser operations by case analysis of the three parsers |
| C54 | `ModelTake` | one-byte `consume` equals `consume_byte` under each parser's invariant |
| C55 | `ModelInput`: conversions into a buffer, the two panicking entry points | case analysis; the round trip from C21 and C35 |
| C56 | `ModelArrayVec`: FixSeq/LimSeq over ArrayVec (from its documentation) | equality with `ModelSeq` function by function; the decoding loops by induction over fuel |
| C57 | `ModelConv`: f32 patterns widened to f64 | arithmetic on the fields; exact values as integers |
| C58 | `ModelConv.length_prefix` | from the counting pass (C28) and the writer without targets |
| C59 | `ModelConv.big_try_into` | from C17 and C18 |
| C60 | Parsing is equivalent to an inductive grammar (`denotes`, SpecGrammar.v) that mentions no parser, position, window or error | Soundness by induction on the fuel, completeness by mutual induction on derivations |
| C61 | The grammar of C60, `format`, `valid` | Induction on derivations with a factor 1 (no strings) or 3 (replacement characters); the minimality of zarith formats bounds redundant numbers |
| C62 | macros as functions from declarations to emitted syntax, with a semantics (ModelDerive) | induction over the member list; distinct names for look-ups; transfer of C21/C22 |
| C63 | as C62 | sum of known lengths; witness for tuple structs |
| C64 | `weight` of a value; linear potential `base B A t` with `B` units granted per byte consumed | induction over the wire grammar (C60); existence of constants by rank recursion over the declarations |
| C31 (exact panics) | SpecPanic: inductive description of the offending inputs, on top of SpecGrammar | soundness by induction on fuel, completeness by induction on the description, over any handler refining the contract; then the three parsers |
| C31 (exact undefined behaviour, panics of release builds) | SpecSpill: which inputs give a VPadded a window that ends before the position, and which contents then begin with something that reads out of bounds or panics (`wild`) or with nothing (`idle`) | ProofSpill: behaviour inside of such a window; ProofSpillAll: in ordinary windows, both directions; ProofSpillHalt: the step bound of C30 holds there too; ProofSpillEnd: the three parsers |
| C65 | ModelDisplay: every Display impl of the error types as a function to bytes | a reader's scan `numbers` (SpecDisplay) recovers exactly the error's numbers; injectivity by peeling off the distinct openings, then the numerals |
| C66 | ModelDisplay: show_zarith, ri_fmt | induction on the digit loop against the inductive predicate `numeral`; uniqueness of numerals gives injectivity |
| C67 | ModelHexString: makers, operations and observers over ModelTarget's `hex_string` | the operations refine a relational description of byte lists (SpecHexString), by induction on the history; order by induction on the bytes, two digits at a time |
| C68 | `val_cmp`, `val_eq` (ModelCompare); inductive `less`, `same` (SpecCompare) | induction on values; floats through an integer key |
| C69 | `val_eq`, `to_bytes` | C68 with injectivity of encoding (C22); bit patterns of the same number differ at most in the sign of zero |
| C70 | `check`, `main` (ModelCheck) | C55, C27 and C69 |
| C71 | leftover as nothing / loose bytes / segments, over every history of calls | induction on the history, reusing C38 |
| C72 | Debug/Display texts as byte lists with slicing panics explicit; derived equality field by field | texts computed from the segments (C38), then split at the bars |
| C73 | ModelHash: the bytes each Hash implementation feeds (derived, Dynamic's and data!'s) | induction on values for prefix-freeness; equality direction from val_eq_exact |
| C74 | ModelText: Display, LowerHex and Debug of the value types | against a relational description of texts (SpecText), by induction on the value; uniqueness of decimal numerals by induction on the numeral |
| C75 | SpecWork: units counted along the run of the parser programs | potential argument: bytes left pay for calls; a logic of bounded spending over any parser whose remaining bytes do not grow, by induction on fuel and type |
| C76 | ModelMeter: the encoder with a meter; SpecMeter: how deep Dynamics nest | the meter does not change the outcome; upper and lower bounds by induction on the value; the exponential and quadratic witnesses by induction on the depth |
| C77 | SpecEvolve: a relation between schemas | the old program equals the new one or fails earlier (relation on parser programs, by induction on fuel); the converse on the grammar of C60; encoding by induction on values |
| C78 | SpecCustom: what keeping the contract of the trait means for an arbitrary implementation | simulation of the contract machine by any such implementation, by induction on parser programs; then C60 |
| C79 | on the grammar of C60 | mutual induction on the grammar: what a self-delimiting type consumes can be followed by anything; then uniqueness of what is read |
| C80 | ModelCause: source() and Display of every error type | case analysis; the errors decoding can report come from C53 |
| C81 | parse as a program over the parser's methods; `inside`, `leaves` on the stack of windows (SpecAfter) | weakest preconditions over programs on the reference machine, then a trace of the calls made, for each parser |
| C82 | `parse` with separate counts for open calls and loop rounds (ModelStack), related to `parse` by approximation | bound from the type for non-recursive schemas, linear bound by rank and window length, lower bound by nesting of the value, refuted for recursive types |
| C83 | `parse` with every reservation and release written out (ModelMemory), shown to be `parse` otherwise | potential argument of C75 with a logic of bounded reservation, for any choice of type sizes; exact account of what a value holds; lower bounds from the round trip |
| C84 | `target U` is a record of arbitrary functions; SpecTarget says what the contract of the trait is | the simulation of C29 for any lawful target; a relational reading of `write_to` between a target and the log of its calls |
| C85 | wrappers as functions from implementations of the traits to implementations (ModelOpen), for any Gallina type of values | one lemma per wrapper: writing by the simulation of C84, parsing on the windows of SpecParser, transferred to the three parsers by the refinement of C04 |
| C86 | `tidy` decoders: no error is swallowed, windows are closed by those who open them; `takes`: a fresh parser decodes v and stands before rest | a frame lemma makes a tidy program a function of its window; one equivalence per wrapper; transferred to the three parsers by the refinement of C04 |
| C87 | the calls as dispatched (`call_to_bytes` …) beside the trait's methods | case analysis; appending from C84 |
| C88 | the encoder and the length functions with a count of open calls (ModelWriteStack) | equal or out of frames, by strong induction on the count; a family of nested Dynamics for the refutation |
| C89 | the laws as conditions on any handler with its observers (SpecLaws) | from the invariants of the parsers, MemoParser by way of ByteParser |
| C90 | the program of C83 run with an allocator that can refuse: abort, or panic beyond isize::MAX | by induction on the program: same run as the counting one while granted; reservations are never negative |
| C91 | `Vec<u8>` as a target with capacity and allocations (ModelCapacity); announcements as conditions on the list of calls (SpecCapacity) | induction over values for the log of calls; invariants of a growing vector over lists of calls |
| C92 | schemas and values with what does not show in the bytes removed (SpecPlain) | induction over derivations of the wire grammar, both ways; induction over values for the bytes |
| C93 | groups of a value as written and as read (SpecGroups) | a builder that is its groups, related to the SplitVec; induction over values; a logging run of the contract machine, followed by the MemoParser |
| C94 | histories that go on after a panic with the state left (SpecUnwind) | per method: the panicking branch returns the old state; a weakest precondition over decoders that also covers panics |
| C95 | write_to with the target's state kept on panics (ModelInterrupt) | agreement with write_to; induction over values with a sequencing operator that stops (SpecInterrupt) |
| C01-C05 C08 C11 C44 (release builds, every usize) | SpecWrap: positions modulo 2^64 | simulation per call, induction over histories; witnesses where the English fails |
| C12 C15 C29 (left-out cases) | empty entries, senseless bounds, enc_len_estimable_override | direct; witness for C29 |
| C96 | default_val, type by type (ModelDefault) | default_of: which defaults a default contains (SpecDefault); induction over fuel, with C16 for ranges, C20 for floats, C21 for the round trip |
| C97 | write_all_to! and calls of parse in turn (ModelStream) | encodings, message, receives (SpecStream); induction over the messages from C22, C23, C84; d_fields of ProofDec |
| C98 | ModelDebug: Debug of every type, derived or written out, over core's debug builders; names in a second environment | debug_of (SpecDebug), by induction on the value; unambiguity by cutting texts at separators, and escapes decoded back |
| C99 | format, val_cmp | sorted (SpecSort) says which types keep their order; dictionary order before (SpecHexString); by induction on the first value, with order decided strictly inside both encodings where bytes may follow |
| C100 | to_bytes, decode | spot t v n u x fill (SpecPatch): x lies at byte n of v, fill y exchanges it; by induction on spot over the grammar of C60: each type around the part reads its own bytes and leaves the part's bytes to it |
| C101 | to_bytes, decode | least and most (SpecExtent) from the type, with bounds for named types checked by sized; encodings by induction on the value, decoders by induction on the grammar of C60; bounds met by induction on the type from given values of the named types |
| C102 | derived and hand-written Debug of all errors, the panic message of decode | texts given literally (SpecErrDebug); each printer, followed by anything that starts with a delimiter, determines the error and the rest (cutting numbers at delimiters, quoted names as in C98); leftovers of the cleanup loops have a history (C71), so their texts exist and tell the segments |
| C103 | decode_memo's panic message | by definition of the message; a pair of inputs for which decode's messages differ |
| C104 | parse through ByteParser and MemoParser | two runs over p and p ++ q related state by state (ProofFinal): the run over p ends short or both go on alike; inside windows for all types, outside for self-delimiting ones; MemoParser by equality of whole decodings (ProofMemoSame); SliceParser likewise with views that differ at the bottom (ProofFinalSlice); waiting from this with the round trip and C23 |
| C105 | the Debug implementations of parsers, offsets, buffers and memo builders, the notations of Index (ModelParserDebug) | field by field against SpecParserDebug; reading back number by number as for C102 |
| C106 | the parsers and parse as for C01 | simulation of a parser over the contents of a window by one inside the window, positions moved; by induction over the steps and the type (ProofAlone, ProofAloneSlice); length prefixes and reserved bytes as instances; release builds exclude virtual padding (F7) for the copying parsers |

None of the properties is inexpressible.

## 4. How to read the theorems

* `…_partial`: part of the property; the comment above it says what is missing.
* `…_refuted : exists x, …`: a concrete input on which the modelled code violates the property as stated in
  `properties.jsonl`; each corresponds to a finding below.  A property with such a theorem is never "proved" in the
  manifest unless the property's own statement already excludes the case (C04).
* Hypotheses which recur: `zlen buf <= isize_max` (every Rust slice satisfies it), `bytes_ok` (the numbers in the list
  are bytes), `wf_defs`/`wf_ty` (what Rust's types and the generator's macros already guarantee: distinct in-range
  tags, sizes that are `usize`s, sane RangedInt bounds), `disciplined` (a greedy type such as `Bytes` is framed by
  something that ends it; without that nothing can be decoded back).

## 5. Findings

Places where the code, as read, does not do what its documentation or the property says.  Paths are in `/repo/src`.

Parsers
* F1 `Index::increment_checked` (internal/offset.rs 41-48) adds before comparing.  In a release build a size near
  `usize::MAX` wraps, moves the offset backwards, and `consume` then reads out of bounds.
  `C01_huge_size_refuted`, `C08_release_huge_size_refuted`.
* F2 `ContextOffset::set_fit` (offset.rs 292-306), error path: `bytes_left` is `abs - winsize`, which underflows: a panic
  in debug builds for a window larger than the whole buffer, a wrong number otherwise.  The other error reports
  absolute offsets instead of sizes.  `C02_open_panics_refuted`, `C45_bytes_left_refuted`,
  `C45_window_width_refuted`, `C31_debug_dynamic_refuted`.
* F3 `enforce_target` pops the window before it looks at it (offset.rs 353-372; SliceParser parse/mod.rs 1177-): a failed
  attempt removes the window; with SliceParser its unread bytes are lost.  `C06_failed_close_refuted`,
  `C04_unclean_close_refuted`.
* F4 SliceParser treats its base view as a window: `test_target`/`enforce_target` succeed with no window open.
  `C07_slice_base_window_refuted`.  Once that view is closed,
  reading no bytes at all fails, and a window of no bytes is granted without being opened (C04_slice_closed).
* F5 `MemoParser::skip_exactly` (parse/mod.rs 1023-) is not logged.  `C10_skip_exactly_refuted`.
* F6 `process_prefix`, `skip_dynamic` (parse/mod.rs 410-) panic on a `u30` prefix out of range.
  `C31_prefix_panics_refuted`.
* F13 `VecBuffer::get_byte` at index = length and `get_slice` with a wrapping end are undefined behaviour reachable from
  safe code (std checks such calls only in its debug builds, where the process aborts).  `C47_get_byte_end_refuted`,
  `C47_get_slice_wrap_refuted`.
* F14 `LeftoverState::is_empty` is false for windowed leftovers without bytes.  `C09_empty_with_window_refuted`,
  `C09_slice_empty_refuted`.
* F18 `SpanBuffer::unfreeze` (feature `unfreeze_spanbuffer`) breaks the balance of a SplitVec.  `F18_unfreeze_breaks_sum`.

Codecs
* F7 `VPadded<T, N>` (dynamic.rs 463-482) with fewer than N bytes left: `debug_assert` fails in debug builds, in release
  builds `rem - N` wraps and out-of-bounds reads follow.  `C31_vpadded_refuted`; exactly when:
  `C31_undefined_exactly_partial`.
* F8 the estimate of `N(0)` is 0 but it is written as one byte; with `enc_len_estimable_override` the wrong estimate becomes
  a wrong length prefix.  `C28_estimate_refuted`, `C28_override_refuted`.  The exact
  bytes written with the option are in `C51_override_wire_format`; they differ exactly when a zero N lies inside a
  Dynamic (`C51_override_same`); payloads too long for their prefix can then be written (`C51_override_ex`).
* F9 a `FixSeq<T, N>` with fewer than N elements can be built and encoded; the bytes do not decode and are shorter than
  `LEN`.  `C33_underfull_refuted`, `C43_fixed_length_refuted`.
* F16 `Sequence<T>` never returns when some element takes no bytes before the end of the input, e.g. any non-empty input for a type that writes no bytes.  LimSeq and FixSeq of such types do end.  `C30_terminates_refuted`, `C30_sequence_exact_partial`.
* F19 without `check_complete_parse` trailing bytes are ignored by `try_decode` (documented; C42_check_off says exactly this).
* F20 lossy UTF-8 decoding can make a string longer than its bytes, so a decoded `Dynamic<u8, String>` may not be
  encodable again.  `C61_strings_refuted`.
* F21 with `check_complete_parse` the SliceParser never reports an empty leftover, so `try_decode` through it accepts
  nothing.  `C32_slice_refuted`, `C42_slice_refuted`.
* F24 `#[derive(FixedLength)]` on a non-empty tuple struct emits code with a misplaced brace
  (estimable_derive/src/lib.rs 35-42) and cannot compile.  `C63_fixed_length_refuted`.

Numbers
* F11 N and Z accept redundant final groups, Z accepts negative zero: distinct inputs decode to the same value.
  `C19_natural_refuted`, `C19_integer_refuted`.
* F12 RangedInt with MIN > 0: `TryFrom`, `Into`, `Default`, `min_val`, `max_val` mix up the number and its distance from MIN.
  `C16_try_from_refuted`, `C16_into_refuted`, `C16_default_refuted`; `try_from_i32` overflows, `C16_try_from_i32_refuted`.  With a signed backer
  `TryFrom` even returns a value outside the range, `C16_try_from_invalid_refuted`; `C16_try_from_positive` says exactly what it does.
* F22 `TryFrom` panics when the range is wider than the backing type.  `C16_narrow_refuted`.

Hex, sequences, builders
* F15 `from_hex` accepts "+f" as a byte and panics on a character that straddles a pair.  `C36_plus_refuted`,
  `C36_panic_refuted`, `C37_panic_refuted`.
* F10 `from_iter`/`extend` of FixSeq and LimSeq test the length with `Iterator::nth`, which consumes the items: everything
  that fits is lost.  `C34_collect_refuted`.
* F23 `FixSeq::try_from(&[T])` refuses slices shorter than N although documented otherwise.
  `C34_fix_try_from_slice_refuted`.
* F25 `FixedString: From<[u8; N]>` does not check UTF-8.  `C48_from_array_refuted`.
* F26 `data!` accepts two variants with the same discriminant (the compiler only warns of an unreachable
  arm; `cstyle!` fails to compile): the second variant encodes but decodes as the first.
  `C52_duplicate_discriminant_refuted`.
* F27 (documentation) `TagValidator::has_valid` is documented to return true iff there are no valid tags
  (parse/error.rs 539-543); every implementation and its only caller use the opposite.
* F28 Cargo.toml declares the feature `smallvec_framestack`; the code tests `smallvec_viewstack` (internal/view.rs 4-71),
  so the feature adds a dependency and changes nothing.  (Read off the source; no theorem.)
* F29 Tag errors format the discriminant with `{:#0w$x}`, w = 2 * size_of (parse/error.rs), but the width counts the `0x`: a u8 tag 5 prints as `0x5`, two digits short of the full width.  Exact digit count in `C65_tag`.
* F30 `main.rs` checks the texts "ff" and "42", but `decode` of a text reads its raw bytes unless the feature
  `implicit_hexstring`, off by default, is on: `cargo run` panics at its first assertion.  `C70_main_refuted`.
* F31 `==` on f64 and RangedFloat is IEEE equality, so values with different encodings can be equal (0.0, -0.0) and a value
  need not equal the one decoded from its encoding (NaN).  `C69_refuted`.
* F32 `LeftoverState::append` to an `Empty` leftover clones the vector and leaves it as it was, although its comment says
  the vector is left empty.  `C71_append_drains_refuted`.
* F17 Display of MemoBuffer puts a separator after every byte instead of every group.  `C50_buffer_display_refuted`.
* F33 (withdrawn: `LenPref::suffix` is overridden for `u30`, dynamic.rs 343-345, and gives the promised name.)
* F34 Decoding has no bound on its work that is common to all types: `FixSeq<(), N>` and `LimSeq<(), N>` make up to N parser
  calls on one byte, and `Sequence<()>` on a non-empty window never ends.  `C75_no_common_multiple`, `C75_endless`.
* F35 Writing a Dynamic first counts its contents by writing them to a sink (dynamic.rs 371-387, conv/mod.rs 159-161), so every
  level of nested Dynamics doubles the work: a message of 5n+1 bytes is decoded in linear time and takes at least 2^n steps to
  encode again.  With `enc_len_estimable_override` the work is quadratic instead.  `C76_refuted`, `C76_override_refuted`.
* F36 `ParseError` and `ExternalError` print the text of the error they also return from `source()` (parse/error.rs 60-86,
  409-450), so reports of the chain of causes repeat the same sentence up to three times.  `C80_repeats`.
* F37 A decoder that fails inside a length-prefixed or end-padded value leaves the window it has opened open (dynamic.rs
  390-396, 466-478): a caller who goes on with the same parser only sees the rest of that window and has to close it
  first.  `C81_window_left_open`; what is left is exactly described by `C81_byte`, `C81_memo` and `C81_slice`.
* F38 Nothing limits how deeply a decoder nests: for a type that contains itself (`struct T { next: Option<AutoBox<T>> }`) an
  input of n bytes 0xff followed by 0 has 3n+2 calls of `parse` open at the same time, so a message of untrusted origin can
  exhaust the stack, which aborts the process instead of returning an error.  `C82_deep_input_refuted`; the need is at most
  linear (`C82_linear_partial`) and, without recursion, fixed by the type (`C82_not_recursive_partial`).
* F39 `take_self_terminating` (parse/mod.rs 362), with which `N` and `Z` are decoded, sets aside as many bytes as are left in
  the window before it reads the first.  In a release build the window of a `VPadded` that does not fit (F7) seems to have
  almost 2^64 bytes left, so a `VPadded<N, 2>` at the end of an input makes a release build panic ("capacity overflow").
  `C31_panics_exactly_release`; `C31_panics_exactly_partial` says on exactly which inputs.
* F40 `LimSeq` and `FixSeq` reserve room for all the elements they may have before they look at the input (seq/lim.rs 141-145,
  seq/fix.rs 86-88), and keep it (C83_slots_up_front, C83_slots_kept): `n` zero bytes decode as a list of `n` empty
  `LimSeq<u8, N>` that holds `n * N` bytes.  With the features arrayvec_limseq and arrayvec_fixseq the slots are in the
  value itself instead.
* F41 Windows belong to the parser, not to the one who opened them: a `Decode` written elsewhere can close the window of a
  surrounding length prefix, take bytes behind it, and open an empty window for the prefix to close (C86_case_thief).
  The prefix of `Dynamic` confines only decoders that close exactly the windows they open (C86_dynamic).
* F42 Without check_complete_parse, `<()>::try_decode`, `decode` and `decode_memo` do not convert their input (prim.rs 76-94): with
  implicit_hexstring they accept a text that is not hexadecimal, which every other type refuses, also when the text would
  make the conversion panic (C55_unit_partial, C55_unit_refuted).
* F43 Encoding may need more stack than decoding the same value did: every `Dynamic` on the way down adds the call of `enc_len` (and
  within it the calls that compute the length) to the calls that write.  A value received and decoded just within the stack can
  overflow it, and so abort the process, when it is encoded again.  `C88_more_than_decoding`; never more than twice
  (`C88_decoded`).
* F44 `RangedFloat` with its bounds out of order (or one a NaN) is a type without values, yet its constants `MIN` and `MAX` exist and
  encode; nothing decodes, not even what they encode to (`C20_extremes`, `C20_extremes_wire`).
* F45 Two of the README's "Parser Invariants" (199-232) contradict the trait's documentation and the code: 2c says that opening a
  window leaves `remaining()` as it was (it becomes the width of the window), 7a that `test_target()` equals
  `enforce_target().is_err()` (it is `is_ok()`); mod.rs 81 says that `enforce_target` panics where it returns an error (`C89_*`).
* F46 A `LimSeq` or `FixSeq` whose slots find no room takes the process down before the first byte of the input is looked at,
  and panics ("capacity overflow") if they take more than `isize::MAX` bytes: `LimSeq<u16, {1 << 62}>` cannot even decode an
  empty input (`C90_slots_up_front`; follows from F40).
* F47 (C93; builder/memo.rs 8-11, conv/mod.rs 411-418). A MemoBuilder is said to
  preserve "which bytes were written in a single method call, and which were written
  across different method calls". The tag of `Some` is pushed without a `resolve`, so
  it is shown in one group with the first field of the payload (or, if the payload
  is an empty sequence, alone). The tags of `None` and of enums are groups of their
  own, and a MemoParser logs the tag of `Some` on its own as well. Encoding `Some(258u16)` shows
  `[|ff0102|]`, decoding it logs `[|ff|0102|]`.
* F48 (C95; dynamic.rs 371-387 with conv/mod.rs 189-191). Without
  enc_len_estimable_override, measuring a payload encodes it, so a payload that cannot
  be encoded is noticed before its prefix is written, at every level above. With the
  override the length is computed and says nothing about payloads nested inside: the
  outer prefix is written and then the inner `Dynamic` panics, leaving a length prefix
  without its payload in the target.

* F49 Sizes beyond `isize::MAX` in release builds (see F1), exactly: positions are computed modulo 2^64
  (`C02_release_exact_partial`, `C03_release_exact_partial`).  So `skip_exactly` can move backwards; `set_fit` can open a
  window that ends before the position, whose `remainder()` is close to 2^64 although no byte of it can be read and on
  which `skip(1)` hits `unreachable!`; and a MemoParser that has moved backwards panics, or reads outside the buffer,
  when a refused call prints its log.  `C08_release_exactly_partial` says which calls of a ByteParser read outside the
  buffer.  `C03_release_refuted`, `C04_release_refuted`, `C05_release_refuted`, `C08_release_memo_refuted`,
  `C11_release_refuted`, `C44_release_refuted`.
* F50 `Default` is not a value of its type for `FixSeq<T, N>` with N > 0 (the default is empty; it encodes to
  nothing, which does not decode) and for most `RangedInt` with MIN > 0 (MIN is stored where the distance from
  MIN belongs, so the default stands for 2 MIN: out of range it panics on encoding).  Structs and wrappers that
  contain such a default inherit it (C96_fixseq_refuted, C96_ranged_refuted, C96_exact).
* F51 Printing with `{:?}` can panic: Debug of a Dynamic asks for `enc_len` of its contents (dynamic.rs 218-228), which panics if
  a Dynamic inside them is too long for its prefix.  Such a value can be built, but neither encoded nor shown (the outer value
  alone too long is shown).  `C98_panics_refuted`, exactly when: `C98_text_partial`.
* F52 `decode_memo` is documented to give more debugging information on failure than `decode` (conv/mod.rs 316-318, 345-346), but
  its message leaves out the error, which `decode`'s shows (333-338, 360-366); for `()` it says "ParseError" although the error
  is never one (prim.rs 55-60).  `C103_memo_refuted`, `C103_unit_partial`.

## 6. What is modelled and what is not

Modelled (each definition cites file and lines): internal/offset.rs, internal/stack.rs, internal/view.rs,
internal/splitvec.rs; parse/mod.rs (Parser, ParserExt, the three parsers, cleanup, iterator, fast_kv_search),
parse/buffer.rs accessors, parse/error.rs error values, their texts and `source()`; conv/mod.rs, conv/len.rs, conv/target.rs; int.rs, float.rs,
zarith.rs; dynamic.rs, schema.rs, seq/*, fixed.rs, autobox.rs (codec), adt.rs (everything the macros generate), the three derive macros; hexstring.rs; builder/*; comparison and hashing of values; main.rs. `ModelInterrupt.v` is `write_to` again, keeping the target when it panics (C95).

Simplifications, also said in the comments:
* 64-bit `usize` (`tools/width32.py` makes a copy with a 32-bit `usize`: every proof goes through there too, except `C56_huge_bound_differs`, which needs a bound beyond `u32::MAX`); no allocation failure (decoding with an allocator that refuses is modelled apart, C90), no stack overflow on deeply nested values (C82 and C88 count the open calls of decoders and encoders apart), `Vec::with_capacity(N)` of `LimSeq` and `FixSeq` succeeds (the other uses, in
  `take_self_terminating` and `to_bytes_full`, panic beyond `isize::MAX` bytes, F39).
* C83, C90 and C91 count the bytes asked of the allocator, not how it rounds them; Vec grows as in the standard library (doubling, from 8, 4
  or 1); growing a String takes up to three times its length for a moment; `N` and `Z` keep nothing (num-bigint's storage
  is not modelled); values dropped on an error are not taken off, since the bound is on the most in use.
* A length counter wraps modulo 2^64 only in theory; statements carry `zlen bs < usize_mod`.
* Derive macros are functions from declarations to a small syntax of emitted code (ModelDerive); tokens, generic parameters and
  attributes are left out.
* Error payloads that are only text (`ParseError::…(String)`) keep their arguments, not their rendering.
* Big integers: `num-bigint`'s `to_radix_le`/`from_radix_le` are modelled from their documentation.
* `f64` comparison is the standard library's `SpecFloat` (IEEE 754), a double being its bit pattern.
* `str` functions (`from_utf8`, `from_utf8_lossy`, slicing at character boundaries) are modelled from the Rust
  documentation; C40 relates them to an independent definition of UTF-8.

Not modelled: the optional feature `serde_impls` and the unreachable `smallvec_viewstack`; Display/Debug texts other than those of C50, C65, C66, C67, C72, C74, C80, C98, C102 and C105 (foreign errors' texts are parameters there); benches.

## 7. Trusted base

* Coq 8.16.1's kernel (and `vm_compute`, used in proofs of finite facts).
* `Print Assumptions` under every property theorem prints "Closed under the global context": no axiom is used, neither
  ours nor the standard library's.  (The checker that lists axioms *present in loaded library modules* shows seven
  fields of `Coq.ssr.ssrunder.Under_rel`; they come with `Lia`/`ssreflect`'s files being loaded, and no theorem uses them.)
* That the model is a faithful reading of the Rust source; the comments citing files and lines are there to check it.
  `Conformance.v` evaluates in the model the assertions of /repo's unit tests and doc comments: all of them hold.
* No functor, module type, `Declare Module`, unsafe flag, or plug-in beyond those of the standard distribution.

## 8. Mutation testing

`seeded/LOG.jsonl` has one line per wrong program.  Each mutant edits one definition of a `Model*.v` file in a scratch
copy.  Two things are then checked: a file of concrete instances of every theorem *statement* is evaluated against the
mutated model (`theorems_falsified`: statements that are now false, whatever the proofs do), and the whole
development is rebuilt (`first_failures`: the lemmas at which the build stops; `theorems_failed`: property theorems
depending on them).  A mutant whose claim is broken but which falsifies no statement shows a statement that is too weak.

Rows S, T and U of the log (C106) are of the first kind only: the C106 statements were evaluated on concrete instances
against the mutated model, without rebuilding the proofs.  Two of those edits change a message inside another and the
message on its own alike; C106 compares the two and still holds.
