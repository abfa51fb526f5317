{"id": "C01", "title": "consume is exact after any history", "statement": "After any sequence of parser calls, consume(n) succeeds exactly when n <= remainder(). On success it returns precisely the next n unconsumed bytes of the input, in order, and remainder() drops by n. On failure the parser's observable state (remainder, offset, next bytes, open windows) is unchanged. consume_byte() behaves as consume(1).", "quantifier": "all input buffers, all histories of parser calls, all n", "why_tests_cant": "The set of call histories is infinite; a boundary error may need a particular nesting of windows before it shows.", "anchors": ["src/parse/mod.rs::Parser::consume", "src/parse/mod.rs::Parser::consume_byte", "src/parse/mod.rs::byteparser::ByteParser", "src/internal/offset.rs::Index::increment_checked"]}
{"id": "C02", "title": "ByteParser refines a stack of byte lists", "statement": "Every sequence of calls (consume, consume_byte, skip, skip_exactly, set_fit, test_target, enforce_target, remainder) on a ByteParser gives the same results as on the simplest reference machine: a stack of byte lists whose top is the current window.", "quantifier": "all buffers and all finite call sequences", "why_tests_cant": "Refinement relates infinitely many histories; unit tests sample a handful.", "anchors": ["src/parse/mod.rs::byteparser::ByteParser", "src/internal/offset.rs::ContextOffset"]}
{"id": "C03", "title": "MemoParser is observationally equal to ByteParser", "statement": "For every buffer and every sequence of calls, MemoParser returns exactly the same results (values, errors, offsets, remainders) as ByteParser.", "quantifier": "all buffers and all finite call sequences", "why_tests_cant": "Two stateful implementations must agree on every history.", "anchors": ["src/parse/mod.rs::memoparser::MemoParser", "src/parse/mod.rs::byteparser::ByteParser"]}
{"id": "C04", "title": "SliceParser agrees with ByteParser", "statement": "On every history in which enforce_target is only called with a window open and fully consumed, SliceParser and ByteParser succeed on the same calls and return the same bytes.", "quantifier": "all buffers and all well-bracketed call sequences", "why_tests_cant": "The two keep windows in different ways (absolute offsets versus split slices); agreement needs a simulation argument.", "anchors": ["src/parse/mod.rs::sliceparser::SliceParser", "src/parse/mod.rs::byteparser::ByteParser"]}
{"id": "C05", "title": "context windows protect the bytes behind them", "statement": "set_fit(n) succeeds exactly when n <= remainder(), and then remainder() is n. Until that window is lifted, no call returns or skips a byte beyond its end, however windows are nested inside it, and windows never widen.", "quantifier": "all buffers, all histories, all n", "why_tests_cant": "Protection must survive every continuation of the history.", "anchors": ["src/parse/mod.rs::Parser::set_fit", "src/internal/offset.rs::ContextOffset::set_fit", "src/internal/stack.rs::Stack::push_validated"]}
{"id": "C06", "title": "a window is lifted only when fully consumed", "statement": "enforce_target() succeeds exactly when a window is open and has no unconsumed byte; then it removes that window only. When it fails, the window stays in force.", "quantifier": "all buffers and histories", "why_tests_cant": "The failing branch must be checked in every reachable state.", "anchors": ["src/parse/mod.rs::Parser::enforce_target", "src/internal/offset.rs::ContextOffset::enforce_target", "src/parse/mod.rs::sliceparser::SliceParser::enforce_target"]}
{"id": "C07", "title": "test_target predicts enforce_target", "statement": "test_target() returns true exactly when at least one window is open and remainder() is 0, i.e. exactly when enforce_target() would succeed, and it changes nothing.", "quantifier": "all buffers and histories", "why_tests_cant": "Equivalence of two calls over every reachable state.", "anchors": ["src/parse/mod.rs::Parser::test_target", "src/internal/offset.rs::ContextOffset::test_target", "src/parse/mod.rs::sliceparser::SliceParser::test_target"]}
{"id": "C08", "title": "no call reads outside the buffer", "statement": "No sequence of safe Parser calls ever accesses memory outside the buffer, in debug or release builds.", "quantifier": "all buffers, histories and argument values", "why_tests_cant": "The unsafe accessors are guarded by arithmetic that tests do not drive to the wrap-around values.", "anchors": ["src/internal/offset.rs::Index::increment_checked", "src/parse/buffer.rs::VecBuffer::get_slice_unchecked", "src/parse/buffer.rs::VecBuffer::get_byte"]}
{"id": "C09", "title": "cleanup returns exactly what was not consumed", "statement": "cleanup() on a parser in any reachable state succeeds and returns, in order, exactly the unconsumed bytes; bytes returned earlier plus bytes in the leftover are the whole input. The leftover records one segment per open window, and is reported empty exactly when no byte is left.", "quantifier": "all buffers and histories", "why_tests_cant": "Needs an invariant over window stacks of every depth.", "anchors": ["src/parse/mod.rs::Parser::cleanup", "src/parse/mod.rs::cleanup::LeftoverState"]}
{"id": "C10", "title": "MemoParser's log partitions the consumed prefix", "statement": "At every point of every history the recorded munch lengths add up to the offset, so the state dump shows exactly the bytes consumed so far, grouped by call.", "quantifier": "all buffers and histories", "why_tests_cant": "Every consuming method must record; forgetting one only shows on histories that use it.", "anchors": ["src/parse/mod.rs::memoparser::MemoParser", "src/parse/mod.rs::memoparser::MemoParser::skip_exactly"]}
{"id": "C11", "title": "skipping equals consuming and discarding", "statement": "skip(n) consumes min(n, remainder()) bytes and returns that count; skip_exactly(n) succeeds and fails exactly as consume(n) and leaves the same state; skip_dynamic on a length-prefixed payload moves just past it, leaves the windows as they were and returns the payload length.", "quantifier": "all buffers, states and counts", "why_tests_cant": "All offsets, window nestings and counts.", "anchors": ["src/parse/mod.rs::ParserExt::skip", "src/parse/mod.rs::ParserExt::skip_exactly", "src/parse/mod.rs::ParserExt::skip_dynamic", "src/parse/mod.rs::ParserExt::process_prefix"]}
{"id": "C12", "title": "fast_kv_search finds the first binding", "statement": "On a window holding a serialized association list with fixed-size keys and values, fast_kv_search(k) returns the value of the first entry whose key is k, stopping right after it; if no entry has key k it returns None with the window fully consumed. On a malformed tail it fails instead of inventing a value.", "quantifier": "all association lists, keys, key and value sizes", "why_tests_cant": "Lists of any length with duplicate keys anywhere.", "anchors": ["src/parse/mod.rs::ParserExt::fast_kv_search"]}
{"id": "C13", "title": "fixed-width integers are exact big-endian", "statement": "For each of u8..u64 and i8..i64, every value encodes to its two's-complement big-endian bytes, decoding gives the value back, and every byte string of the right length decodes to a value that re-encodes to it.", "quantifier": "all values of all eight types, all byte strings", "why_tests_cant": "2^64 values.", "anchors": ["src/int.rs::impl_be_transcoding", "src/parse/mod.rs::Parser::take_u64"]}
{"id": "C14", "title": "booleans and tags decode only from legal bytes", "statement": "A bool decodes only from 0x00 or 0xff; an enum discriminant decodes only to one of its declared values; anything else is an error, never another value.", "quantifier": "all bytes, all tag widths, all sets of valid tags", "why_tests_cant": "All tag sets and all raw values.", "anchors": ["src/parse/mod.rs::Parser::take_bool", "src/parse/mod.rs::Parser::take_tagword", "src/adt.rs::cstyle", "src/parse/error.rs::TagValidator"]}
{"id": "C15", "title": "ranged integers decode only in range", "statement": "Decoding a RangedInt<I, MIN, MAX> from any bytes gives either an error or a value whose numeric value lies in MIN..=MAX; every in-range value round-trips, and the wire form of a range with positive MIN is the offset from MIN.", "quantifier": "all backers, all MIN/MAX (with invalid_range_checking: those it accepts, and all others panic), all byte strings", "why_tests_cant": "Range parameters are arbitrary; the shift is only visible for positive minima.", "anchors": ["src/int.rs::RangedInt", "src/error.rs::BoundsError::restrict"]}
{"id": "C16", "title": "checked constructors of ranged integers are faithful", "statement": "Every conversion that builds a RangedInt from a number x (try_from_i32, TryFrom<integer>) succeeds exactly when MIN <= x <= MAX and then to_i32() and conversion back give x; Default, min_val and max_val are valid values of the range.", "quantifier": "all ranges and all numbers", "why_tests_cant": "Ranges with positive minimum use a shifted representation; conversions must agree for every range.", "anchors": ["src/int.rs::RangedInt::try_from_i32", "src/int.rs::TryFrom", "src/int.rs::Default"]}
{"id": "C17", "title": "natural numbers of any size round-trip", "statement": "Every natural number encodes as little-endian groups of 7 bits with a continuation bit on all but the last byte, without a redundant final group, and decodes back to itself with the parser stopped right after its last byte.", "quantifier": "all natural numbers, all trailing bytes", "why_tests_cant": "Unbounded integers; group boundaries at every 7 bits.", "anchors": ["src/zarith.rs::n::N"]}
{"id": "C18", "title": "integers of any size and sign round-trip", "statement": "Every integer encodes with the sign in bit 6 of the first byte, 6 low bits in that byte and 7 bits in each further byte, without a redundant final group, and decodes back to itself with the parser stopped right after its last byte.", "quantifier": "all integers, all trailing bytes", "why_tests_cant": "Unbounded integers of both signs.", "anchors": ["src/zarith.rs::z::Z"]}
{"id": "C19", "title": "zarith decoding is unambiguous", "statement": "Each integer has exactly one accepted byte representation: any bytes that decode to an N or Z are the bytes that value encodes to.", "quantifier": "all byte strings", "why_tests_cant": "Non-canonical forms (redundant groups, negative zero) are unbounded in number.", "anchors": ["src/zarith.rs::n::N", "src/zarith.rs::z::Z"]}
{"id": "C20", "title": "floats round-trip bit for bit and ranged floats stay in range", "statement": "Every f64 bit pattern (including NaN payloads, infinities and negative zero) survives encode/decode; decoding a RangedFloat<MIN, MAX> gives an error or a value v with MIN <= v <= MAX, never NaN.", "quantifier": "all 2^64 bit patterns, all bounds", "why_tests_cant": "2^64 patterns; NaN compares false with everything.", "anchors": ["src/float.rs::RangedFloat", "src/error.rs::BoundsError::restrict_float"]}
{"id": "C21", "title": "every composed schema round-trips", "statement": "For every schema built from the library's types (integers, ranged integers, floats, bool, N, Z, Option, Nullable, Bytes, String, fixed bytes and strings, Sequence, LimSeq, FixSeq, Dynamic, Padded, VPadded, derived structs, cstyle!/data! enums, AutoBox including recursive types) that obeys the length discipline, every value that encodes decodes back to the same value.", "quantifier": "all well-formed schemas of any depth and all their values; any feature flags, except that enc_len_estimable_override is off or the value holds no natural number 0 (its length is then miscounted, see C28), and the SliceParser is used without check_complete_parse (see C42)", "why_tests_cant": "Schemas and values are unbounded trees.", "anchors": ["src/conv/mod.rs::Encode", "src/conv/mod.rs::Decode", "src/dynamic.rs", "src/schema.rs", "src/seq", "src/adt.rs", "src/autobox.rs"]}
{"id": "C22", "title": "self-delimiting schemas consume exactly their encoding", "statement": "Decoding a self-delimiting schema from its encoding followed by arbitrary bytes returns the value and leaves exactly those bytes; hence encodings are prefix-free and different values have different encodings.", "quantifier": "all self-delimiting schemas, values and trailing bytes; any feature flags, except that enc_len_estimable_override is off or the value holds no natural number 0 (its length is then miscounted, see C28)", "why_tests_cant": "All trailing contexts.", "anchors": ["src/conv/mod.rs::Decode::parse", "src/dynamic.rs::Dynamic", "src/seq/fix.rs::FixSeq"]}
{"id": "C23", "title": "truncated input is rejected", "statement": "Decoding any strict prefix of the encoding of a value of a self-delimiting schema fails.", "quantifier": "all self-delimiting schemas, all values, all truncation points; enc_len_estimable_override off, or on with values that hold no natural number 0", "why_tests_cant": "All truncation points of all values.", "anchors": ["src/conv/mod.rs::Decode::try_decode", "src/parse/mod.rs::Parser::consume"]}
{"id": "C24", "title": "decoding yields only valid values", "statement": "Whatever the input, a successful decode returns a value valid for its schema: ranged numbers in range, bounded sequences within bounds, FixSeq exactly N long, enum tags declared, byte strings of the declared size.", "quantifier": "all schemas and all inputs", "why_tests_cant": "All adversarial inputs.", "anchors": ["src/conv/mod.rs::Decode", "src/seq/lim.rs::LimSeq", "src/seq/fix.rs::FixSeq", "src/int.rs::RangedInt"]}
{"id": "C25", "title": "accepted bytes are the encoding of the decoded value", "statement": "For schemas without lossy or non-canonical components, the bytes a successful decode consumes are exactly the bytes the decoded value encodes to.", "quantifier": "all canonical schemas and all inputs", "why_tests_cant": "Quantifies over all inputs, including ones no encoder produces.", "anchors": ["src/conv/mod.rs::Decode", "src/conv/mod.rs::Encode", "src/dynamic.rs::Dynamic"]}
{"id": "C26", "title": "write_to returns the number of bytes it appended", "statement": "For every schema, value and target, write_to only appends, and its return value is the number of bytes appended.", "quantifier": "all schemas, values, targets and prior contents", "why_tests_cant": "Every composition must add up.", "anchors": ["src/conv/mod.rs::Encode::write_to", "src/conv/target.rs::Target"]}
{"id": "C27", "title": "every target receives the same bytes", "statement": "Encoding a value into Vec<u8>, HexString, StrictBuilder or MemoBuilder yields the same bytes, and the byte counter reports their number; builders' segmentation never affects content.", "quantifier": "all schemas, values, targets", "why_tests_cant": "Generic code must be parametric in the target for every composition.", "anchors": ["src/conv/target.rs", "src/builder", "src/hexstring.rs"]}
{"id": "C28", "title": "estimated length equals encoded length", "statement": "For every value, Estimable::estimate (and KNOWN where defined) is exactly the number of bytes its encoding has.", "quantifier": "all schemas and values", "why_tests_cant": "Values where bit-length sits at group boundaries, zero, and nested combinators.", "anchors": ["src/conv/len.rs::Estimable", "src/zarith.rs", "src/dynamic.rs", "estimable_derive"]}
{"id": "C29", "title": "dynamic prefix is the payload length", "statement": "Encoding Dynamic<S, T> writes a prefix equal to the number of payload bytes that follow, and panics exactly when that number exceeds what S can carry; decoding accepts only if the payload decoder consumes exactly the announced number of bytes.", "quantifier": "all prefixes, payload schemas, values and inputs", "why_tests_cant": "Payload lengths up to 2^32.", "anchors": ["src/dynamic.rs::Dynamic", "src/dynamic.rs::LenPref"]}
{"id": "C30", "title": "decoding terminates", "statement": "For every schema and every input, decoding returns after a number of steps bounded by the input length and schema size.", "quantifier": "all schemas and inputs", "why_tests_cant": "Non-termination cannot be observed by a test.", "anchors": ["src/seq/mod.rs::Sequence", "src/parse/mod.rs::Parser::take_self_terminating"]}
{"id": "C31", "title": "decoding untrusted input never panics or corrupts memory", "statement": "For every schema and every input, decoding returns Ok or Err; it does not panic and does not access memory out of bounds, in debug and in release builds.", "quantifier": "all schemas, all inputs, both build modes", "why_tests_cant": "Adversarial inputs; wrap-around arithmetic appears only in release builds.", "anchors": ["src/dynamic.rs::VPadded", "src/internal/offset.rs::ContextOffset::set_fit", "src/dynamic.rs::LenPref::parse_as_usize"]}
{"id": "C32", "title": "the choice of parser does not change the result", "statement": "For every schema and input, decoding through ByteParser, MemoParser and SliceParser succeeds on the same inputs with the same value.", "quantifier": "all schemas and inputs", "why_tests_cant": "All pairs of schema and input.", "anchors": ["src/parse/mod.rs::byteparser", "src/parse/mod.rs::memoparser", "src/parse/mod.rs::sliceparser"]}
{"id": "C33", "title": "bounded sequences hold their bounds on the wire", "statement": "Decoding LimSeq<T, N> never returns more than N elements and FixSeq<T, N> returns exactly N; try_push on a full sequence fails and leaves it unchanged; encoding a FixSeq that does not hold N elements is refused.", "quantifier": "all N, element schemas, inputs and push histories", "why_tests_cant": "All lengths around every bound.", "anchors": ["src/seq/lim.rs", "src/seq/fix.rs", "src/seq/boundedseq_impl.rs::try_push"]}
{"id": "C34", "title": "collecting into a bounded sequence keeps every element", "statement": "collect()/extend() of an iterator that fits within the bound yields exactly the iterator's elements, in order, appended to what was there; TryFrom of a Vec or slice that fits does too.", "quantifier": "all iterators and bounds", "why_tests_cant": "All lengths and bounds; the check itself consumes the iterator.", "anchors": ["src/seq/fix.rs::FromIterator", "src/seq/fix.rs::Extend", "src/seq/lim.rs::FromIterator", "src/seq/lim.rs::Extend"]}
{"id": "C35", "title": "hex rendering round-trips", "statement": "to_hex gives two lower-case digits per byte; from_hex(to_hex(b)) is b for all bytes, and from_hex ignores letter case.", "quantifier": "all byte strings and all mixed-case hex strings", "why_tests_cant": "All lengths and all case patterns.", "anchors": ["src/hexstring.rs::HexString::to_hex", "src/hexstring.rs::HexString::from_hex"]}
{"id": "C36", "title": "from_hex rejects everything that is not hex", "statement": "from_hex accepts exactly the even-length strings of hexadecimal digits, reports odd length as such, and returns an error (never panics) on anything else.", "quantifier": "all strings, including non-ASCII", "why_tests_cant": "All strings; the accepted set is a property of a library number parser.", "anchors": ["src/hexstring.rs::util::bytes_of_hex"]}
{"id": "C37", "title": "eq_hex is comparison of decoded bytes", "statement": "eq_hex(s) on bytes b is true exactly when from_hex(s) gives b.", "quantifier": "all strings and byte strings", "why_tests_cant": "Two separate loops must agree on all strings.", "anchors": ["src/hexstring.rs::util::eq_hex_bytes", "src/hexstring.rs::HexString::eq_hex"]}
{"id": "C38", "title": "SplitVec segment lengths always add up", "statement": "After any sequence of operations on a SplitVec, the segment lengths sum to the number of elements (is_balanced is true), the elements are the concatenation of everything appended, and splitting never changes the elements.", "quantifier": "all operation sequences and element types", "why_tests_cant": "Histories of any length; lazily flushed counters.", "anchors": ["src/internal/splitvec.rs::SplitVec", "src/internal/splitvec.rs::SpanBuffer"]}
{"id": "C39", "title": "iterating a SplitVec gives back its segments", "statement": "spans() yields slices whose concatenation is the whole buffer, forwards and backwards, with the segment boundaries that were set; collecting segments and iterating gives the segments back.", "quantifier": "all SplitVecs reachable through the API", "why_tests_cant": "All segmentations, including empty segments.", "anchors": ["src/internal/splitvec.rs::Spans", "src/internal/splitvec.rs::SplitVec::spans"]}
{"id": "C40", "title": "valid UTF-8 strings round-trip", "statement": "Every Rust string survives String encode/decode unchanged; bytes that are not UTF-8 decode to a valid string with replacement characters.", "quantifier": "all strings of Unicode scalar values and all byte strings", "why_tests_cant": "All code points and all malformed sequences.", "anchors": ["src/conv/mod.rs::Decode for String", "src/fixed.rs::FixedString"]}
{"id": "C41", "title": "padding is transparent", "statement": "Padded<T, N> writes the value followed by exactly N zero bytes and decoding drops exactly N bytes (rejecting non-zero ones when check_padding is on); VPadded<T, N> decodes its content from all but the last N bytes of the enclosing window and leaves those N bytes.", "quantifier": "all N, schemas, values and inputs", "why_tests_cant": "All amounts of padding in all windows.", "anchors": ["src/schema.rs::Padded", "src/dynamic.rs::VPadded"]}
{"id": "C42", "title": "a complete-parse check accepts exactly exhausted inputs", "statement": "With check_complete_parse on, try_decode succeeds exactly when parsing succeeds and consumes the whole input; with it off, trailing bytes are ignored.", "quantifier": "all schemas and inputs", "why_tests_cant": "All inputs with trailing data.", "anchors": ["src/conv/mod.rs::Decode::try_decode", "src/parse/mod.rs::cleanup::LeftoverState::is_empty"]}
{"id": "C43", "title": "fixed-length types always encode to LEN bytes", "statement": "For every type with a constant length (FixedLength::LEN or Estimable::KNOWN), every value encodes to exactly that many bytes, including derived structs and arrays of such types.", "quantifier": "all fixed-length schemas and all values", "why_tests_cant": "All compositions.", "anchors": ["src/conv/len.rs::FixedLength", "estimable_derive", "src/seq/fix.rs::FixSeq"]}
{"id": "C44", "title": "the byte iterator yields the rest of the window", "statement": "Iterating a parser yields exactly the unconsumed bytes of the current window, in order, then None, and afterwards remainder() is 0.", "quantifier": "all reachable parser states", "why_tests_cant": "All states.", "anchors": ["src/parse/mod.rs::impl_iterator_parser"]}
{"id": "C45", "title": "window errors report true numbers", "statement": "A ConsumeWouldExceedLimit error reports the actual offset, request and limit; OpenWouldExceedBuffer reports the actual number of bytes left; CloseWithResidue reports the number of unconsumed bytes.", "quantifier": "all failing calls in all states", "why_tests_cant": "Error payloads are rarely asserted.", "anchors": ["src/internal/offset.rs::ContextOffset::set_fit", "src/parse/error.rs::WindowError"]}
{"id": "C46", "title": "bounds checks classify correctly", "statement": "BoundsError::restrict returns the value exactly when it lies within the bounds and otherwise names the violated side (Underflow, Overflow, IllegalNegative, InvalidBounds).", "quantifier": "all values and bounds", "why_tests_cant": "All orderings of value, minimum and maximum.", "anchors": ["src/error.rs::BoundsError::restrict", "src/error.rs::BoundsError::restrict_float"]}
{"id": "C47", "title": "safe buffer accessors are total or panic", "statement": "VecBuffer::get_byte, get_slice and SliceBuffer::split, take return the requested bytes when in range and panic otherwise; they never read out of bounds.", "quantifier": "all buffers, indices and lengths", "why_tests_cant": "Indices at and beyond the boundary, including those whose sum wraps.", "anchors": ["src/parse/buffer.rs::VecBuffer::get_byte", "src/parse/buffer.rs::VecBuffer::get_slice", "src/parse/buffer.rs::SliceBuffer::split"]}
{"id": "C48", "title": "fixed-size byte and string constructors check length", "statement": "FixedBytes<N> and FixedString<N> can be built from a slice exactly when it has N bytes (FixedString from an array additionally exactly when it is UTF-8), and hold those bytes unchanged.", "quantifier": "all N and slices", "why_tests_cant": "All lengths.", "anchors": ["src/fixed.rs::bytestring::FixedBytes", "src/fixed.rs::charstring::FixedString"]}
{"id": "C49", "title": "builders hold exactly the bytes written", "statement": "A StrictBuilder or MemoBuilder, however created (create, empty, word, words, promote, from a vector or slice) and after any history of Target and io::Write calls, converts to exactly the bytes handed to it, in order; len counts them, is_empty is true iff there are none, every call returns the number of bytes it added, into_hex is their lower-case hex (and parses back), into_bin succeeds exactly on UTF-8 and returns them unchanged; both builders agree.", "quantifier": "all constructors, all finite histories of push_one/push_many/push_all/write/resolve/flush/anticipate calls, all bytes", "why_tests_cant": "Arbitrary interleavings of writes and segment closings.", "anchors": ["src/builder/mod.rs::Builder", "src/builder/strict.rs::StrictBuilder", "src/builder/memo.rs::MemoBuilder"]}
{"id": "C50", "title": "printed groups are the groups written", "statement": "A MemoBuilder keeps, through finalize, the grouping of its bytes (cut at every resolve and flush); printing a MemoBuilder, its finalized MemoBuffer or a SplitVec never panics and shows exactly these groups, and the printed text determines them.", "quantifier": "all histories of builder calls and of SplitVec calls", "why_tests_cant": "Any grouping, including empty groups, of any bytes.", "anchors": ["src/builder/memo.rs::Display for MemoBuilder", "src/builder/memo.rs::Display for MemoBuffer", "src/internal/splitvec.rs::Display for SplitVec", "src/internal/splitvec.rs::Debug for SplitVec"]}
{"id": "C51", "title": "build profile and options do not change results", "statement": "A debug and a release build accept the same inputs with the same values and encode every value to the same bytes; turning on check_padding or check_complete_parse can only reject inputs, never change a value; the remaining options change no decoding result; wherever a debug build panics while decoding, a release build does not accept the input (and returns a parse error if the schema has no VPadded).", "quantifier": "all schemas, inputs, values, parsers and pairs of configurations", "why_tests_cant": "Tests run one profile and one feature set at a time.", "anchors": ["Cargo.toml::features", "src/conv/mod.rs::Decode::try_decode", "src/schema.rs::Padded", "src/int.rs::RangedInt::try_from_underlying", "src/internal/offset.rs::ContextOffset::set_fit"]}
{"id": "C52", "title": "enum helpers agree with the codec", "statement": "For every enum declared with cstyle! or data!: is_valid_tag(n), n in iter_tags(), get_name(n) being Some and (cstyle!) TryFrom(n) succeeding are equivalent; TryFrom is the inverse of get_tagval; get_name gives the name of the variant with that tag; decoding is TryFrom on the number read (same variant or the same error, quoting the number and listing all tags) and an encoding starts with get_tagval, big-endian.", "quantifier": "all enum declarations with distinct discriminants, all numbers, all following bytes, all parsers", "why_tests_cant": "Every declaration and every number, including u32 discriminants.", "anchors": ["src/adt.rs::cstyle!", "src/adt.rs::data!", "src/parse/error.rs::TagError"]}
{"id": "C53", "title": "errors of decoding are justified", "statement": "A parse error returned by try_decode names a requirement that some part of the type really makes (a tag list, boolean, bound, length, padding, termination) and quotes bytes that occur in the input and do not meet it; internal errors (slice coercion, closing without a window, offset overflow) are never reported. take_tagword with an array, slice, vector or set of accepted numbers returns exactly the accepted ones and reports any other together with the whole list.", "quantifier": "all schemas, inputs and parsers; for take_tagword also all parser states", "why_tests_cant": "Every malformed input of every schema.", "anchors": ["src/parse/error.rs::ParseError", "src/parse/mod.rs::Parser::take_tagword", "src/parse/error.rs::TagValidator", "src/conv/mod.rs::Decode::try_decode"]}
{"id": "C54", "title": "numeric parser methods equal decoding", "statement": "take_u8, take_i8, ..., take_u64, take_i64 return the number whose big-endian form comes next and do exactly what decoding the integer type does: the same result or error and the same parser state afterwards.", "quantifier": "all buffers, all reachable states of the three parsers, all integer types; in release builds states reached with sizes up to isize::MAX", "why_tests_cant": "u8 and i8 use another primitive than decoding, in every state.", "anchors": ["src/parse/mod.rs::Parser::take_u8", "src/parse/mod.rs::Parser::take_i64", "src/int.rs::Decode"]}
{"id": "C55", "title": "every kind of input decodes alike", "statement": "try_decode, decode and decode_memo of a slice, Vec, array, HexString or text depend only on the bytes the input stands for (for a text its UTF-8 bytes, or with implicit_hexstring the bytes it denotes in hexadecimal); decode and decode_memo return exactly what try_decode accepts and panic exactly when it fails; a conversion error occurs only for a text that is not hexadecimal; decoding any input standing for an encoding gives back the encoded value.", "quantifier": "all inputs, schemas, values and configurations", "why_tests_cant": "All texts and values; the feature changes the meaning of the same text.", "anchors": ["src/conv/mod.rs::Decode::decode", "src/conv/mod.rs::Decode::decode_memo", "src/conv/mod.rs::Decode::try_decode", "src/parse/buffer.rs::VecBuffer", "src/parse/mod.rs::TryIntoParser", "src/conv/error.rs::DecodeError"]}
{"id": "C56", "title": "the storage of bounded sequences does not show", "statement": "Building with arrayvec_fixseq and arrayvec_limseq changes no result of FixSeq and LimSeq: creating, pushing, extending, collecting, converting and decoding give the same sequences, the same errors and the same panics, and never undefined behaviour.", "quantifier": "all bounds an ArrayVec supports, all contents, iterators, parser states and element decoders", "why_tests_cant": "Tests run with one of the two storages; the unchecked push must be safe after every history.", "anchors": ["src/seq/fix.rs::FixSeq", "src/seq/lim.rs::LimSeq", "src/seq/boundedseq_impl.rs::BoundedSeqImpl::push_unchecked"]}
{"id": "C57", "title": "single-precision numbers enter a ranged float exactly", "statement": "RangedFloat::try_from(x: f32) and prevalidate_f32 succeed exactly when MIN <= x <= MAX as numbers, the stored double is the same number as x (subnormals, both zeros and infinities included), and a NaN is refused; get_validated succeeds exactly for stored numbers in the range and returns them unchanged.", "quantifier": "all 2^32 single patterns, all bounds", "why_tests_cant": "2^32 patterns against 2^128 bounds; subnormals and NaNs are rare in tests.", "anchors": ["src/float.rs::RangedFloat::prevalidate_f32", "src/float.rs::TryFrom<f32>", "src/float.rs::RangedFloat::get_validated", "src/error.rs::BoundsError::restrict_float"]}
{"id": "C58", "title": "the announced length prefix is the one written", "statement": "Dynamic::length_prefix returns the number of bytes of the encoded payload when the prefix type can hold it and otherwise TooWide with the exact limit and width; encoding writes exactly the announced prefix followed by the payload, and panics whenever no prefix is announced.", "quantifier": "all schemas, payloads, prefix types and configurations", "why_tests_cant": "Payloads at the edge of a 30-bit prefix are not tested; the prefix is computed by a separate pass over the value.", "anchors": ["src/dynamic.rs::Dynamic::length_prefix", "src/dynamic.rs::LenPref::max_len", "src/dynamic.rs::Encode"]}
{"id": "C59", "title": "natural numbers and integers convert to machine integers", "statement": "Converting a decoded N or Z to a machine integer type succeeds exactly when the number written in the input fits that type, and gives that number; every machine integer survives encoding as Z, decoding and converting back.", "quantifier": "all inputs, numbers and target types", "why_tests_cant": "Numbers of any size; each target has its own limits.", "anchors": ["src/zarith.rs::N", "src/zarith.rs::Z", "src/zarith.rs::impl_nat_coerce", "src/zarith.rs::impl_int_coerce"]}
{"id": "C60", "title": "decoding accepts exactly the wire grammar", "statement": "For every type built from the library's codecs there is a grammar saying which bytes denote which value and how many of them are used. Parsing an input as the type returns a value and leaves a rest exactly when the grammar says the input denotes that value and leaves that rest; the grammar is unambiguous; encoded bytes denote the encoded value; bytes that denote nothing are refused with a parse error (or, on the inputs of C31, a panic) whenever decoding of the type ends.", "quantifier": "all types, recursive definitions, build configurations, parsers and byte strings; for encoded bytes: enc_len_estimable_override off, or on with values that hold no natural number 0", "why_tests_cant": "Acceptance is a statement about every byte string: a test can only show that chosen inputs are accepted or refused, not that nothing else is.", "anchors": ["src/conv/mod.rs::Decode", "src/dynamic.rs::Decode for Dynamic", "src/seq/mod.rs::Sequence", "src/seq/lim.rs", "src/seq/fix.rs", "src/schema.rs::Padded", "src/adt.rs", "src/zarith.rs", "src/int.rs", "src/float.rs", "src/prim.rs"]}
{"id": "C61", "title": "what was decoded can be encoded again", "statement": "Encoding a value obtained by decoding never panics and produces no more bytes than decoding used; decoding those bytes through any parser gives the same value.", "quantifier": "all types, recursive definitions, build configurations, parsers and byte strings", "why_tests_cant": "Values that come from untrusted bytes (redundant number groups, replacement characters, padding) are not the ones a test author constructs.", "anchors": ["src/conv/mod.rs::Decode", "src/conv/mod.rs::Encode", "src/dynamic.rs::Encode for Dynamic", "src/zarith.rs"]}
{"id": "C62", "title": "derived codecs treat every member once, in order", "statement": "For every struct declaration (unit, tuple or named fields, including self-referential ones) the code emitted by #[derive(Decode)], #[derive(Encode)] and #[derive(Estimable)] reads each member once in the order of declaration and assigns it the value read, writes the members in that order whatever their layout in memory, and estimates the sum of the members' lengths; deriving Encode and Decode together therefore round-trips.", "quantifier": "all struct declarations with distinct member names, all member types of the library, all values, inputs, parsers, targets and build options; for the round trip: enc_len_estimable_override off, or on with values that hold no natural number 0", "why_tests_cant": "The macros are programs over declarations; tests exercise a handful of declarations, a wrong index or order shows only for particular field lists.", "anchors": ["decode_derive/src/lib.rs: impl_decode", "encode_derive/src/lib.rs: impl_encode", "estimable_derive/src/lib.rs: impl_estimable"]}
{"id": "C63", "title": "derived FixedLength is the total length", "statement": "#[derive(FixedLength)] on a struct whose members all have a fixed length yields an implementation whose LEN is the sum of their lengths.", "quantifier": "all struct declarations", "why_tests_cant": "It is a statement about every declaration; no test of the library derives FixedLength on a tuple struct, which is the failing case.", "anchors": ["estimable_derive/src/lib.rs: impl_fixedlength"]}
{"id": "C64", "title": "decoded values are proportional to the input", "statement": "For every type whose decoding terminates there is a constant, depending on the type alone, such that decoding an input of n bytes never builds a value of more than that constant times (n + 1) nodes, string bytes and number bytes; the constant can be computed from the declarations, and holds for every intermediate value in terms of the bytes it consumed.", "quantifier": "all type declarations (recursive ones included), all inputs, parsers and build options", "why_tests_cant": "A resource bound ranges over all adversarial inputs; a test can only measure inputs it thought of.", "anchors": ["src/conv/mod.rs: Decode", "src/seq/mod.rs", "src/seq/lim.rs", "src/seq/fix.rs", "src/dynamic.rs"]}
{"id": "C65", "title": "Error messages tell the true numbers and are unambiguous", "statement": "The text displayed for a parse error contains exactly the numbers of that error (requested size, offset, limit, excess, bound and value, length found and expected) in the order of its sentence; bytes are shown in hexadecimal and tag discriminants as the hexadecimal value of the offending tag together with the type's name; two different errors never have the same message (foreign errors and tag errors' lists of valid tags, which are not displayed, aside).", "quantifier": "every parse error value with any numbers and byte strings, every type name, tag width and discriminant", "why_tests_cant": "A test can compare a few messages; a swapped pair of numbers is invisible when they are equal or unchecked, and ambiguity is a statement about all pairs of errors.", "anchors": ["src/parse/error.rs: Display for ParseError, WindowError, TokenError, InternalError, ExternalError", "src/error.rs: Display for BoundsError, LengthError, WidthError"]}
{"id": "C66", "title": "Numbers print faithfully", "statement": "An arbitrary-precision natural or integer displays as its decimal numeral, without needless zeros and with a minus sign exactly when negative, so different numbers print differently; a ranged integer formatted in binary, octal or hexadecimal never panics and shows the number it stands for (not the offset form it is stored in), a negative one as 32-bit two's complement, with digits of the requested case.", "quantifier": "every natural and integer of any size; every ranged integer type with sane bounds, every value in it, every radix, debug and release builds, with and without range checks", "why_tests_cant": "The value stored and the value meant differ by the lower bound of the type; tests with a zero lower bound or a few values do not show that the right one is printed for every type and value.", "anchors": ["src/zarith.rs: Display/Debug for N and Z", "src/int.rs: Binary, Octal, LowerHex, UpperHex for RangedInt"]}
{"id": "C67", "title": "A HexString is its bytes, and its text is theirs", "statement": "However a HexString is made (empty, from bytes, from an iterator, from hexadecimal text) and whatever history of extends, writes, pushes and in-place changes follows, it holds exactly the bytes a plain byte list would, every operation returns the number of bytes it added, and the only failure is the panic of writing to a position that does not exist. Its displayed text is two lower-case digits per byte, parses back to the same value, grows by the text of what is appended, and compares with another HexString's text in dictionary order exactly as the values compare; it equals a string exactly when the string is its text up to letter case.", "quantifier": "every constructor, every history of operations of any length, every content, every pair of values and every ASCII text without a plus sign", "why_tests_cant": "Histories, contents and pairs of values are unbounded; that order on bytes coincides with order on texts depends on every pair of digits.", "anchors": ["src/hexstring.rs: HexString and its trait impls (FromIterator, Extend, Write, Target, From, TryFrom, FromStr, Display, Debug, Ord, PartialEq)"]}
{"id": "C68", "title": "Values compare in the natural order of their type", "statement": "For any two values of a codec type, `partial_cmp` and `==` give what the type's meaning says: numbers (ranged ones included) by size, byte strings and sequences as in a dictionary, None before Some, structs by the first member that differs, C-style enums by discriminant, data enums by variant position and then payload, wrappers (Dynamic, Padded, VPadded, AutoBox, Nullable) as what they hold; floating-point numbers by value with NaN comparing with nothing. Comparison agrees with equality, is antisymmetric and transitive, and is total on every type that holds no plain f64.", "quantifier": "all environments of type declarations, all types, all pairs and triples of values", "why_tests_cant": "order laws quantify over all pairs and triples of values of unboundedly many nested types", "anchors": ["src/dynamic.rs: PartialOrd/PartialEq for Dynamic", "src/adt.rs: cstyle!, data! derives", "src/schema.rs: Padded, Nullable, Bytes", "src/int.rs: RangedInt", "src/float.rs: RangedFloat", "src/seq/*.rs", "src/fixed.rs", "src/zarith.rs", "src/autobox.rs"]}
{"id": "C69", "title": "Values are equal exactly if they encode to the same bytes", "statement": "Two values of a codec type are equal under `==` exactly if they are the same value, and exactly if their encodings are the same bytes; in particular every value equals the one decoded from its encoding.", "quantifier": "all environments of type declarations, all decodable types, all pairs of values", "why_tests_cant": "no test can range over all pairs of values of all types", "anchors": ["src/conv/mod.rs: Encode, Decode", "src/float.rs: RangedFloat", "derive(PartialEq) on all codec types"]}
{"id": "C70", "title": "The executable's self-check passes for every correct pair", "statement": "`check((text, value))` of the executable returns without panicking exactly if the text is the lowercase hexadecimal form of the value's encoding, and so `main` returns.", "quantifier": "all decodable types that implement Eq, all values, all texts, all build options", "why_tests_cant": "it is itself a test of two values; that it accepts every right pair and no wrong pair quantifies over all values", "anchors": ["src/main.rs: check, main", "src/builder/mod.rs: into_hex, into_vec", "src/conv/mod.rs: Decode::decode"]}
{"id": "C71", "title": "A leftover state holds what was put into it", "statement": "Whatever calls built a LeftoverState (new, the variants, append, escape_context), it holds exactly the bytes appended, in order, cut into one segment per escape_context; len counts them; is_empty tells whether there are none; append leaves the given vector empty.", "quantifier": "all histories of LeftoverState calls and all byte vectors", "why_tests_cant": "The variant in force, and with it the code run, depends on the whole history.", "anchors": ["src/parse/mod.rs::cleanup::LeftoverState"]}
{"id": "C72", "title": "Printed and compared segments are faithful", "statement": "Printing a SplitVec or a LeftoverState never panics; the text lists the segments in order, and equal texts mean equal segments; == on them holds exactly when they have the same closed segments and the same open one.", "quantifier": "all histories of SplitVec and LeftoverState calls", "why_tests_cant": "Printing slices the value buffer by the span buffer, which is in range only if the two agree after every history.", "anchors": ["src/internal/splitvec.rs::SplitVec", "src/internal/splitvec.rs::SpanBuffer", "src/parse/mod.rs::cleanup::LeftoverState"]}
{"id": "C73", "title": "Hashing a decoded value agrees with comparing it", "statement": "Two values of one codec type that compare equal feed the same bytes to a hasher, so they land in the same bucket of a hash map. Conversely values that compare unequal feed different bytes, and the bytes of one value never continue the bytes of another, so that composing values into structs, sequences and tuples adds no systematic collisions. A Dynamic hashes, compares and orders exactly as its payload does whatever its prefix type, as its Borrow implementation promises.", "quantifier": "Every schema of well-formed definitions without floating-point fields, every type over it, all pairs of well-typed values of any size and nesting, any bytes fed afterwards.", "why_tests_cant": "The Hash/Eq contract relates all pairs of values of every user-defined type; hash-map tests exercise a few keys of a few types.", "anchors": ["src/dynamic.rs: impl Hash for Dynamic", "src/adt.rs: data! (impl Hash), cstyle! (derive Hash)", "src/zarith.rs: derive(Hash) for N, Z", "src/seq/mod.rs, src/seq/lim.rs, src/seq/fix.rs, src/fixed.rs, src/schema.rs, src/int.rs, src/autobox.rs: derive(Hash)"]}
{"id": "C74", "title": "The text of a value shows its content", "statement": "to_string of a value of any displayable codec type (booleans, integers, N, Z, String, FixedString, and Dynamic or AutoBox around them) is the faithful text of its content: numbers in canonical decimal, strings unchanged, fixed strings with exactly the maximal ill-formed subparts replaced by U+FFFD, wrappers invisible. Different values have different texts as long as their fixed strings are UTF-8, and a string of N bytes parsed into a FixedString<N> prints as that string. FixedBytes in {:x} gives two lower-case digits per byte which from_hex reads back. The Debug text of a Dynamic gives the true number of bytes of its payload.", "quantifier": "Every displayable type of any nesting, every value of it, every byte content of fixed strings and bytes, every payload of a Dynamic.", "why_tests_cant": "Unit tests print a handful of strings; the claim ranges over all byte contents (including every kind of ill-formed UTF-8), all nestings of wrappers and all payloads.", "anchors": ["src/fixed.rs: Display and FromStr for FixedString, is_valid_utf8, as_string_lossy, LowerHex for FixedBytes", "src/dynamic.rs: Display and Debug for Dynamic, Debug for VPadded, LenPref::suffix", "src/autobox.rs: Display and Debug for AutoBox", "src/zarith.rs: Display for N and Z"]}
{"id": "C75", "title": "Decoding does work at most proportional to the input", "statement": "For every type without sequences of possibly empty elements there is a constant K such that decoding any input of n bytes makes calls to the parser, and has it hand out bytes, no more than K*(1+n) in all, with each of the three parsers, in debug and release builds and in every configuration, whether it ends in a value, an error or a panic: no hostile length prefix, tag or nesting makes a short message expensive. K depends on the type (a FixSeq of N empty elements costs N calls on one byte), and a sequence of empty elements has no bound at all.", "quantifier": "Every schema of well-formed, terminating definitions, every type over it, all inputs of any length, valid or not, all parsers and configurations.", "why_tests_cant": "Cost under hostile input is a supremum over all byte strings; benchmarks time a few valid messages.", "anchors": ["src/parse/mod.rs: Parser, Decode", "src/seq/mod.rs, src/seq/lim.rs, src/seq/fix.rs: Decode", "src/dynamic.rs, src/schema.rs, src/adt.rs, src/conv/mod.rs: Decode"]}
{"id": "C76", "title": "Encoding does work at most proportional to the value", "statement": "For every type there is a constant K such that encoding a value onto any target makes calls (of write_to, of the estimates and of the target's methods) and hands over bytes, no more than K times the size of the value plus the length of its encoding. In particular a value that was decoded from a short message does not take unreasonably long to write again.", "quantifier": "All schemas, all types over them, all well-typed values of any size and depth, all targets and configurations.", "why_tests_cant": "The cost of nested length prefixes is a supremum over values of unbounded depth; round-trip tests use shallow values and do not measure time.", "anchors": ["src/dynamic.rs: Encode for Dynamic", "src/conv/mod.rs: EncodeLength::enc_len", "src/conv/target.rs: ByteCounter", "src/conv/len.rs: Estimable"]}
{"id": "C77", "title": "Messages outlive their schema", "statement": "If a later version of a schema only widens ranges (keeping a positive MIN), raises or drops sequence limits, adds variants after the existing ones of an enum, and adds definitions, then: every message the old codec accepted is decoded by the new codec to the same value; every old value is encoded by the new codec to the same bytes, and reports the same length; and the old codec decodes a new message to the same value if that is a value of the old schema, and refuses it with an error otherwise.", "quantifier": "Every pair of well-formed schemas so related, every type, all inputs and values of any size, all parsers, targets and configurations.", "why_tests_cant": "It relates two codecs on all inputs; a test compares a few recorded messages.", "anchors": ["src/parse/mod.rs: Parser::take_tagword, Decode", "src/adt.rs: cstyle!, data!", "src/int.rs: RangedInt", "src/float.rs: RangedFloat", "src/seq/lim.rs: LimSeq", "src/conv/mod.rs: Encode, Decode"]}
{"id": "C78", "title": "Parsers written elsewhere decode alike", "statement": "Take any implementation of the Parser trait whose required methods do what the trait's documentation says on every call within the contract (windows nest, bytes come in order, a failed consume_byte changes nothing) and whose errors are its own business. Decoding any type with it reads exactly the values, and leaves exactly the rest, that the wire grammar says, and so what ByteParser, MemoParser and SliceParser read; whatever the grammar does not have is refused with an error.", "quantifier": "Every implementation of the trait with any state, every well-formed schema and type, every input of any length, every configuration.", "why_tests_cant": "It quantifies over implementations that do not exist yet.", "anchors": ["src/parse/mod.rs: Parser", "README.md: Parser Invariants", "src/conv/mod.rs: Decode::parse"]}
{"id": "C79", "title": "Nothing is read ahead", "statement": "Decoding a self-delimiting type consumes a prefix of the input and depends on nothing behind it: with any other bytes behind the same prefix, and through any parser, the same value is read and exactly those bytes are left. Cutting into the consumed prefix leaves nothing that is accepted. So accepted messages, in shortest form or not, can be written one after the other: a Sequence of the type reads exactly them, and there is only one way to split the stream.", "quantifier": "Every schema and self-delimiting type, every accepted input, everything that may follow, every list of messages, all parsers and configurations.", "why_tests_cant": "It compares the runs on one input with the runs on infinitely many others.", "anchors": ["src/parse/mod.rs: Parser (documentation, non-backtracking and zero-lookahead)", "src/conv/mod.rs: Decode::parse", "src/seq/mod.rs: Sequence"]}
{"id": "C80", "title": "Errors lead to their cause", "statement": "Following source() from any decoding error ends, after at most six errors not counting those of a boxed foreign error. On the way one meets the ParseError and the error that was raised inside it, with its numbers. The text of every error that decoding reports ends in the text of each of its causes, so that the outermost message alone tells the root cause.", "quantifier": "Every decoding error; for the texts every schema, type, input, parser and configuration, whatever core and foreign errors print.", "why_tests_cant": "There are unboundedly many error values, and which of them decoding can report is a statement about all inputs.", "anchors": ["src/conv/error.rs: DecodeError", "src/parse/error.rs: ParseError, TokenError, InternalError, ExternalError", "src/error.rs: BoundsError", "src/parse/mod.rs: InvariantError"]}
{"id": "C81", "title": "A decoder stays inside its window, even when it fails", "statement": "When a decoder is called on a parser in any state, then afterwards, whether it returned a value or an error, only bytes at the beginning of the innermost window have been used, every enclosing window and the bytes behind it are as before, and the parser is in a state its own methods could have led to, so that every guarantee about sequences of calls still holds. After success no additional window is open; after an error cleanup returns a tail of the input.", "quantifier": "every schema, every input, every sequence of calls before the decoding, each of the three parsers, both build profiles (in release builds: earlier calls with sizes up to isize::MAX)", "why_tests_cant": "A failure can happen at any byte of any nested type, with any number of windows opened by the caller and by the decoder; tests recover from a handful of failures, if any.", "anchors": ["src/conv/mod.rs Decode::parse", "src/parse/mod.rs Parser", "src/dynamic.rs Dynamic", "src/internal/offset.rs ContextOffset"]}
{"id": "C82", "title": "The stack decoding needs does not depend on the input", "statement": "Decoding a value of a type never has more calls open at a time than a number that depends on the type alone, whatever the input.  Where a type may contain itself, the number grows at most in proportion to the length of the input.", "quantifier": "every schema, type, parser, configuration, number of frames and input", "why_tests_cant": "Tests decode shallow values; stack exhaustion only shows with inputs built to nest as deeply as their length allows, and it aborts the process instead of returning an error.", "anchors": ["src/conv/mod.rs: Decode::parse, try_decode, impl Decode for Option", "src/autobox.rs: impl Decode for AutoBox", "src/seq/mod.rs: impl Decode for Sequence", "src/dynamic.rs: impl Decode for Dynamic, VPadded", "decode_derive/src/lib.rs", "src/adt.rs: data! macro"]}
{"id": "C83", "title": "Decoding reserves memory in proportion to its input, and leaks none", "statement": "The memory that decoding a type has reserved at any time is at most a fixed multiple of the length of the input, the multiple depending on the type alone, whatever the input and whether it is accepted.  Once a value has been decoded, only what that value holds is still reserved.  The multiple does depend on the bounds in the type: a LimSeq or FixSeq takes room for all the elements it may have before it looks at the input.", "quantifier": "every schema, type whose sequences have no empty elements, parser, configuration, choice of type sizes and input", "why_tests_cant": "Tests decode small honest inputs; a length prefix that lies, or a text that grows while it is repaired, only shows in the worst case over all inputs, and the failure is an abort of the process.", "anchors": ["src/parse/mod.rs: take_self_terminating, take_dynamic", "src/seq/mod.rs: impl Decode for Sequence", "src/seq/lim.rs: LimSeq::new, impl Decode", "src/seq/fix.rs: FixSeq::new, impl Decode", "src/conv/mod.rs: impl Decode for String, Vec<u8>", "src/autobox.rs: impl Decode for AutoBox", "src/zarith.rs: impl Decode for N, Z"]}
{"id": "C84", "title": "Targets written elsewhere receive the same bytes", "statement": "A type written outside the library that keeps the contract of the Target trait receives, for every value of every type, exactly the bytes that to_bytes returns, appended to what it holds; write_to returns their number, and fails exactly when to_bytes fails.  A target that only counts correctly and does anything else with what it is given sees one list of calls that depends on the value alone, and whose bytes are the encoding.", "quantifier": "every implementation of Target that keeps its contract, starting state, schema, type, value and configuration", "why_tests_cant": "The trait is public and its implementations are unknown when the library is tested; a test with a few mock targets says nothing about a target that batches, hashes or sends what it gets.", "anchors": ["src/conv/target.rs: Target", "src/conv/mod.rs: Encode::write_to, Encode::encode", "src/dynamic.rs: impl Encode for Dynamic", "src/seq/mod.rs: impl Encode for Sequence"]}
{"id": "C85", "title": "The wrappers are right around types written elsewhere", "statement": "If a type written outside the library implements its wire format (write_to appends it to any target and returns its length, enc_len is that length, parse takes it off the window and returns the value), then so do Option, Nullable, Sequence, LimSeq, FixSeq, Dynamic, VPadded, Padded and AutoBox of it, and the structs and enums derived from such types, with the format documented for the wrapper.  Whatever implements its format can be encoded and decoded again with each of the parsers.", "quantifier": "every type with implementations of the traits, every nesting of wrappers, structs and enums around it, value, parser and configuration", "why_tests_cant": "The wrappers are generic: each use with a new type is a new program, which the tests of the library cannot contain.", "anchors": ["src/conv/mod.rs: Encode, Decode, EncodeLength, impl for Option", "src/conv/len.rs: Estimable", "src/schema.rs: Nullable, Padded", "src/seq/mod.rs: Sequence", "src/seq/lim.rs: LimSeq", "src/seq/fix.rs: FixSeq", "src/dynamic.rs: Dynamic, VPadded", "src/autobox.rs: AutoBox", "src/adt.rs: data!", "encode_derive, decode_derive, estimable_derive"]}
{"id": "C86", "title": "What decoders made of decoders written elsewhere accept", "statement": "Let a type written outside the library decode by any program that passes on the errors of the parser and closes exactly the windows it opens.  Then Option, Nullable, Sequence, LimSeq, FixSeq, Dynamic, VPadded, Padded and AutoBox of it, and structs and enums made of such types, accept exactly the inputs that split as the wrapper says into parts the inner decoder accepts, and return its values; in particular a decoder behind a length prefix sees just the bytes the prefix counts, has to use all of them, and changes nothing behind them.  The wrappers obey the same rules again, and try_decode succeeds exactly with what the decoder takes off the input (all of it under complete-parse).", "quantifier": "every decoder that keeps to these rules, every nesting of wrappers, structs and enums around it, input, parser and configuration", "why_tests_cant": "It is about decoders that do not exist yet, and about all inputs they reject as well as those they accept.", "anchors": ["src/parse/mod.rs: Parser, ParserExt", "src/conv/mod.rs: Decode, impl for Option", "src/schema.rs: Nullable, Padded", "src/seq/mod.rs: Sequence", "src/seq/lim.rs: LimSeq", "src/seq/fix.rs: FixSeq", "src/dynamic.rs: Dynamic, VPadded", "src/autobox.rs: AutoBox", "src/adt.rs: data!", "decode_derive"]}
{"id": "C87", "title": "Methods a type replaces for speed agree with the trait's own", "statement": "For (), Vec<u8>, Bytes and FixedBytes, which have encode, write_to_vec and to_bytes of their own, as for every other type: to_bytes, to_bytes_full, write_to_vec and encode give what the trait's methods would give by calling write_to; write_to_vec appends and keeps what the vector held; the debug assertion in Vec<u8>::encode never fails for a target that returns the documented counts.", "quantifier": "every type, value, vector already filled, target, configuration and build profile", "why_tests_cant": "The replaced methods are separate code; a test compares them on chosen values and on the library's own targets only.", "anchors": ["src/prim.rs: impl Encode for ()", "src/conv/mod.rs: Encode, EncodeLength, impl Encode for Vec<u8>", "src/fixed.rs: impl Encode for FixedBytes", "src/schema.rs: impl Encode for Bytes"]}
{"id": "C88", "title": "The stack encoding needs is set by the depth of the value", "statement": "Encoding a value, into any target and with either way of computing lengths, never has more than two calls open for each level of the value, and computing its length at most one more; whatever was decoded with some number of open calls can be encoded with twice that number.  Fewer calls than levels are never enough.", "quantifier": "every schema, type, value, target, configuration and number of frames", "why_tests_cant": "Tests encode shallow values; stack exhaustion aborts the process and shows only with values as deep as an attacker cares to make them.", "anchors": ["src/conv/mod.rs: Encode::write_to, EncodeLength::enc_len", "src/conv/len.rs: Estimable", "src/dynamic.rs: impl Encode for Dynamic, VPadded", "src/schema.rs: Padded, Nullable", "src/seq/*.rs: impl Encode", "src/autobox.rs: impl Encode for AutoBox", "encode_derive/src/lib.rs", "src/adt.rs"]}
{"id": "C89", "title": "Every parser keeps the invariants the README and the Parser trait set out", "statement": "A fresh parser is at offset 0 and views the whole buffer; at all times the remaining count is the view length less the offset. Consuming n bytes, or opening a window of n, succeeds exactly if n bytes remain, and then n bytes are returned and remain fewer, or exactly n remain and one more window is open; otherwise the call is refused and nothing changes. Consuming a byte is consuming a slice of one. Closing succeeds exactly if a window is open and used up, testing says whether closing would succeed and changes nothing. The offset never moves, or counts the consumed bytes.", "quantifier": "each of the three parsers, every buffer, every state reachable by any history of calls, every size", "why_tests_cant": "The invariants are about all states of all implementations and every size up to usize::MAX; tests make a handful of calls on small buffers.", "anchors": ["README.md: Parser Invariants", "src/parse/mod.rs: trait Parser", "src/parse/mod.rs: ByteParser, MemoParser, SliceParser", "src/internal/offset.rs: ContextOffset"]}
{"id": "C90", "title": "Running out of memory never changes what decoding answers, and a multiple of the input is enough", "statement": "With any allocator, however and whenever it refuses, decoding gives the answer it gives with unlimited memory, or the process is aborted, or the call panics: never another value and never another error. If the allocator grants all that keeps within M bytes and decoding needs at most M, the answer is the one with unlimited memory. For every type whose decoding terminates some multiple of the length of the input is enough, whatever the bytes. The multiple depends on the type: a FixSeq or LimSeq whose slots find no room aborts (panics, if they exceed isize::MAX bytes) whatever the input, even an empty one.", "quantifier": "every type, every input, each of the three parsers, debug and release builds, every allocator (a function of the bytes in use and the bytes asked for), all sizes of types", "why_tests_cant": "Tests run with plenty of memory; allocation failures at each point of each decoding cannot be provoked by them, and the claim is about all types and all inputs, hostile ones included.", "anchors": ["src/conv/mod.rs: Decode::try_decode", "src/schema/seq/lim.rs: LimSeq::parse", "src/schema/seq/fix.rs: FixSeq::parse", "src/schema/seq/mod.rs: Sequence::parse", "src/parse/mod.rs: take_self_terminating"]}
{"id": "C91", "title": "Encoding into a vector reallocates as little as the documentation promises", "statement": "to_bytes_full asks for memory once, for exactly the bytes it returns, and never reallocates (with enc_len_estimable_override: for values without a natural number 0). A vector that has room for the encoding is not reallocated by write_to_vec. to_bytes ends with room for at most twice its bytes (or 8), after a number of allocations that is logarithmic in the length; a length-prefixed value takes one. No target is ever told (anticipate) to expect more bytes than it gets, and by default each announcement is exactly the length of what is announced.", "quantifier": "every type, every value, debug and release builds, with and without enc_len_estimable_override, every vector written to, every target (including hand-written ones)", "why_tests_cant": "Whether a reallocation happens depends on the nesting, the lengths and the growth of the vector; tests do not look at capacities, and only a few shapes of values could be tried.", "anchors": ["src/conv/mod.rs: EncodeLength::to_bytes_full, Encode::to_bytes, Encode::write_to_vec", "src/conv/target.rs: Target::anticipate, impl Target for Vec<u8>", "src/dynamic.rs: Dynamic::write_to"]}
{"id": "C92", "title": "Types that share a wire format can be exchanged", "statement": "Boxing, declaring bytes as Bytes or as Sequence<u8>, fixed byte strings or fixed strings or FixSeq<u8, N>, a double or the u64 of its bits, an integer or a RangedInt that excludes nothing, and data! or cstyle! for an enum without fields make no difference on the wire: two schemas that differ only in these accept the same inputs, with corresponding values, and corresponding values have the same bytes or panic together. The correspondence loses nothing.", "quantifier": "every two schemas (recursive ones included) that differ only in this way, every input up to isize::MAX bytes, every value, every parser, debug and release builds; encoding without enc_len_estimable_override", "why_tests_cant": "The two sides may be nested in any way and in any place of a recursive schema, and all inputs are concerned, also the malformed ones.", "anchors": ["src/schema.rs: Bytes (documentation)", "src/autobox.rs: AutoBox", "src/fixed.rs: FixedBytes, FixedString", "src/seq/fix.rs: FixSeq", "src/float.rs: impl Encode, Decode for f64", "src/int.rs: RangedInt", "src/adt.rs: data!, cstyle!"]}
{"id": "C93", "title": "Recorded groups follow the fields of the value", "statement": "A MemoBuilder that a value was encoded into shows, in order, one group per number, string, tag, length prefix and padding of the value, whatever the nesting, and a MemoParser that the value was decoded from has logged the same, except in two places: the bytes of an N or Z are one group when written and one group each when read, and the tag of Some is in one group with the first field after it when written and on its own when read. Grouping neither loses nor adds bytes.", "quantifier": "every schema, every encodable value up to isize::MAX bytes, debug and release builds, every feature combination (with enc_len_estimable_override: values that hold no natural number 0), and any bytes after a self-delimiting value", "why_tests_cant": "The groups come from calls to resolve_zero that are spread over all impls of Encode, some redundant and some missing; which of them matter depends on what is nested in what.", "anchors": ["src/builder/memo.rs: MemoBuilder (documentation), resolve", "src/internal/splitvec.rs: SplitVec::split, Display", "src/conv/mod.rs: impl Encode for Option", "src/parse/mod.rs: MemoParser, eprint_munches!", "src/zarith.rs: impl Encode, Decode for N, Z"]}
{"id": "C94", "title": "A caught panic leaves the parser usable", "statement": "A parser method that panics (debug builds do where release builds return an error) has changed nothing: a caller that catches the panic and goes on with the same parser sees what it would have seen had the call failed with an error. A decoder that panics has used bytes of the innermost window only, from its beginning, leaves the windows around it as they were, and leaves a state which the parser's own methods lead to; cleanup still hands back the end of the input.", "quantifier": "every buffer up to isize::MAX bytes, every sequence of parser calls with panics anywhere in it, every schema and every input, ByteParser, MemoParser and SliceParser, every feature combination (release builds: earlier calls with sizes up to isize::MAX and schemas without VPadded)", "why_tests_cant": "A test stops at the first panic; whether the state left behind is sound depends on the order of updates within every method and in every decoder, at every point a panic can come from.", "anchors": ["src/parse/byteparser/offset.rs: set_fit, advance (debug assertions, overflow)", "src/parse/mod.rs: impl Parser for ByteParser, MemoParser, SliceParser", "src/schema.rs: impl Decode for VPadded, Dynamic"]}
{"id": "C95", "title": "An interrupted encoding leaves whole fields", "statement": "Encoding panics only when a payload is longer than its length prefix can say. A target that outlives the panic still holds what it held before, followed by exactly the bytes of the fields before the length-prefixed field that could not be encoded: complete elements, complete fields, tags and the byte of Some. A length-prefixed value is written with its whole payload or not at all, so no prefix is left without its payload.", "quantifier": "every schema, every value of its type up to isize::MAX bytes, every target that keeps the documented contract and every earlier content of it, debug and release builds; whole payloads: without enc_len_estimable_override (with it the outer prefix of a nested bad payload is left behind, and the theorems say exactly what)", "why_tests_cant": "Tests of panics look at the panic, not at the target; what has been written by then depends on where in a nested value the bad payload is and on the order of measuring and writing at every level above it.", "anchors": ["src/dynamic.rs: impl Encode for Dynamic (write_to)", "src/conv/mod.rs: Encode::write_to, enc_len, impl Encode for Option", "src/seq/mod.rs: impl Encode for Sequence", "encode_derive/src/lib.rs: derive(Encode)", "src/adt.rs: cstyle!, data!"]}
{"id": "C96", "title": "Default values are values", "statement": "The Default value of a schema type, where it has one, is a value of that type: it can be encoded, and its encoding decodes to it again.", "quantifier": "every schema built from the library's types and structs with derive(Default), every type of it, all three parsers, debug and release builds; the round trip without enc_len_estimable_override, and without check_complete_parse for the slice parser, as in C21", "why_tests_cant": "The default of a struct is put together from the defaults of all the types in it, to any depth and for every choice of bounds and sizes; a single type whose default is no value spoils every type that contains it.", "anchors": ["src/int.rs: impl Default for RangedInt", "src/float.rs: impl Default for RangedFloat", "src/seq/fix.rs: impl Default for FixSeq, FixSeq::new", "src/seq/lim.rs: impl Default for LimSeq", "src/seq/mod.rs: impl Default for Sequence", "src/schema.rs: Nullable, Padded, Bytes (Default)", "src/dynamic.rs: VPadded (derive Default)", "src/fixed.rs: impl Default for FixedBytes", "src/autobox.rs: impl Default for AutoBox"]}
{"id": "C97", "title": "Messages can be streamed", "statement": "Values written one after the other into one target are read back, in the same order, by one parser; what follows them is left; a stream that breaks off yields the messages before the break and nothing in place of the broken one; going on with a parser is the same as starting a new one over what is left; and a message in a Dynamic envelope can be passed on as bytes by a reader that does not know its type.", "quantifier": "every schema, every list of self-delimiting types and values of them (and one last value of any decodable type), every place where the stream may break, all three parsers, every target that keeps the documented contract, debug and release builds; going on with a parser: all types (in release builds without VPadded), all input; with enc_len_estimable_override for values without the natural number 0, as in C21", "why_tests_cant": "The number of messages and the combinations of their types are unbounded, and a byte too many or too few taken by one of them only shows in those after it.", "anchors": ["src/conv/mod.rs: write_all_to!, Encode::write_to, Decode::parse, Decode::try_decode", "src/conv/target.rs: Target", "src/dynamic.rs: Dynamic", "src/schema.rs: Bytes"]}
{"id": "C98", "title": "Debug texts show the value", "statement": "Printing a value of any schema type with {:?} gives one determined text that shows the whole value: types and fields by name, numbers in decimal, strings quoted with escapes, sequences in order, the payload length of each Dynamic; two values of a type that print alike are the same value, even as the beginning of a longer text; and printing never panics.", "quantifier": "every schema with names for its structs, fields and variants (variants named differently), every type and value; every configuration for unambiguity; for the text itself, without enc_len_estimable_override; the texts of f64 and core's table of printable characters are parameters", "why_tests_cant": "Values nest without bound, and an ambiguity or a panic shows only for particular combinations of strings, names and nesting.", "anchors": ["src/dynamic.rs: impl Debug for Dynamic, impl Debug for VPadded", "src/adt.rs: data!, impl Debug", "src/schema.rs: derive(Debug)", "src/zarith.rs: impl Debug", "src/autobox.rs: impl Debug", "src/seq: derive(Debug)"]}
{"id": "C99", "title": "Encodings of order-preserving types sort like the values", "statement": "For types built from booleans, unsigned integers, ranges without negative numbers, ranges of positive floats, fixed-length bytes and strings, options, fixed sequences, padding, boxes, C-style enums, data enums whose discriminants ascend, fixed-length Dynamics and structs of these, with variable-length bytes, strings, lists and nullables only at the very end: comparing two encodings byte by byte gives the same answer as comparing the values, equal encodings mean equal values, the hex texts sort alike, and types without a variable-length end keep the order as parts of longer keys. Outside these types the order is not kept.", "quantifier": "every schema whose named types meet these conditions (recursive ones included), every such type, all pairs of values that encode to at most isize::MAX bytes, any bytes that follow, every configuration", "why_tests_cant": "The claim compares all pairs of values of all such types; a length prefix, a sign bit or a discriminant out of order breaks it only for particular pairs.", "anchors": ["src/conv/mod.rs: Encode, EncodeLength", "src/int.rs: Encode for RangedInt, Ord", "src/adt.rs: PartialOrd of cstyle!, data!", "src/schema.rs: derive(PartialOrd)", "src/dynamic.rs: PartialOrd for Dynamic", "src/hexstring.rs: to_hex"]}
{"id": "C100", "title": "A part of a message can be read, replaced and damaged in place without touching the rest", "statement": "In the encoding of a value, the encoding of each part (field, element, contents of an option, a Dynamic, a padded or boxed value, at any depth) lies unchanged at an offset given by the lengths before it; a self-delimiting part can be decoded from that offset. Writing the encoding of another value of the same length over it gives exactly the encoding of the value with that part exchanged. Writing arbitrary bytes over a part of fixed length, or over the contents of a Dynamic, never affects other parts: the message decodes if and only if the new bytes decode as that part, and then to the old value with that part exchanged. Fields after fixed-length fields, and fixed-length elements, lie at the same offset in every value.", "quantifier": "every schema (recursive ones included), every decodable type, every value that encodes to at most isize::MAX bytes, every part at any depth, all replacement bytes, all three parsers, every configuration", "why_tests_cant": "The claim ranges over all messages, all parts at any depth and all replacement bytes; a length, a padding check or an element count that depends on the replaced bytes would break it only for particular combinations.", "anchors": ["src/conv/mod.rs: Encode::write_to, to_bytes, Decode", "src/dynamic.rs: Dynamic, VPadded", "src/schema.rs: Padded, Bytes", "src/seq: Sequence, LimSeq, FixSeq", "src/adt.rs: data!, cstyle!"]}
{"id": "C101", "title": "Every type has a smallest message and, if bounded, a largest one", "statement": "From the schema alone one can compute, for every type, the least number of bytes an encoding has and, unless a part of it is unbounded, the greatest; every encoding has a length between them; every successful decoding takes a number of bytes between them, whatever the input; input shorter than the least is never accepted, nor, where input must be consumed to the end, input longer than the greatest; the payload of a Dynamic is never longer than its prefix can announce. Both bounds are met by some value, unless a range is empty or a payload cannot fill its prefix.", "quantifier": "every schema with right bounds for its named types (recursive ones included), every type, every value that encodes to at most isize::MAX bytes, every input, all three parsers, every configuration", "why_tests_cant": "A bound over all values of all types, and over all inputs a decoder may be given, cannot be sampled; a buffer sized for the largest message seen in tests is too small for the next one.", "anchors": ["src/conv/mod.rs: Encode::to_bytes, Decode", "src/dynamic.rs: Dynamic, LenPref", "src/seq: Sequence, LimSeq, FixSeq", "src/schema.rs: Padded, Bytes", "src/fixed.rs: FixedBytes, FixedString", "src/adt.rs: data!, cstyle!"]}
{"id": "C102", "title": "Printing an error with {:?} never panics and tells it completely", "statement": "The {:?} text of an error names its kind and gives every number, byte, tag list and type name in it, with the fields named; errors with the same text are the same error, and for tag errors about types of the same name. Printing the error of a failed decode never panics; whatever was decoded, from whatever input and through whichever parser, equal texts mean equal errors, and for bytes left over the same segments. decode panics whenever try_decode gives an error, and its message is the type's name followed by that text.", "quantifier": "every error value (floats not NaN), every type, input, parser and configuration; every type name; given texts of foreign errors", "why_tests_cant": "That no two of infinitely many errors share a text, with quoted names and raw input strings inside, cannot be sampled.", "anchors": ["src/parse/error.rs: ParseError, WindowError, TokenError, TagError, InternalError, ExternalError", "src/error.rs: WidthError, LengthError, BoundsError, HexConvError", "src/conv/error.rs: DecodeError", "src/parse/mod.rs: InvariantError, LeftoverState", "src/conv/mod.rs: Decode::decode"]}
{"id": "C103", "title": "decode_memo says at least as much as decode when it fails", "statement": "decode_memo panics whenever try_decode through its parser gives an error, naming the type, and its message tells at least as much about the error as decode's.", "quantifier": "every type, input and configuration", "why_tests_cant": "That a message distinguishes all pairs of errors another one distinguishes is a statement about all pairs of failing inputs.", "anchors": ["src/conv/mod.rs: Decode::decode_memo, Decode::decode", "src/prim.rs: decode_memo"]}
{"id": "C104", "title": "A rejection is final unless the bytes may simply have run out", "statement": "Decoding a self-delimiting type from the bytes received so far: an error that is not one of four kinds (a read past the very end of the input, a window that does not fit into the input, a self-terminating number without its last byte, a FixSeq with too few elements) is final: every longer input that begins with these bytes is refused with the same error. Every proper beginning of a valid message is refused with one of the four kinds (or the debug-build panic of F2). A receiver that waits for more bytes on exactly these four kinds therefore never drops a valid message and never waits after any other error. The SliceParser, which does not know its place in the input, needs a wider set of kinds (any read or window that exceeds its window) for the same guarantees. The error alone cannot decide more: a beginning of a message and a hopeless input of the same length can get the same error.", "quantifier": "every schema, every self-delimiting type, every input and every continuation of it, every value and every cut of its encoding, all three parsers, both build profiles and every configuration", "why_tests_cant": "Finality speaks about all continuations of an input, and safety of waiting about all cuts of all messages.", "anchors": ["src/conv/mod.rs: Decode::try_decode", "src/parse/mod.rs: ByteParser, MemoParser, take_self_terminating", "src/parse/error.rs: ParseError, WindowError", "src/internal/offset.rs: ContextOffset::set_fit, advance", "src/seq/fix.rs: FixSeq::parse"]}
{"id": "C105", "title": "Printing a parser or a recording builder with {:?} tells its whole state", "statement": "The {:?} text of a ByteParser, MemoParser or SliceParser names the kind of parser and lists its buffer, the limits (or views) of its open windows from the outermost to the innermost, its position and, for a MemoParser, the recorded reads. Two parsers with the same text are in the same state, so every further read, skip or window gives the same result on both. The texts of a MemoBuilder and of a MemoBuffer tell their segments. An Index is written as its number in decimal, binary, octal and hexadecimal.", "quantifier": "every parser state, every program run on it afterwards, both build profiles; every history of a builder; every index and notation", "why_tests_cant": "That no two states share a text is a statement about all pairs of states.", "anchors": ["src/parse/mod.rs: ByteParser, MemoParser, SliceParser", "src/parse/buffer.rs: VecBuffer, SliceBuffer", "src/internal/offset.rs: Index, FrameStack, ContextOffset, index_impl_fmt!", "src/internal/view.rs: ViewStack", "src/builder/memo.rs: MemoBuilder, MemoBuffer"]}
{"id": "C106", "title": "A message inside another fares as it would on its own", "statement": "Decoding a value inside a window gives what decoding the bytes of the window as the whole input would give: the same value after the same number of bytes, or the same error with its positions moved by the place of the window. Only the refusal of an inner window that leaves the message changes its kind, since on its own the message ends with the input. The SliceParser gives exactly the same result, errors included, and leaves the views outside the window alone. Hence a payload behind a length prefix is accepted, if complete parsing is on, whenever it is accepted on its own, refused with the same error otherwise, and bytes left over on its own are reported as the residue of the window. The same holds for errors of a content that stands before reserved bytes (VPadded).", "quantifier": "every input, every history of the parser before the window and every nesting of open windows, every type, every content of the window, every length prefix, all three parsers, both build profiles (release builds: types without virtual padding, for the two copying parsers)", "why_tests_cant": "It compares two runs for every content, every position and every nesting; tests try a few errors at a few positions.", "anchors": ["src/parse/mod.rs: Parser::set_fit, ByteParser, MemoParser, SliceParser", "src/internal/offset.rs: ContextOffset::set_fit, advance, enforce_target", "src/dynamic.rs: Dynamic::parse", "src/conv/mod.rs: Decode::try_decode", "src/dynamic.rs: VPadded::parse"]}
