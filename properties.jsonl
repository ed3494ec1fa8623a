{"id": "C01", "title": "A failed match leaves the cursor where it was", "statement": "When `ctx.try_mat(&pat)` (plain RegexCtx) returns Err, `ctx.offset()` afterwards equals `ctx.offset()` before the call. This holds for every pattern except the ones whose deviation is stated separately (longest-token containers C15, a failing builder closure C30).", "quantifier": "every input, every starting offset on a character boundary, every pattern tree of any depth (leaves, units with conditions, sequencing, choice, lookahead, loops, separators, recursion)", "why_tests_cant": "Patterns are an unbounded recursive family and inputs are arbitrary; a test fixes one pattern and one text.", "anchors": ["src/ctx.rs: Match::try_mat (docs 'offset is unchanged')", "src/ctx/guard.rs: CtxGuard", "src/ctor/*.rs, src/regex/*.rs, src/neu/*.rs: Regex::try_parse"]}
{"id": "C02", "title": "A successful match reports exactly the text it consumed", "statement": "When `ctx.try_mat(&pat)` returns Ok(span), span.beg is the old offset, the new offset is span.beg + span.len, and it is at most ctx.len().", "quantifier": "every input, starting offset, and pattern tree outside the stated exceptions", "why_tests_cant": "Patterns are an unbounded recursive family and inputs are arbitrary; a test fixes one pattern and one text.", "anchors": ["src/ctx.rs: new_span_inc, Match::try_mat", "src/span.rs: Span::add_assign", "src/ctor/*.rs"]}
{"id": "C03", "title": "Matching a str never leaves the cursor or a span inside a character", "statement": "Starting on a UTF-8 character boundary, after any try_mat (success or failure) the offset is on a boundary, and slicing the returned span (`orig_sub`/`extract`) succeeds.", "quantifier": "every str (any mix of 1..4 byte characters), every pattern without `consume(n)` and with boundary-respecting user closures", "why_tests_cant": "Depends on every mixture of character widths at every position.", "anchors": ["src/ctx/regex.rs: Context for RegexCtx<str>", "src/neu/*.rs: calc_length", "src/ctor/extract.rs"]}
{"id": "C04", "title": "Matching never panics", "statement": "try_mat never hits an arithmetic underflow, slice panic, index panic or debug assertion when started at a valid offset. With any policies the returned span lies between the old and the new offset.", "quantifier": "every input, offset and pattern tree outside the stated exceptions", "why_tests_cant": "A panic may be reachable only for a particular combination of nested patterns and text.", "anchors": ["src/span.rs: Span::add_assign", "src/neu.rs: calc_length", "src/ctx.rs: orig_at", "src/ctor/*.rs"]}
{"id": "C05", "title": "try_mat computes the PEG semantics of the pattern", "statement": "try_mat on a RegexCtx returns success/failure, end position and error kind exactly as a declarative parsing-expression semantics over the character sequence prescribes (ordered choice, possessive greedy loops, lookahead, ...), in both directions (sound and complete).", "quantifier": "every input, position, pattern tree of the core fragment, including recursive grammars", "why_tests_cant": "Patterns are an unbounded recursive family and inputs are arbitrary; a test fixes one pattern and one text.", "anchors": ["src/regex/*.rs", "src/ctor/*.rs", "src/neu/*.rs"]}
{"id": "C06", "title": "Matching is a function of pattern, text and offset", "statement": "Two contexts over the same text at the same offset give the same result and end up in the same state; matching never alters the text; evaluating with more steps never changes an answer.", "quantifier": "every input, offset, pattern (with pure user closures)", "why_tests_cant": "Needs all inputs and all patterns.", "anchors": ["src/ctx/regex.rs: RegexCtx", "src/regex.rs: Regex"]}
{"id": "C07", "title": "Ordered choice: first success wins, otherwise the last error, always from the same start", "statement": "`a.or(b)` returns a's result when a matches; only when a fails is b tried, from the original offset; if both fail the error is b's. `array/vector/slice` (non longest) return the first matching element's result and otherwise the container's own error.", "quantifier": "every pair/list of patterns of any length, every input and offset", "why_tests_cant": "Patterns are an unbounded recursive family and inputs are arbitrary; a test fixes one pattern and one text.", "anchors": ["src/ctor/or.rs: Or", "src/regex.rs: handler", "src/ctor/array.rs", "src/ctor/vec.rs", "src/ctor/slice.rs"]}
{"id": "C08", "title": "Sequencing consumes consecutive pieces", "statement": "`a.then(b)`, `prefix`, `suffix`, `enclose`, `sep_once` succeed exactly when their parts match one after the other, and the span is the concatenation of the parts; failure of any part is the failure of the whole with that part's error.", "quantifier": "every choice of parts, every input and offset", "why_tests_cant": "Patterns are an unbounded recursive family and inputs are arbitrary; a test fixes one pattern and one text.", "anchors": ["src/ctor/then.rs", "src/ctor/affix.rs", "src/ctor/enclose.rs", "src/ctor/sep.rs: SepOnce"]}
{"id": "C09", "title": "many0/many1/once/opt take the maximal run of matching characters", "statement": "`u.many0()` consumes exactly the longest prefix of the remaining text all of whose characters satisfy u; `many1` the same but fails on an empty run; `once` exactly one; `opt` at most one.", "quantifier": "every unit u, every input (any character widths), every offset", "why_tests_cant": "Run length is unbounded and widths vary.", "anchors": ["src/neu/once.rs", "src/neu/opt.rs", "src/neu.rs: calc_length"]}
{"id": "C10", "title": "between/count/at_least/at_most/times count correctly", "statement": "`u.between::<M,N>()` consumes min(run, N) characters when run >= M and fails otherwise; `times(range)` consumes the greedy capped run and succeeds iff the count lies in the range, for every kind of range bound.", "quantifier": "every M, N, range with any combination of bounds, every unit with a sound minimum length, every input", "why_tests_cant": "All bounds and run lengths.", "anchors": ["src/neu/times.rs", "src/neu/range.rs", "src/neu.rs: NeuIntoRegexOps"]}
{"id": "C11", "title": "Lookahead never consumes and is an exact test", "statement": "`peek(p)` succeeds (empty span) iff p would match here, `not(p)` iff p would fail; the offset never moves; `ctx.try_assert(p)` returns Ok(whether p matches) and leaves the offset alone, whatever p did.", "quantifier": "every pattern p (even one that breaks C01/C02), every input and offset", "why_tests_cant": "Patterns are an unbounded recursive family and inputs are arbitrary; a test fixes one pattern and one text.", "anchors": ["src/regex/assert.rs: Assert", "src/ctx.rs: Assert::try_assert"]}
{"id": "C12", "title": "Anchors, empty, fail, consume and consume_all do what they say", "statement": "start matches iff offset==0; end iff offset==len; empty always with an empty span; fail never; consume(n) iff n bytes remain and advances n; consume_all always and ends at len.", "quantifier": "every input and every offset, every n", "why_tests_cant": "All offsets and lengths.", "anchors": ["src/regex/anchor.rs", "src/regex/empty.rs", "src/regex/fail.rs", "src/regex/consume.rs"]}
{"id": "C13", "title": "A literal matches iff the remaining text starts with its bytes", "statement": "`\"lit\"`/`b\"lit\"` match iff the bytes after the offset begin with the literal's bytes; for str this is the same as the characters beginning with the literal's characters; the span has the literal's byte length.", "quantifier": "every literal, every input (any UTF-8), every boundary offset", "why_tests_cant": "Byte-level prefix could in principle align mid-character; all strings matter.", "anchors": ["src/regex/literal.rs", "src/regex.rs: impl_orig_regex"]}
{"id": "C14", "title": "longest keeps the longer branch, left on ties", "statement": "`a.longest(b)` tries both from the same offset; result and final offset are those of the longer match; ties prefer a; if only one matches it is used; if none, b's error and the offset is restored.", "quantifier": "every pair of patterns, every input and offset; both regex and ctor mode", "why_tests_cant": "Patterns are an unbounded recursive family and inputs are arbitrary; a test fixes one pattern and one text.", "anchors": ["src/ctor/longest.rs"]}
{"id": "C15", "title": "Longest-token containers leave the cursor at the end of the longest match", "statement": "`array_ltm`/`vector_ltm`/`slice_ltm` (and pair forms) return the longest element's span (first on ties) and leave the offset at its end, restoring it when nothing matches.", "quantifier": "every list of patterns, every input and offset", "why_tests_cant": "Whether the cursor is right depends on which element is tried last.", "anchors": ["src/regex.rs: handler_ltm", "src/ctor.rs: handler_ltm"]}
{"id": "C16", "title": "sep matches pat (sep pat)* with an optional trailing separator", "statement": "`p.sep(s)` (trailing separator optional) consumes the maximal alternation p s p s ... and succeeds iff at least `min` elements; with skip=false each counted element must be followed by a separator, and an uncounted last element is consumed but not part of the span.", "quantifier": "every p, s, min, skip; every input", "why_tests_cant": "Patterns are an unbounded recursive family and inputs are arbitrary; a test fixes one pattern and one text.", "anchors": ["src/ctor/sep.rs: Separate, SepCollect"]}
{"id": "C17", "title": "Fixed-capacity repetition stops at its capacity", "statement": "`repeat2::<M,N>` and `sep2::<_,M,N>` take at most N elements, never panic, and return the elements in order in a [Option<O>; N] padded with None.", "quantifier": "every element pattern, M, N, input with any number of elements", "why_tests_cant": "The deviation appears only when the text contains more than N elements.", "anchors": ["src/ctor/repeat2.rs", "src/ctor/sep.rs: Separate2"]}
{"id": "C18", "title": "Construction and matching agree", "statement": "`ctx.ctor(&p)` succeeds iff `ctx.try_mat(&p)` succeeds, and leaves the cursor at the same place, when handlers and mappers do not fail.", "quantifier": "every pattern of the agreement fragment, every handler/mapper that never fails, every input and offset", "why_tests_cant": "Patterns are an unbounded recursive family and inputs are arbitrary; a test fixes one pattern and one text.", "anchors": ["src/ctor/*.rs: construct vs try_parse"]}
{"id": "C19", "title": "sep_collect construction agrees with its own regex mode", "statement": "`sep_collect` in ctor mode consumes the same text and counts the same elements as in regex mode.", "quantifier": "every element and separator pattern, skip flag, min, input", "why_tests_cant": "Deviation needs an element directly following a missing separator.", "anchors": ["src/ctor/sep.rs: SepCollect"]}
{"id": "C20", "title": "Constructed values are the declared tree of input slices", "statement": "With the default extractor, the value returned by ctor is the tree given by the pattern's shape (pairs for then, Option for opt, Vec in order for repeat/sep/collect, ...) whose leaves are exactly the slices of the input matched by the leaves.", "quantifier": "every pattern of the core fragment, every input", "why_tests_cant": "Patterns are an unbounded recursive family and inputs are arbitrary; a test fixes one pattern and one text.", "anchors": ["src/ctor/*.rs: construct", "src/ctor/extract.rs"]}
{"id": "C21", "title": "Handlers are only ever called with valid spans of the input", "statement": "Every span passed to a handler lies within the input on character boundaries, so extracting it cannot fail; calls happen left to right (begin offsets of calls on the successful path never decrease).", "quantifier": "every pattern, every input, every (stateful) handler", "why_tests_cant": "All traces of handler calls.", "anchors": ["src/ctor.rs: Handler::invoke", "src/ctor/extract.rs"]}
{"id": "C22", "title": "A mapper error surfaces and combinators above it backtrack", "statement": "If the mapper of `p.map(f)` fails the construct fails with that error; any enclosing guard/choice/optional restores the offset; a bare top-level map does not.", "quantifier": "every pattern, mapper, enclosing combinator, input", "why_tests_cant": "Patterns are an unbounded recursive family and inputs are arbitrary; a test fixes one pattern and one text.", "anchors": ["src/ctor/map.rs", "src/ctor/or.rs", "src/ctor/opt.rs", "src/ctx/guard.rs"]}
{"id": "C23", "title": "Matching terminates when loop bodies consume", "statement": "If every unbounded loop body (or body+separator) cannot match the empty string and recursion is well-founded, try_mat and ctor terminate on every input.", "quantifier": "every input, every well-formed pattern", "why_tests_cant": "Termination over all inputs.", "anchors": ["src/ctor/repeat.rs", "src/ctor/collect.rs", "src/ctor/sep.rs"]}
{"id": "C24", "title": "A loop over an empty-matching body never returns", "statement": "`p.repeat(0..)`/`collect`/`sep` with an unbounded count and a body that matches the empty string at the current position never terminates (nor fails), for any number of steps.", "quantifier": "every step budget (so: truly non-terminating)", "why_tests_cant": "No finite test shows non-termination.", "anchors": ["src/ctor/repeat.rs", "src/ctor/collect.rs"]}
{"id": "C25", "title": "find/find_all scan left to right, yielding disjoint non-empty matches", "statement": "`find` returns the match at the first offset (from the current one) where the pattern matches non-emptily; `find_all` yields strictly increasing, non-overlapping, non-empty spans; both terminate and leave no match skipped.", "quantifier": "every input and pattern whose attempts terminate", "why_tests_cant": "All texts and match layouts.", "anchors": ["src/ctx.rs: MatchMulti::find, find_all, find_all_with"]}
{"id": "C26", "title": "match_seq yields contiguous matches and stops at the first failure", "statement": "`match_seq` yields spans each starting where the previous ended, stops at the first failure or empty match, and then the context is at its end.", "quantifier": "every input and pattern", "why_tests_cant": "Unbounded sequences.", "anchors": ["src/ctx.rs: MatchMulti::match_seq"]}
{"id": "C27", "title": "skip_before policies never enter the span", "statement": "On a PolicyCtx whose policy never fails (e.g. skip_ascii_whitespace) a successful leaf match's span begins after the skipped text and ends at the final offset; the policy is applied once before each try_mat.", "quantifier": "every policy pattern, leaf, input, offset, nesting of policies", "why_tests_cant": "Patterns are an unbounded recursive family and inputs are arbitrary; a test fixes one pattern and one text.", "anchors": ["src/ctx/policy.rs"]}
{"id": "C28", "title": "Policy contexts restore the cursor on failure", "statement": "PolicyCtx::try_mat and try_mat_policy restore the offset when they fail.", "quantifier": "every policy and pattern", "why_tests_cant": "Deviation depends on skipped text before a failure.", "anchors": ["src/ctx/policy.rs: try_mat, try_mat_policy", "src/ctx/regex.rs: try_mat_policy"]}
{"id": "C29", "title": "Character-unit algebra is boolean", "statement": "`a.or(b)`, `a.and(b)`, `!a` match exactly the union, intersection and complement; ranges/sets/CRange conversions match exactly the mathematical set; ASCII classes and digit(radix)/word/wild match exactly the documented characters.", "quantifier": "every unit expression and every character", "why_tests_cant": "1.1M characters times all unit expressions.", "anchors": ["src/neu/op_or.rs", "src/neu/op_and.rs", "src/neu/op_not.rs", "src/neu/range.rs", "src/neu/units.rs", "src/neu.rs"]}
{"id": "C30", "title": "Dynamic builders continue where the first pattern ended and roll back", "statement": "`into_regex_builder`/`into_ctor_then_builder` run the built pattern from the end of the first match; if the built pattern fails the offset is restored; a failing builder closure leaves the cursor after the first pattern.", "quantifier": "every pattern, closure and input", "why_tests_cant": "Patterns are an unbounded recursive family and inputs are arbitrary; a test fixes one pattern and one text.", "anchors": ["src/regex/builder.rs", "src/ctor/dthen.rs"]}
{"id": "C31", "title": "The length pre-check never rejects a matching text", "statement": "between/times/then over units reject early on remaining length only when the text could not have matched, for units whose min_length is a true lower bound; the complement unit's min_length is not one.", "quantifier": "every unit expression, count and input", "why_tests_cant": "Needs multi-byte characters meeting complements.", "anchors": ["src/neu/op_not.rs: min_length", "src/neu/times.rs", "src/neu/then.rs"]}
{"id": "C32", "title": "Equivalent quantifier spellings agree", "statement": "once = count::<1> , many0 = at_least::<0>, many1 = at_least::<1>, opt = at_most::<1>, between::<M,N> = times(M..=N) in acceptance, span and final offset.", "quantifier": "every unit with sound minimum length, every input and offset", "why_tests_cant": "All inputs.", "anchors": ["src/neu.rs: NeuIntoRegexOps", "src/neu/*.rs"]}
{"id": "C33", "title": "Span joining covers both spans", "statement": "add_assign on a later span yields the smallest span covering both (including the gap); it panics exactly when the other span begins before or ends before the current one; joining is associative.", "quantifier": "all spans", "why_tests_cant": "All usize values.", "anchors": ["src/span.rs: Span::add_assign"]}
{"id": "C34", "title": "VecStorer records captures faithfully over any history", "statement": "After any sequence of try_cap/add/clear/reset calls, the spans of group id are exactly those captured for id since its last clear, in order; other groups are unaffected; a failed try_cap changes nothing.", "quantifier": "all finite histories of storer operations on all group ids", "why_tests_cant": "Histories are unbounded.", "anchors": ["src/span.rs: VecStorer"]}
{"id": "C35", "title": "ArrayStorer records captures faithfully over any history", "statement": "After any sequence of set/try_cap/clear/reset calls slot (id,index) holds the last span stored since the last clear; other slots are unaffected.", "quantifier": "all finite histories", "why_tests_cant": "Histories are unbounded.", "anchors": ["src/span.rs: ArrayStorer"]}
{"id": "C36", "title": "Span iterators yield every stored capture", "statement": "VecStorer slice/span iterators yield exactly the stored spans in order (slices of the given text); the ArrayStorer iterators stop at the first empty slot.", "quantifier": "all storers, texts", "why_tests_cant": "All lengths and hole positions.", "anchors": ["src/iter/span.rs"]}
{"id": "C37", "title": "size_hint of span iterators is exact and safe", "statement": "At every point of the iteration size_hint equals the number of remaining items and does not panic.", "quantifier": "all spans lists and all iteration states (including after exhaustion)", "why_tests_cant": "All iteration states.", "anchors": ["src/iter/span.rs: size_hint"]}
{"id": "C38", "title": "Byte decoders decode the first N bytes", "statement": "from_le_bytes/from_be_bytes on a slice of at least size bytes return the integer whose little/big-endian representation is the first size bytes (signed: two's complement), ignoring the rest; shorter slices give the decoder's error. Encoding then decoding is the identity.", "quantifier": "every width, every byte slice", "why_tests_cant": "2^(8n) values.", "anchors": ["src/map.rs: impl_from_bytes!"]}
{"id": "C39", "title": "bounded/select/with_default mappers", "statement": "bounded(min,max) passes exactly min <= v < max; select0/1/eq/neq project/compare; with_default never fails.", "quantifier": "all values", "why_tests_cant": "All values.", "anchors": ["src/map.rs"]}
{"id": "C40", "title": "The stateful prefix unit requires its prefix first and does not reset", "statement": "A fresh prefix_cnt(p,n,u) accepts a history of characters iff the first n satisfy p and the rest satisfy u; once a prefix check fails it rejects everything for ever; the state carries over to later matches.", "quantifier": "every history of characters fed to the unit", "why_tests_cant": "Histories are unbounded.", "anchors": ["src/neu/prefix.rs: Prefix"]}
{"id": "C41", "title": "The synchronized prefix unit under concurrency", "statement": "PrefixSync called by one thread at a time behaves like Prefix; with interleaved atomic accesses from several threads, a prefix slot can be consumed twice (lost update).", "quantifier": "all interleavings of the atomic loads/stores", "why_tests_cant": "Schedules.", "anchors": ["src/neu/prefix.rs: PrefixSync"]}
{"id": "C42", "title": "Recursive parsers are the fixpoint of their definition", "statement": "A rec_parser handle matches exactly like the pattern it was built from with the handle substituted; for the balanced-bracket grammar the accepted texts are exactly the balanced ones, at any nesting depth.", "quantifier": "every recursive grammar, every input and depth", "why_tests_cant": "Depth is unbounded.", "anchors": ["src/regex/rec.rs", "src/ctor/adapter.rs"]}
{"id": "C43", "title": "branch runs exactly the selected arm", "statement": "branch(test, a, b) behaves as a when test is Ok(true), as b when Ok(false), and fails with the test's error without moving otherwise; failure restores the offset.", "quantifier": "every test function, arms, input", "why_tests_cant": "Patterns are an unbounded recursive family and inputs are arbitrary; a test fixes one pattern and one text.", "anchors": ["src/ctor/branch.rs"]}
{"id": "C44", "title": "if_then: the test decides, and commits", "statement": "`a.if_then(t, b)` is a t b when t matches after a; just a when t does not match; if t matches but b fails, the whole fails and the offset is restored.", "quantifier": "every a, t, b, input", "why_tests_cant": "Patterns are an unbounded recursive family and inputs are arbitrary; a test fixes one pattern and one text.", "anchors": ["src/ctor/then.rs: IfThen"]}
{"id": "C45", "title": "Conditions are checked on the suffix at the character and do not move the cursor", "statement": "set_cond(regex_cond(p)) accepts a character only if p matches the text starting at that character, seen as a fresh context (so start() there matches); cond errors propagate without moving the cursor.", "quantifier": "every unit, cond pattern, input", "why_tests_cant": "Patterns are an unbounded recursive family and inputs are arbitrary; a test fixes one pattern and one text.", "anchors": ["src/neu/cond.rs"]}
{"id": "C46", "title": "A match stays inside the pattern's language", "statement": "If try_mat succeeds, the consumed text belongs to the regular-expression language obtained by reading the combinators as concatenation, union and bounded/unbounded iteration.", "quantifier": "every recursion-free pattern, every input", "why_tests_cant": "Patterns are an unbounded recursive family and inputs are arbitrary; a test fixes one pattern and one text.", "anchors": ["src/ctor/*.rs", "src/neu/*.rs"]}
{"id": "C47", "title": "repeat takes the greedy bounded number of repetitions", "statement": "`p.repeat(range)` applies p until it fails or the upper bound is reached, succeeds iff the count lies in the range, and otherwise fails with the offset restored; `collect` likewise with a minimum.", "quantifier": "every p, range (any bound kinds), input", "why_tests_cant": "Patterns are an unbounded recursive family and inputs are arbitrary; a test fixes one pattern and one text.", "anchors": ["src/ctor/repeat.rs", "src/ctor/collect.rs"]}
{"id": "C48", "title": "pat() and pattern wrappers are transparent", "statement": "`p.pat()`, adapters, Box/Rc/Arc/RefCell/Cell/Some(p) match exactly as p; None fails with Error::Option.", "quantifier": "every pattern, input, context kind", "why_tests_cant": "Patterns are an unbounded recursive family and inputs are arbitrary; a test fixes one pattern and one text.", "anchors": ["src/ctor/pat.rs", "src/ctor/adapter.rs", "src/regex/adapter.rs", "src/regex.rs: impl_forward_regex"]}
{"id": "C49", "title": "Optional patterns never fail", "statement": "`p.opt()` never returns Err on a plain context; when p fails it yields None/an empty span and does not move; in ctor mode too.", "quantifier": "every p, input", "why_tests_cant": "Patterns are an unbounded recursive family and inputs are arbitrary; a test fixes one pattern and one text.", "anchors": ["src/ctor/opt.rs"]}
{"id": "C50", "title": "Context navigation is consistent", "statement": "reset/with_offset/with_dat/reset_with/clone_at/peek/orig behave as cursor operations on an immutable text: orig_at(o) is the suffix at o when o is a boundary, else an error; clone_at(o) sees exactly that suffix at offset 0.", "quantifier": "all inputs and offsets", "why_tests_cant": "All offsets, incl. mid-character and out of range.", "anchors": ["src/ctx/regex.rs", "src/ctx.rs: Context"]}
{"id": "C51", "title": "Re-entrant synchronized recursion", "statement": "A rec_parser_sync handle locks a mutex while its pattern runs: it behaves like rec_parser as long as the pattern does not reach its own handle again while it is running; a recursive use of the handle never returns a result (deadlock or panic), so no text that needs a nested level is accepted.", "quantifier": "every recursive definition, every input, every nesting depth", "why_tests_cant": "The behaviour depends on whether some input reaches the handle re-entrantly, at any depth.", "anchors": ["src/regex/rec.rs: rec_parser_sync", "src/regex.rs: impl for Arc<Mutex<..>>"]}
{"id": "C52", "title": "Parsers do not look behind the cursor", "statement": "For patterns without the start anchor (and closures that respect it), try_mat/ctor at offset o gives exactly the result of a fresh context over the rest of the text, with offsets moved by o; text before the cursor never influences the outcome, under any skipping policy and including divergence; with ctor for every handler that sees the match alone, its state included.", "quantifier": "every pattern without start anchor, every recursive environment and policy stack, every text and offset", "why_tests_cant": "A relational property over pairs of runs on unboundedly many prefixes.", "anchors": ["src/ctx.rs: Context, clone_at", "src/regex.rs", "src/ctor.rs"]}
{"id": "C53", "title": "Number parsers read exactly the numerals of the type", "statement": "from_str/from_str_radix at an integer type succeed exactly on a non-empty numeral in the base, optionally signed (- only for signed types), whose value is in the range of the type, and return that value; digit(r).many1().try_map(from_str_radix(r)) therefore fails only when there is no digit or the number is out of range.", "quantifier": "every integer type, radix, text and offset", "why_tests_cant": "All numerals of all lengths; overflow boundaries for every type and radix.", "anchors": ["src/map.rs: FromStr, FromStrRadix", "src/neu/units.rs: digit", "src/ctor/map.rs"]}
{"id": "C54", "title": "from_utf8 decodes exactly valid UTF-8, from_utf8_lossy replaces the broken pieces", "statement": "map::from_utf8 succeeds exactly on byte sequences that encode a sequence of Unicode scalar values and returns that sequence; consuming the bytes of a text and mapping with from_utf8 gives back the text. map::from_utf8_lossy never fails, returns valid text, agrees with from_utf8 where that succeeds, and otherwise replaces each maximal beginning of an encoding (or single byte) that is not a character by one U+FFFD.", "quantifier": "all byte sequences, all texts", "why_tests_cant": "All byte sequences of all lengths.", "anchors": ["src/map.rs: FromUtf8", "src/map.rs: FromUtf8Lossy"]}
{"id": "C55", "title": "The JSON example parses exactly its notation", "statement": "JsonParser::parse of examples/json.rs returns on every byte string; it succeeds exactly when the input begins with a spelling of an array or object (white space around keys and elements, escapes in strings, signed decimal numbers, nesting of any depth), returns the value spelled and stops behind the spelling; otherwise it is an error. The notation is unambiguous. It differs from JSON: [] {} null exponents and leading white space are rejected, trailing commas and leading zeros accepted.", "quantifier": "all byte strings, all values of any nesting depth, every decoding of numerals", "why_tests_cant": "A recursive grammar with unboundedly many texts and depths; exactness is about all rejected texts too.", "anchors": ["examples/json.rs: JsonParser::parse", "src/regex/rec.rs: rec_parser", "src/ctor/sep.rs: Separate", "src/neu/cond.rs: RegexCond"]}
{"id": "C56", "title": "The PNG example reads back exactly the chunks of the file", "statement": "Running examples/png2.rs on the header followed by any list of well-formed chunks (big-endian length, four type bytes, data, big-endian CRC-32 of type and data) and at most three stray bytes returns exactly those chunks in order. A file cut inside a chunk is an error, a chunk with another checksum panics, a file without the header is refused, every byte string falls in one of these cases, and whatever is returned Ok are the chunks of the file.", "quantifier": "all byte strings; all lists of chunks, all data lengths below 2^32", "why_tests_cant": "Tests read a few files; the claim is a round trip and a classification over all byte strings.", "anchors": ["examples/png2.rs: parse, Trunk::new, Png::new, main", "src/regex/consume.rs: Consume", "src/map.rs: from_be_bytes, fixed_size"]}
{"id": "C57", "title": "The PNG example's checksum is CRC-32 and detects burst errors", "statement": "calc_crc never panics and equals the complement of the remainder of the polynomial division prescribed by the PNG standard; texts that differ only within a window of 32 bits (in particular within four consecutive bytes) have different checksums, so a chunk damaged that way is never returned.", "quantifier": "all byte strings, all damage confined to a 32-bit window", "why_tests_cant": "Equality with the polynomial definition and error detection quantify over all messages.", "anchors": ["examples/png2.rs: initialize_crc_table, calc_crc", "examples/png.rs: calc_crc"]}
{"id": "C58", "title": "escape_strval! matches exactly a string body", "statement": "escape_strval!(quote, prefix, escape) matches, from any position and without ever failing, exactly the items up to the first quote that is not part of an escape (the prefix followed by an item of the escape set), or up to the end of the text; a prefix followed by anything else is ordinary text; enclosed in quotes it matches exactly the quoted strings.", "quantifier": "all texts and positions, all quote and prefix items, all escape units whose min_length is honest", "why_tests_cant": "All strings with all nestings of prefixes and quotes.", "anchors": ["src/macro.rs: escape_strval!"]}
{"id": "C59", "title": "Class macros denote the set and the repetition they spell", "statement": "A class written in neu!/regex! ([a-z A-Z], [^ ...], [a b c], ., ^, (u, v), a single character) accepts exactly the items it spells, whether ranges are written with identifiers or literals, single or several; regex!(class quantifier) takes the longest run of such items the quantifier allows and matches iff it is long enough.", "quantifier": "all classes, all items, all quantifiers, all texts and positions", "why_tests_cant": "All characters and all classes; the single-range form is expanded differently from the several-ranges form.", "anchors": ["src/macro.rs: regex!, neu!"]}
{"id": "C60", "title": "The one-call forms are match-then-map", "statement": "ctx.map_handler/map_with call the handler exactly once, after a successful match, with the cursor already behind the match and the matched span; the call's result is the handler's, and the cursor stays behind the match even if the handler fails. A failed match never calls the handler and returns the match's error. ctx.map gives the mapper the matched text, ctx.map_span the byte span, and both behave exactly like ctor/ctor_span of p.pat().try_map(f). try_mat_before/after run the extra step before/after and return the pattern's span.", "quantifier": "all patterns, handlers, mappers, contexts, policies, cursor positions", "why_tests_cant": "Quantifies over arbitrary handlers, mappers and patterns and over failures at each step.", "anchors": ["src/ctx.rs: map_handler, map_with, map_span, map, ctor_span, ctor, try_mat_before, try_mat_after"]}
{"id": "C61", "title": "Fluent methods mean what their names say", "statement": "skip_ws/skip_ascii_ws take exactly the whole run of (ASCII) white space behind the pattern and never change whether it matches or what it builds; the _leading forms take the run in front. _0/_1/_eq keep one component of the pair, or the pair if its components are equal, after all parts ran. map_to replaces the mapper, map composes. if_else takes the receiver when the test holds. !p on a pattern is a zero-width negative look-ahead, !u on a unit the complement. count/at_least/at_most take exactly, at least, at most that many items. times accepts every range with a number in it and refuses the empty ones.", "quantifier": "all patterns, units, texts, positions, ranges, handlers", "why_tests_cant": "All texts with all runs of white space, all ranges; the empty-range check has nine bound combinations.", "anchors": ["src/ctor.rs: CtorOps", "src/neu.rs: NeuIntoRegexOps, NeuOp", "src/ctor/then.rs: _0, _1, _eq", "src/ctor/map.rs: map_to", "src/regex.rs: impl_not_for_regex!", "src/neu/range.rs: CRange::is_empty"]}
{"id": "C62", "title": "Units that contain stateful units", "statement": "A unit built from prefix_cnt, or, and, not and plain units answers a sequence of items as follows: a prefix must accept the first n items, after one rejection every later answer is no, after n acceptances its unit decides alone; the right operand of or is asked only about items the left one rejected, that of and only about those it accepted, and each operand keeps its own history. once, opt, many0, many1, between and times over any stateful unit ask it about the items from the cursor on, in order, up to the first no, the cap or the end, and about nothing else; the span is exactly the accepted run; on too little text the counted forms fail without asking, and that check refuses nothing the unit would accept unless a complement is taken of something wider than a byte; a prefix is always asked. With a condition an item counts when unit and condition both accept it, and an error of the condition is the result. The number unit of the documentation accepts every number in the three notations.", "quantifier": "all nested units, all item sequences, all stateful units and conditions, texts, positions, bounds and ranges", "why_tests_cant": "The answer depends on the whole history of questions; a test fixes one history of one unit.", "anchors": ["src/neu/prefix.rs: Prefix, prefix, prefix_cnt", "src/neu/op_or.rs", "src/neu/op_and.rs", "src/neu/op_not.rs", "src/neu/times.rs: Between, Times", "src/neu/opt.rs", "src/neu/once.rs"]}
{"id": "C63", "title": "Equivalent parts can be exchanged", "statement": "If two parsers answer every context alike (same result, or both an error, and the same cursor; constructing, also the same value and handler state), then any parser in which occurrences of one are replaced by the other, at any depth and in any position, including conditions of unit regexes, parsers returned by closures and the cells of recursive parsers, answers every context as before; it also returns, panics and runs forever in exactly the same cases.", "quantifier": "all parsers, all sets of replaced parts, all environments, policies, handlers and contexts, and all reflexive notions of errors that count as equal", "why_tests_cant": "A refactoring can be observed in infinitely many surrounding parsers; a test only tries the surroundings it was written for.", "anchors": ["src/ctx.rs: try_mat, ctor_handler", "src/ctor.rs: Ctor", "src/ctor/or.rs", "src/ctor/then.rs", "src/ctor/repeat.rs", "src/ctor/sep.rs", "src/neu.rs: NeuCond", "src/regex/rec.rs"]}
{"id": "C64", "title": "Usual refactorings of parsers keep their meaning", "statement": "On a plain context: or and longest_tokens are associative and idempotent; fail is neutral for or; a list of alternatives is the first or the rest; then is associative (with the tuple re-nested when constructing), empty is neutral for it, fail absorbs it; p.then(q).or(p.then(r)) is p.then(q.or(r)); sep_once, enclose, prefix and suffix are sequences; if_then is an alternative with a negative look-ahead; opt is or with empty and idempotent; a double negative look-ahead is a positive one; collect is repeat with a lower bound; p.repeat(n+1..) is p.then(p.repeat(n..)), also with an upper bound; a string literal is the sequence of its parts; two mappers are their composition. Where sequences are compared, the parts must consume one piece of text from the cursor and not move on failure, which holds of every parser built without longest-match containers, skip(false) and dynamic parsers. Under a policy even the associativity of or fails, because the policy runs once per nested parser.", "quantifier": "all parsers with the stated proviso, all environments, all contexts including offsets inside a character or behind the end, all handlers", "why_tests_cant": "Each law relates two parsers on every input; a test compares them on a few.", "anchors": ["src/ctor/or.rs: Or", "src/ctor/longest.rs: LongestTokenMatch", "src/ctor/then.rs: Then, IfThen", "src/ctor/opt.rs", "src/ctor/affix.rs", "src/ctor/enclose.rs", "src/ctor/sep.rs: SepOnce", "src/ctor/repeat.rs", "src/ctor/collect.rs", "src/regex/literal.rs", "src/regex/assert.rs", "src/ctor/map.rs"]}
{"id": "C65", "title": "The e-mail address parser of the README accepts exactly the addresses it describes", "statement": "The parser of README.md accepts a text exactly when the whole text is a non-empty name of lower-case letters, digits, '_', '.', '+' and '-', an '@', a domain of at most 256 lower-case letters, digits, '.' and '-', a dot, and a last piece of two to six lower-case letters (after a domain of exactly 256 characters dots are allowed in it, too). The division into the three parts is unique. On every other text it fails with the cursor at the start. The capturing variant of the benchmarks accepts the same texts and returns the three parts. The regular expression the README compares it with is a different language: every accepted address with a non-empty domain is in it, every address of it with a short domain and no dot in the last piece is accepted, and each direction fails otherwise.", "quantifier": "all texts", "why_tests_cant": "The tests list a few addresses; which texts a look-ahead condition inside a bounded run lets through depends on every position of the last dot and on the length bound.", "anchors": ["README.md:41-64", "bench/regex_nocap.rs", "bench/regex_cap.rs", "src/neu/cond.rs: set_cond, regex_cond", "src/neu/times.rs: Between", "src/regex/anchor.rs", "src/ctor/sep.rs: SepOnce"]}
{"id": "C66", "title": "The colour parser and the first README example read exactly what they say", "statement": "The colour parser of the benchmarks accepts a text exactly when it starts with '#' and six upper-case hexadecimal digits, returns the three components, which are bytes, and leaves the cursor behind them; it fails with the cursor at the start otherwise. Writing any three bytes that way and parsing gives them back. Lower-case digits are refused although the number reader would accept them. The first example of the README accepts a text exactly when it starts with a non-empty run of ASCII digits whose value fits an i32, followed by a non-empty run of ASCII letters; it returns the number and the maximal run of letters, with the cursor behind it, and otherwise an error with the cursor at the start.", "quantifier": "all texts, all triples of bytes", "why_tests_cant": "There are 16 million colours and infinitely many texts; overflow of the number and the end of the runs are reached by none of the sample texts.", "anchors": ["bench/nom_cap.rs:87-100", "README.md:21-31", "src/map.rs: from_str, FromStrRadix", "src/ctor/affix.rs: Prefix", "src/ctor/then.rs: Then", "src/macro.rs: regex!"]}
{"id": "C67", "title": "The older PNG reader reports on every chunk", "statement": "Run on a file that is the PNG signature and whole chunks (and at most three stray bytes), the example prints the head line and, for each chunk in order and with its index, the four letters of the type with their case, the announced and the skipped length, and whether the checksum is that of type and data; a wrong checksum does not stop it. A file that ends inside a chunk gives the reports on the chunks before it, exactly the part of the last report that can be given, and an error. Any other file is refused. It never panics and its output is determined by the file. The newer reader accepts a file exactly when this one ends normally and reports no wrong checksum. For ASCII letters the printed bit is bit 5 of the byte, as the format demands; for other bytes it need not be.", "quantifier": "all byte strings as files, all lists of chunks", "why_tests_cant": "There is one sample file; lengths, truncation points and checksums range over all files.", "anchors": ["examples/png.rs: main, calc_crc", "examples/png2.rs", "src/regex/consume.rs", "src/map.rs: from_be_bytes", "src/ctx.rs: ctor, orig_sub"]}
{"id": "C68", "title": "The use-declaration reader on a white-space-skipping context reads exactly the declarations at the front", "statement": "On a string context that skips white space, the collected `use` parser (word `use`, names separated by `::`, an optional `*`, `;`) succeeds exactly if at least one declaration stands at the front of the text, and then returns all consecutive declarations in order, each with its names and whether the asterisk is there, with the cursor behind the last one up to white space; otherwise it returns an error and never panics. Declarations written with arbitrary white space between the tokens are read back unchanged, except that white space behind a one-letter name becomes part of the name, and no white space is needed behind the word `use`.", "quantifier": "all texts, all lists of declarations, all layouts of white space, all texts behind", "why_tests_cant": "The test reads its own two declarations; the grammar is recursive in the number of names and declarations, and the policy acts between all the parts including the two halves of a name.", "anchors": ["tests/11_policy.rs: policy_impl", "src/ctx/policy.rs: PolicyCtx", "src/ctor/sep.rs: Separate", "src/ctor/collect.rs: Collect"]}
{"id": "C69", "title": "The struct-field reader on a white-space-skipping context reads exactly the fields at the front", "statement": "On a string context that skips white space, the field parser (optional `pub`, name, `:`, a type with up to two nested arguments, separated by `,`) succeeds exactly if a field stands at the front of the text, and returns all fields of the comma-separated list in order with name, type and visibility, taking the deepest type that fits; otherwise it returns an error and never panics. Fields written with arbitrary white space between the tokens are read back unchanged, except that a name that starts with the letters `pub` is taken for a public field with the rest as its name, and that a one-letter type is refused.", "quantifier": "all texts, all lists of fields, all layouts of white space", "why_tests_cant": "The test reads one line with three fields; alternatives that overlap (public/private, the three kinds of types) interact with the skipping policy for every text.", "anchors": ["tests/10_wrap.rs: wrap", "src/ctor/adapter.rs", "src/ctx/policy.rs: PolicyCtx", "src/ctor/sep.rs: Separate, SepOnce"]}
{"id": "C70", "title": "What is built when mappers and handlers may fail or panic", "statement": "ctx.ctor and relatives return exactly what a big-step description says, also when mappers (try_map), handlers, branch tests, closures and dynamically chosen parsers fail or panic, and when the handler has state: which value, which error, where the cursor is left in each case, in which state the handler is left, or a panic. On a context that skips, the cursor is the described one up to what the context skips. A failing mapper makes its alternative fail and the next one starts from the same place; an optional part becomes None; a list ends there, keeps what it has, and has consumed the text of the rejected element. Without policies the handler is called with the matched span and with the cursor at the end of it. What the handler did for an abandoned part stays done. Parsers whose unbounded loops consume and whose recursion is guarded return; they panic only if user code does or a fixed-size array overflows.", "quantifier": "all parsers except the mutex-guarded dynamic ones (and, on contexts that skip, except longest-match choices), all texts, start positions, environments of recursive parsers, skipping policies that skip a run of items, mappers and handlers (any result), handler states", "why_tests_cant": "Ranges over all parsers and all user functions; where the cursor stays after a failing mapper inside loops and longest-match choices is rarely observed by tests.", "anchors": ["src/ctor/*.rs construct", "src/regex.rs", "src/ctor/map.rs Map::construct", "src/ctor/collect.rs Collect::construct", "src/ctor/repeat.rs", "src/ctor/sep.rs"]}
{"id": "C71", "title": "A failing call blames a part of the parser", "statement": "The error a failing try_mat returns is one that a part of the parser (or of a policy of the context) itself reports and that the enclosing combinators hand on; for ctor and relatives the mappers, closures and the handler count as well. Errors of the first alternative of a choice, of elements, separators and alternatives of repetitions and containers, of an optional or asserted parser and of the test of if_then never reach the caller: those combinators fail with their own error (repetitions, containers, assertions), not at all (optional), or with the second alternative's error. With the cursor in the text nothing reports 'offset out of bound' and skipping policies are never to blame.", "quantifier": "all parsers (closures, recursive, dynamic and longest-match ones included), all contexts and policies, all handlers and their states", "why_tests_cant": "Ranges over all nestings of combinators: a test sees the error of one parser on one text.", "anchors": ["src/err.rs Error", "src/ctor/*.rs try_parse, construct", "src/regex/*.rs try_parse", "src/neu/*.rs try_parse", "src/regex.rs handler, handler_ltm", "src/ctx/policy.rs try_mat"]}
{"id": "C72", "title": "Error messages identify the error", "statement": "Different errors print different messages; a user-defined error prints its number in decimal so that it can be read back; every message is one non-empty line of visible ASCII.", "quantifier": "all errors, including every user-defined number", "why_tests_cant": "User-defined numbers are unbounded, and distinctness ranges over all pairs.", "anchors": ["src/err.rs Display for Error"]}
{"id": "C73", "title": "Parsing the UTF-8 bytes of a text is parsing the text", "statement": "Take a parser for str and the parser for byte slices a user writes in its place: literals are their UTF-8 bytes; single, optional, counted and paired units accept the same ASCII characters and nothing else; runs of units (zero_more, one_more) accept the same ASCII characters and either both everything or both nothing outside ASCII; unit conditions are such parsers again; combinators, anchors, consume_all, recursive handles, mappers are the same. Started on the text and on its bytes at the same character boundary, both return the same span or the same error and leave the cursor at the same byte, again a character boundary, or both never return; a span covers in the bytes the encoding of what it covers in the text. The same holds with skip_ascii_whitespace, and for ctor and relatives with handlers that do the same with the same piece of text (for example text of the match / decoded bytes of the match): same value, same error, same handler state. Outside ASCII a single unit really differs.", "quantifier": "all texts, all character boundaries, all such pairs of parsers including recursive ones, all handlers and states", "why_tests_cant": "Ranges over all nestings of combinators and all texts with characters of one to four bytes; the two context types and their iterators are separate implementations.", "anchors": ["src/ctx/regex.rs Context for RegexCtx<[u8]>, RegexCtx<str>", "src/iter/byte.rs BytesIndices", "src/regex/literal.rs try_parse", "src/neu/*.rs try_parse", "src/ctor/*.rs try_parse, construct", "src/ctx/regex.rs skip_ascii_whitespace"]}
{"id": "C74", "title": "Parsers build values of their type, and parsers whose functions fit do not panic", "statement": "Each combinator's constructing call has the result type its impl header states: then and sep_once pairs, if_then a pair whose second part is optional, sep/repeat/collect/sep_collect vectors, sep2/repeat2 arrays of N optional cells, opt an Option, alternatives and wrappers the type of their parts, map the mapper's result type, keyed choices a pair of value and key, a recursive handle the type of the parser stored behind it. On every context, policy, handler and position, a returned value has that type. If moreover every user function answers with a value of its declared type or an error on arguments of its type, nothing panics (parsers without fixed-capacity arrays or locks). The library's mappers have the types they declare: select0/select1 a component, decoders a number in the range of the integer type, from_str and from_str_radix (radix 2 to 36) and try_into a number in range or an error, from_utf8 a text of Unicode scalar values, with_default never an error.", "quantifier": "all nestings of combinators and typed user functions, recursive environments, all texts, contexts, policies, handlers, states", "why_tests_cant": "Ranges over all compositions of combinators and of user functions; a run shows one value of one parser.", "anchors": ["src/ctor/*.rs impl Ctor ... construct", "src/ctor.rs impl Ctor for Box, Rc, Arc, Option, RefCell, Mutex", "src/map.rs FallibleMap", "src/regex/rec.rs rec_parser"]}
{"id": "C75", "title": "The JSON parser of the benchmark owns its strings and accepts exactly the UTF-8 documents", "statement": "The parser bench/json.rs builds (neure_json: keys and strings go through to_str and String::from, numbers through to_str and parse) returns on every byte slice, never panics and has one answer. It succeeds exactly when the input begins with a spelling of an array or object all of whose strings are UTF-8 encodings of Unicode scalar values; the value then holds those strings decoded character by character, and the cursor is behind the spelling. Otherwise it is an error with the cursor at the start. Compared with the zero-copy parser of examples/json.rs: whatever it accepts the zero-copy parser accepts with the same cursor; whatever the zero-copy parser accepts it accepts if and only if every string is valid UTF-8. A string of any characters written in UTF-8 between quotes is returned unchanged.", "quantifier": "all byte slices, all documents of any nesting and length, all decodings of numerals", "why_tests_cant": "Ranges over all documents and all invalid inputs; the benchmark runs one file and checks nothing.", "anchors": ["bench/json.rs neure_json::parse", "src/map.rs from_str", "src/ctor/map.rs construct", "src/regex/rec.rs rec_parser"]}
{"id": "C76", "title": "The recursive parsers of the documentation of rec_parser read exactly their notations", "statement": "Two parsers built with rec_parser are documented: a letter in nested brackets, and a list of XML-like elements. Each returns on every input, never panics and has one answer. The bracket parser succeeds exactly when the bytes begin with an ASCII lower-case letter inside one or more properly matched pairs of {} and []; it returns the letter and leaves the cursor behind the last bracket; otherwise it is an error with the cursor at the start. The element parser succeeds exactly when the text begins with an element; it then returns, in order, all consecutive elements up to the first place where none begins, each with its name and children, and the cursor is behind the last; otherwise it is an error with the cursor at the start. Elements whose opening and closing names differ are refused. Any list of elements written out is read back as itself. An element with children can not have the empty name (a single tag can).", "quantifier": "all byte slices; all strings; all notions of alphabetic that exclude the three characters < / >; elements of any nesting, width and name", "why_tests_cant": "The documentation shows three bracket texts and one document; nesting is unbounded and the claim is also about every text that is refused.", "anchors": ["src/regex/rec.rs rec_parser", "src/ctor/enclose.rs construct", "src/ctor/or.rs construct", "src/ctor/repeat.rs construct", "src/ctor/map.rs construct"]}
{"id": "C77", "title": "The synchronized prefix unit keeps its guarantees under relaxed memory ordering", "statement": "The atomic fields of prefix_sync are accessed with Relaxed, so other threads may see the stores late, out of order, or not in one global order. In every execution the memory model allows (loads read from stores, nothing comes out of thin air, coherence along happens-before): the count a call loads never exceeds the initial one; a call answered by the unit depends on as many different calls answered by the prefix as the initial count; a call refused because the flag is down depends on a call whose item failed the prefix test, so none is refused if every item passes; what is accepted passes the prefix or the unit; and if all calls are ordered by happens-before, the answers are those of the unsynchronized unit. Every sequentially consistent interleaving is such an execution with the same answers. Not guaranteed: a thread that has seen the count left by a failed test need not see the flag, even in its next call.", "quantifier": "all predicates, all initial counts, any number of threads and calls, all executions allowed by the relaxed memory model", "why_tests_cant": "A test machine shows few reorderings (none of these on x86) and the set of executions is unbounded.", "anchors": ["src/neu/prefix.rs PrefixSync::is_match", "src/neu/prefix.rs prefix_sync_cnt", "src/neu/prefix.rs PrefixSync::new"]}
{"id": "C78", "title": "Searching for a unit or a literal is what the standard string searches do", "statement": "From any cursor at an item boundary: find(u.once()) returns the span of the first item the unit u accepts and leaves the cursor behind it (str::find with a predicate, as bench/find.rs compares), or None with the cursor at the end if there is none; find(u.many1()) returns the first maximal run; find_all(u.once()) yields exactly the accepted items in order; find_all(u.many1()) yields exactly the non-empty pieces of splitting the text at the items u rejects; find(l) for a non-empty string l is str::find(l) and find_all(l) is str::match_indices(l), byte offsets included. The empty string, unlike with str::find, is found nowhere.", "quantifier": "all units, all texts of both kinds (str and bytes, with characters of any width), all starting items, all non-empty literals", "why_tests_cant": "The searches try every byte offset, also those inside characters; agreement with the standard functions ranges over all texts and all units.", "anchors": ["src/ctx.rs MatchMulti::find, find_all", "bench/find.rs neure_find::find_str"]}
{"id": "C79", "title": "A grammar that needs one item of lookahead is parsed completely", "statement": "For a parser built from units, literals, then, if_then, or, choices, option, repetitions, separated lists, prefixes, suffixes, enclosures, map, wrappers and recursive handles, where the next item decides whether a repetition, an option or a word goes on and which alternative begins (the LL(1) condition), and where no handle reaches itself without reading: every word of its language that is not followed by an item which could continue it is matched entirely; anchored at both ends the parser accepts exactly the texts of its language and fails on all others; and such a word is determined by the text it starts. Ordered choice and committed loops lose nothing of the language.", "quantifier": "all such grammars (recursive ones included), both kinds of text, all texts before and after the word, all words of the language", "why_tests_cant": "It ranges over all grammars and all words of their languages; without the lookahead condition it is false (C46), so the tests of a few grammars say nothing about the next one.", "anchors": ["src/ctor.rs CtorOps", "src/ctor/*.rs", "src/neu/*.rs", "src/ctx.rs Match::try_mat"]}
{"id": "C80", "title": "Threads that share parsers behind mutexes get what they would get one after the other", "statement": "When threads, each with its own context and handler, use parsers behind Mutex (into_mutex, into_mutex_regex, rec_parser_sync) at the same time: at most one thread is inside a parser; the finished calls, in the order in which they finish, form a history of calls made one after the other, so each call gets the answer the parser inside gives to that thread's own context; if no thread would panic on its own, each sees exactly the answers, context and handler state it would have alone, whatever the schedule; after a panic inside a parser every later call to it, and no earlier one, returns Error::Mutex with context and handler untouched, so a parser panics at most once; nobody waits for ever while the parsers inside answer, and the threads are done after at most two steps per call.", "quantifier": "any number of threads, mutexes and calls (try_mat and ctor), all parsers inside, all contexts, handlers (panicking ones included), all schedules", "why_tests_cant": "It ranges over all interleavings, and poisoning shows only when a panic falls between the calls of other threads.", "anchors": ["src/regex.rs impl_forward_regex for Mutex<P>", "src/ctor.rs impl_forward_ctor for Mutex<I>", "src/err.rs Error::Mutex", "src/regex/rec.rs rec_parser_sync"]}
{"id": "C81", "title": "Skipping blanks makes the layout free: exactly the tokens matter", "statement": "On a context that skips the items of a unit (skip_before(u.many0()), skip_whitespace, skip_ascii_whitespace), what try_mat matches is a list of tokens of the parser - the runs and literals its units and literals read - with skipped items and nothing else before, between and after them. For a grammar that needs one item of lookahead and in which no token begins with a skipped item, the parser followed by the end anchor accepts exactly the texts that lay out a list of its tokens with any amount of skipped items between them, and rejects every other text with an error. If a token may begin with a skipped item (a literal with a leading blank), layouts are missed. With nothing skipped the tokens one after the other are the words of C46.", "quantifier": "all units to skip, all static parsers and environments of recursive parsers (soundness, also for any policy that always succeeds), all LL(1) grammars with crisp tokens (exactness), all texts, str and byte contexts", "why_tests_cant": "It ranges over all grammars, all token lists and all ways to put blanks between them.", "anchors": ["src/ctx/regex.rs RegexCtx::try_mat_policy, skip_before, skip_whitespace, skip_ascii_whitespace", "src/ctx/policy.rs", "src/regex.rs", "src/neu.rs"]}
{"id": "C82", "title": "Parts that match the same pieces of every text are interchangeable", "statement": "If two parsers match the same pieces of every text and fail at the same positions (and build the same values, leaving the cursor and the handler's state the same), then exchanging one for the other, anywhere inside a parser and inside the recursive parsers it uses, changes neither what the whole matches nor what it builds; only which error is reported may change. Interchangeable are: opt and {0,1}, many0 and {0,}, many1 and {1,}, once and {1}, two units accepting the same items, one character and the literal of one character, and a boxed, shared or borrowed parser and the parser itself. So the JSON parser of the benchmark (bench/json.rs, neure_json_zero) returns on every byte string what the one of examples/json.rs returns. Inside a character of a str, where only set_offset can put the cursor, opt and {0,1} differ. On contexts that skip text before every match the same holds of the spans reported and of failure.", "quantifier": "all parsers and environments in scope of C05 and C70, all sets of exchanged pairs, all depths and numbers of exchanges, all texts and positions, all handlers that answer, str and byte contexts; for matching also all skip policies that always answer (PropRespellPol.v)", "why_tests_cant": "It ranges over all parsers around the exchanged part, all texts and all handlers.", "anchors": ["src/regex.rs", "src/ctor.rs", "src/neu/once.rs Once, Many1", "src/neu/opt.rs Opt, Many0", "src/neu/times.rs Between", "src/macro.rs regex!", "bench/json.rs neure_json_zero", "examples/json.rs"]}
{"id": "C83", "title": "Parsers that need one item of lookahead build the value of what they read", "statement": "Give every word of a parser's language a value without looking at positions, choice order or greediness: a leaf has what the handler makes of its text, a sequence the pair of the values of its parts, a repetition or separated list the list of the values of its elements, an option some value or none, a map what the mapper makes of the value. If one item of lookahead decides (C79) and the mappers accept whatever their parts build, then constructing builds that value for every word in front of the cursor that the next item cannot continue, and leaves the cursor behind the word; whatever is built is the value of what was consumed; anchored at the end the parser builds exactly the value of the text and rejects every text that is no word, with the cursor at the start and without a panic; every word has exactly one value. For example a calculator for sums, products and parentheses computes the number its text stands for, on every text.", "quantifier": "all parsers and recursive environments that need one item of lookahead, all mappers that accept what their parts build, all texts, positions and lengths, all handlers that answer with a function of the matched text, str and byte contexts; not arrays of fixed size (they panic when they overflow, C17) nor sep_collect (it may swallow an element, C15)", "why_tests_cant": "It ranges over all grammars with one item of lookahead, all their words and all mappers; nesting is unbounded.", "anchors": ["src/ctor.rs Ctor::construct", "src/ctor/map.rs", "src/ctor/then.rs", "src/ctor/or.rs", "src/ctor/opt.rs", "src/ctor/repeat.rs", "src/ctor/sep.rs", "src/ctor/vec.rs", "src/ctor/slice.rs", "src/ctor/array.rs", "src/regex/rec.rs"]}
{"id": "C84", "title": "Skipping blanks does not change what parsers with one item of lookahead build", "statement": "Give every list of tokens of a parser a value without looking at positions, choice order, greediness or blanks. If one item of lookahead decides (C79), no token begins with a blank or is continued by one (C81) and the mappers accept whatever their parts build, then constructing from the start of a text under a context that skips blanks, anchored at the end, builds exactly the value of the tokens laid out in the text with blanks before, between and after them; it rejects, without a panic and with nothing but blanks consumed, every text that is no such layout; whatever is built anywhere is the value of the tokens consumed; every token list of the parser has exactly one value and it is the value its text has without blanks (C83). For example the calculator of C83 computes, on every text, the number its text without white space stands for, and rejects texts in which white space splits a number.", "quantifier": "all parsers and recursive environments that need one item of lookahead, all units as blanks, all mappers that accept what their parts build, all texts, positions and lengths, all handlers that answer with a function of the matched text, str and byte contexts; pattern only around a single token (around several it takes the blanks into its text, refuted theorem)", "why_tests_cant": "It ranges over all grammars with one item of lookahead, all token lists, all their layouts and all mappers.", "anchors": ["src/ctx/regex.rs RegexCtx::skip_before, skip_ascii_whitespace, try_mat_policy", "src/ctor.rs Ctor::construct", "src/ctor/map.rs", "src/ctor/then.rs", "src/ctor/repeat.rs", "src/ctor/sep.rs", "src/ctor/slice.rs", "src/ctor/vec.rs", "src/regex/rec.rs"]}
{"id": "C85", "title": "Threads sharing parsers that lock several mutexes do not deadlock if the mutexes are ordered", "statement": "Several threads use parsers which lock mutexes inside mutexes (a Mutex<P> within a Mutex<Q>, or handles of rec_parser_sync that mention other handles). If the mutexes can be ordered so that what is inside a mutex locks only lower ones, then however the threads are scheduled: as long as some thread has a call to make or to finish, some thread can go on; no execution runs for ever; every thread gets exactly the answers, cursors and handler states it gets when working alone; between two calls a thread holds no mutex. The mutexes a call can lock are those its structure mentions, directly or through what is inside. Without an order this fails: two handles that mention each other can leave two threads waiting for each other for ever although each answers alone.", "quantifier": "all parsers and environments whose mutexes can be ordered, all numbers of threads and calls, all schedules, all texts, all handlers; calls that panic are left out (C80 has them for single locks)", "why_tests_cant": "It ranges over all schedules of all programs; deadlocks show up in tests only by chance.", "anchors": ["src/regex.rs impl Regex for Mutex", "src/ctor.rs impl Ctor for Mutex", "src/regex/rec.rs rec_parser_sync"]}
{"id": "C86", "title": "A handler with state is told the leaves of the result, from left to right, each once", "statement": "The leaves of a word are the pieces of text its result is made of: the texts of the units, literals and pattern(..) it consists of, not those of separators, delimiters, prefixes, suffixes and tests. If one item of lookahead decides (C79, C83), and what may be tried in vain (alternatives but the last, options, elements of loops) cannot match an empty leaf before it fails, then constructing a word in front of the cursor which the next item cannot continue calls the handler once for each leaf, with its span, in the order of the text, and for nothing else; a handler that writes things down (a symbol table, an arena, a counter) ends in the state made by these calls. Anchored at the end, the answer and the state are those of the text and its leaves for every text that is accepted. Every word has exactly one list of leaves; they lie inside the word, one behind the other. Each condition is needed: ab|ac tells the a twice on ac; an option begun and given up was told; digits* a | b tells empty digits on b.", "quantifier": "all parsers and recursive environments that need one item of lookahead, all mappers that accept what their parts build, all texts, positions and lengths, all handlers with any state whose answer is a function of the matched text, str and byte contexts", "why_tests_cant": "It ranges over all grammars with one item of lookahead, all words and all handlers; handlers are stateful and backtracking is invisible in the value.", "anchors": ["src/ctor.rs Ctor::construct, Handler", "src/ctor/or.rs", "src/ctor/opt.rs", "src/ctor/then.rs", "src/ctor/repeat.rs", "src/ctor/sep.rs", "src/ctor/slice.rs", "src/ctor/vec.rs", "src/regex/rec.rs"]}
{"id": "C87", "title": "Where one item of lookahead decides, matching takes linear work; without recursion polynomial; in general it can take exponential work", "statement": "Count the calls of parsers and the tests of items by units. If one item of lookahead decides (C79), there is a constant for the parser such that on every text, from every position, it answers after at most that constant times (1 + the items left) steps, whether it matches or fails, and likewise anchored at the end: no text makes it backtrack more than a bounded amount per item, through any nesting of choices, options, loops, separated loops and recursive handles. Without that condition there is no such bound: S = a S b | a S c | a always answers, and needs at least 2^n steps on n times a, since what the first alternative read is read again by the second. It takes recursion: a parser without recursive handles takes, on every text and under every skipping policy (the work of the policy not counted), at most a constant times (1 + the length of the text) to the power of the depth to which its unbounded loops are nested, and that exponent is reached: (a* b | a)* needs n^2/2 steps on n times a. No nested call goes uncounted: the steps are at least the height of every chain of calls the match makes.", "quantifier": "the linear bound: all parsers and recursive environments that need one item of lookahead, all texts and positions, str and byte contexts, without a skipping policy; the polynomial bound: all parsers without recursive handles and parsers made while matching, all policies; the lower bounds for all n", "why_tests_cant": "It is a bound over all texts and all grammars of a class; a test measures a few sizes, and catastrophic backtracking shows on texts nobody thought of.", "anchors": ["src/regex.rs Regex::try_parse", "src/ctor/or.rs", "src/ctor/vec.rs", "src/ctor/slice.rs", "src/ctor/opt.rs", "src/ctor/then.rs", "src/ctor/repeat.rs", "src/ctor/sep.rs", "src/regex/rec.rs", "src/neu.rs Neu::is_match"]}
{"id": "C88", "title": "No text makes the call stack higher than the parser alone allows, or with recursion than a constant times its length", "statement": "Count the calls of parsers and units that are on the stack at the same time while a text is matched. A parser without recursive handles and without parsers made while matching has a number of its own that no text exceeds, however long its loops run: loops, sequences and alternatives do not nest. With recursive handles that are not left-recursive and loop over nothing that may be empty (the check of C23), the match answers, and the stack is at most a constant times (1 + the items left), under any skipping policy (the policy's own calls not counted). That much can be needed: S = ( S ) | nothing has more than n calls on the stack on n opening brackets, whatever follows. The height counted is exact: with the calls each parser makes listed one by one, it is that of the highest chain of calls that starts at the parser, attained and not exceeded.", "quantifier": "all parsers without builders, all recursive environments that pass the check, all texts and positions, str and byte contexts, all skipping policies; the lower bound for all n and all texts behind the brackets", "why_tests_cant": "A stack overflow is not an error a caller can catch; whether some text causes one is a bound over all texts, and a test shows one depth for one text.", "anchors": ["src/regex.rs Regex::try_parse", "src/regex/rec.rs", "src/ctor/repeat.rs", "src/ctor/sep.rs", "src/ctor/collect.rs", "src/ctor/then.rs", "src/ctor/or.rs", "src/ctor/vec.rs", "src/neu.rs Neu::is_match"]}
{"id": "C89", "title": "What lies behind the items a match looks at does not matter", "statement": "Say of a match that it looks at the first z items of the text, where to notice that the text ends counts as looking behind its last item, and where closures of the user count as looking at everything. Then every text with the same first z items has the same match: same span, same cursor, same error; also under a policy that skips the items of a unit. A match that has not looked at the end is therefore the match on every longer text, and text may be fed in pieces. How far ahead a parser without closures, unlimited loops, `consume_all` and recursion looks can be told from the parser alone: literals their length, one per item tested, sums for sequences, the greatest for alternatives, products for limited loops; texts that agree up to there give the same answer. A parser with one item of lookahead looks one item behind its match, when that item cannot continue it; without that proviso this is false. With C52, a parser that looks at most n items ahead and does not ask where it stands gives, at any two places of any two texts that show the same next n items, the same answer, moved: it is a finite table. The start anchor, which looks at nothing and asks where it stands, shows that the second condition is needed.", "quantifier": "all parsers in scope of C01, all recursive environments, all pairs of texts that begin alike, all positions, str and byte contexts; plain contexts and those that skip the items of a unit", "why_tests_cant": "It compares the runs on all texts with a given beginning; tests run on finished texts and cannot show that nothing behind a point influences the answer.", "anchors": ["src/regex.rs Regex::try_parse", "src/neu.rs", "src/regex/literal.rs", "src/regex/anchor.rs", "src/regex/consume.rs", "src/ctor/then.rs", "src/ctor/or.rs", "src/ctor/repeat.rs", "src/ctor/sep.rs", "src/ctx.rs"]}
{"id": "C90", "title": "What building a value costs", "statement": "Count the calls of parsers that building a value makes, and how many of them are on the stack at the same time; calls of handlers, mappers, other closures and skipping policies are not counted. Every construction that returns, fails or panics has both counts. For a parser without recursive handles and without parsers made while matching, no text and no handler makes the stack higher than a number that depends on the parser alone. With recursive handles that pass the checks of C23 and C70 (no left recursion, loops consume), building answers whatever the handler returns and the stack is at most a constant times the length of what is left of the text; that much is needed for nested brackets. The height is that of the highest chain of calls of which each makes the next, and the number of calls is no smaller. For a parser without recursive handles whose loops consume, the calls are at most a constant times the length of the text to the power of the nesting of its loops, whatever state the handler starts in; if a loop need not consume this is false, the handler alone decides how long it runs.", "quantifier": "all parsers in scope of C70, all recursive environments, all texts, positions, handlers and handler states, str and byte contexts, plain contexts and those with skipping policies", "why_tests_cant": "It bounds the calls of every construction on every text and with every handler; a test measures one run, and a stack overflow or a blow-up appears only on texts nobody tried.", "anchors": ["src/ctor.rs Ctor::construct", "src/ctor/then.rs", "src/ctor/or.rs", "src/ctor/repeat.rs", "src/ctor/collect.rs", "src/ctor/sep.rs", "src/ctor/map.rs", "src/ctor/vec.rs", "src/regex/rec.rs"]}
{"id": "C91", "title": "What lies behind the items that building a value looks at does not matter", "statement": "Say of a construction that it looks at the first z items of the text, where to notice that the text ends counts as looking behind its last item, where a handler looks at the text up to the end of what was matched, and where closures that are handed the context count as looking at everything. Then every text with the same first z items gives the same value, cursor and handler state, or the same error, or the same panic; also under a policy that skips the items of a unit. A value that was built without looking at the end of the text is therefore the value on every longer text. A parser without closures, unlimited loops, `consume_all` and recursion looks no further ahead when it builds than when it matches; texts that agree up to there give the same value, and with a handler that sees the match alone so do the same items anywhere in two texts. For a handler that looks beyond the match, or tells where it stands, this is false.", "quantifier": "all parsers in scope of C70, all recursive environments, all pairs of texts that begin alike, all positions, handlers and handler states, str and byte contexts; plain contexts and those that skip the items of a unit", "why_tests_cant": "It compares the constructions on all texts with a given beginning; tests run on finished texts and cannot show that nothing behind a point influences the value.", "anchors": ["src/ctor.rs Ctor::construct", "src/ctor/pat.rs", "src/ctor/then.rs", "src/ctor/or.rs", "src/ctor/repeat.rs", "src/ctor/collect.rs", "src/ctor/sep.rs", "src/ctor/map.rs", "src/ctor/vec.rs", "src/ctx.rs"]}
{"id": "C92", "title": "Threads that share units behind mutexes", "statement": "Let threads share units behind mutexes, combined by `!`, `or` and `and`, and ask them questions (`is_match`, `min_length`), in any interleaving. An answer is the one the unit gives without threads and locks, also after panics elsewhere. A question panics only if a closure inside a mutex it asks panics on the item, or did so in a question that ended before. After a panic inside a mutex every question that begins later and has to go through that mutex panics as well (parsers behind a mutex return an error instead, C80); a question that had passed the mutex before is still answered. At most one thread is inside a mutex, nothing deadlocks, and every schedule ends. The questions of a thread end in the order in which it has them. With units that do not panic, a schedule that cannot go on has answered every question, as the units without the mutexes do.", "quantifier": "all numbers of threads and mutexes, all contents of the mutexes (units, and closures that may panic), all combinations by `!`, `or`, `and`, all lists of questions, all interleavings", "why_tests_cant": "Interleavings and the moment of a panic cannot be enumerated by tests; a test sees a few schedules.", "anchors": ["src/neu.rs Neu for Mutex<U>", "src/neu.rs Neu for F", "src/neu/op_not.rs", "src/neu/op_or.rs", "src/neu/op_and.rs"]}
