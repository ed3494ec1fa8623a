# Formal model of `neure` in Rocq (Coq 8.16.1)

`neure` is a parser-combinator crate.  Given a text (`&str` or `&[u8]`), a cursor (`offset`) and a
pattern value, `try_mat` (trait `Regex`) or `ctor*` (trait `Ctor`) returns a result and moves the
cursor.  The model is a deep syntax of pattern values with two interpreters that transcribe the
`try_parse` and the `construct` method of every combinator, plus separate models of the span
storers, the mappers, the stateful units, the programs in `examples/` and the JSON parsers of `bench/json.rs`.

How to read the development: `properties.jsonl` has the English claims, `MANIFEST.json` maps each
to theorem names, the theorems are in `rocq/theories/Prop*.v`.  Their statements use the vocabulary
of `Obs.v` (what a caller observes) and small specifications that do not mention the interpreters
(`Spec.v`, `CtorSpec.v`, `Lang.v`, the first halves of `Json.v`, `Png.v`, ...).

## Files (rocq/theories)

Model (transcriptions of /repo, each definition cites file and lines):

| file | contents |
|---|---|
| `Base.v`    | errors, results `Ok/Err/Panic/OOF`, state-and-result monad, spans, `CtxGuard` |
| `Text.v`    | inputs: lists of items (bytes or scalar values), UTF-8 widths and encoding, slicing |
| `Context.v` | the `Context` trait for `RegexCtx<[u8]>` and `RegexCtx<str>` |
| `Neu.v`     | units (`Neu`), ranges, `CRange`, `min_length` |
| `Syntax.v`  | the syntax of patterns, the universe of built values, environments of recursive handles |
| `Regex.v`   | `try_parse` of every pattern; contexts with a stack of skip policies |
| `Ctor.v`    | `construct` of every pattern, with stateful handlers |
| `Api.v`     | `try_mat`, `try_assert`, `try_mat_policy`, `map*`, `find`, `find_all`, `match_seq`, extracting handlers |
| `Store.v`   | `VecStorer`, `ArrayStorer`, the span, slice and byte iterators |
| `Maps.v`    | the mappers of `map.rs` |
| `PrefixUnit.v` | `Prefix` and `PrefixSync`; small-step interleaving semantics of the latter |
| `Macros.v`  | expansions of `neu!`, `regex!` and `escape_strval!` |
| `Methods.v` | the fluent calls of `CtorOps`, `NeuIntoRegexOps`, `NeuOp`, the projections, `!` |
| `Stateful.v` | `Prefix` nested in `Or`, `And`, `Not`, `Prefix`; `between`, `times`, `opt` over any stateful unit |
| `Lossy.v` | `from_utf8_lossy` |
| `ErrText.v` | `Display` of the errors |
| `Json.v`    | `examples/json.rs` (grammar), and its notation as an inductive specification |
| `JsonOwned.v` | `bench/json.rs`, `neure_json` (the grammar with owned strings), and the documents whose strings are UTF-8 |
| `JsonZero.v` | `bench/json.rs`, `neure_json_zero` (the grammar of the example spelled differently) |
| `WeakPrefix.v` | `src/neu/prefix.rs:370-390` under relaxed memory: calls, what they load and store, and the executions the memory model allows |
| `Search.v` | specification only: the standard string searches on lists of items, and scans by a parser that depends on the text ahead |
| `Ll1.v` | specification only: first and continuation sets of a parser, and the condition that one item of lookahead decides |
| `Tokens.v`, `TokensLl1.v` | specification only: the lists of tokens of a parser, their layouts with skipped text in between, and the condition that no token begins with a skipped item |
| `MutexPar.v` | `Mutex<P>` as `Regex` and `Ctor`, shared by threads (src/regex.rs:230-235, src/ctor.rs:277-282); specification: the calls one after the other |
| `DocRec.v` | `src/regex/rec.rs:17-43, 116-165`: the two recursive parsers of the documentation, and their notations |
| `Png.v`     | `examples/png2.rs` (reader and checksum; `png.rs` has the same reader and checksum), the file format and CRC-32 as polynomial division |

Specifications: `Spec.v` (PEG semantics over item positions), `CtorSpec.v` (the value a pattern
builds), `Lang.v` (formal language of a pattern), `Obs.v` (vocabulary of the property theorems),
`Core.v` (which patterns the refinement ranges over), `Consumes.v`/`Term.v` (well-formedness),
`ConSpec.v` (constructing with failing and panicking user functions), `Blame.v` (which part an error comes from),
`Json.v` (second half), `MacroSpec.v` (what the macros are documented to mean), `Refactor.v` (equivalent parsers,
replacing parts), `Types.v` (result types of parsers).

Proofs: `TextProofs Units Sound Complete Mono Atomic Leaf ByteInv Loose Boundary CtorBoundary Laws
UnitLaws ApiLaws Diverge CtorSound CtorComplete PolicyLaws CursorLaws PegLaws UnitProps TermLaws
CtorLaws CtorShape LoopLaws SeqLaws AgreeLaws FindLaws Inside FindItems StoreLaws Rel Shift MapLaws
RecLaws Unlock JsonLaws CrcLaws PngLaws MacroLaws Cong Solid RefLaws RefLoops ConSound ConComplete ConTerm ConCalm BlameLaws Utf8Sim TypeLaws OwnedLaws`.  `Samples.v` has concrete patterns for the non-vacuity examples.

Property theorems: `PropCursor PropPeg PropComb PropUnit PropTerm PropCtor PropFind PropPolicy
PropStore PropCtx PropMaps PropLang PropRec PropPrefix PropJson PropPng PropMacro PropForms PropMethods
PropStateful PropStCond PropLossy PropSafe PropRefactor PropReadme PropColor PropPng1 PropDecls PropFields PropCon
PropBlame PropErrText PropUtf8 PropTypes`.  Every theorem is followed by
`Example Cxx_..._case` instances and, at the end of the file, by `Print Assumptions`.

Fidelity evidence: `Conform.v` replays the project's unit tests and documentation examples on the
model (texts, expected spans and values copied from /repo); it is not part of any claim.

`seeded/LOG.jsonl` records the mutation testing of the theorems.

## Modelling choices and simplifications

* **Machine integers.**  `usize` is `nat`: additions do not overflow.  Offsets and spans inside a
  text stay below its length, which Rust bounds by `isize::MAX`.  Beyond that a sum can only overflow
  where the user passes a number near `usize::MAX` (`consume(n)`, `inc(n)`, `length_of(n)`), and the
  counter of a loop that turns more than `usize::MAX` times, which the model calls divergence.
  Subtractions that Rust
  performs with `-` are checked and give the explicit outcome `Panic` (debug-profile semantics).
  `debug_assert!`, `unwrap`, slice indexing are checks giving `Panic`.
* **Texts** are lists of items: bytes for `[u8]`, scalar values for `str`.  Byte lengths come from
  the UTF-8 width of each item and `enc` gives the actual bytes.  `str::get(a..b)` walks the items;
  `TextProofs.v` proves this equal to the byte-level `is_char_boundary` formulation.
* **Divergence.**  The interpreters take fuel; running out is the explicit outcome `OOF`, which no
  theorem treats as success or failure.  More fuel never changes an answer (`Mono.v`), so
  `exists fuel` in `Obs.v` is "the Rust call returns", and `Diverges` is "for no fuel".
* **User closures** (`Fn(&mut C)`, builders, branch tests, conditions, mappers) are arbitrary
  Gallina functions: deterministic, without hidden state.  Handlers are state-passing (`FnMut`).
* **Values** built by `construct` live in an untyped universe `val`.  `Types.v` gives them their Rust
  types back and C74 proves that typed parsers build typed values.
* **Wrappers** (`Box`, `Rc`, `Arc`, `Cell`, `RefCell`, `Mutex`, adapters, `&T`) only forward.  For
  patterns they are the transparent node `PWrap`; for units (neu.rs:148-270) they are the unit
  itself.  `RefCell` double borrow and `Cell<Option<_>>` being taken during a call are not modelled.
  Mutexes: `PLock` records which locks of `rec_parser_sync` the thread itself holds, and locking one
  twice is `Panic` (std: deadlock or panic).  `MutexPar.v` models threads that share parsers behind
  mutexes, with poisoning, for calls that take one lock at a time (C80); calls that nest locks
  are modelled without panics (C85).  `SharedUnit.v` models threads that share units behind mutexes
  (neu.rs:187-204), with poisoning; the closures inside take no locks of their own (C92).
* **Recursion** (`rec_parser`): a handle is an index into an environment of cells.
* **Policies.**  A `PolicyCtx<..PolicyCtx<RegexCtx,R1>..,Rn>` is a context plus the list of
  policies; `skip_before` policies are arbitrary patterns.
* **Concurrency** (`PrefixSync`): sequentially consistent interleavings of the individual atomic
  accesses (C41), and executions under relaxed memory (C77): calls whose loads read from stores, without
  thin-air values and coherent along happens-before.  The axioms are consequences of the C++20 rules
  that Rust adopts; an execution may satisfy them and still be forbidden, so what is proved of all
  executions holds of the real ones.
* **std** functions used by the mappers (`from_str`, `from_str_radix`, `from_utf8`, `from_xx_bytes`)
  are modelled after their documentation.  Float parsing is an arbitrary function; float decoding is
  the bit pattern.
* Logging and debug macros are erased.  Of the declarative macros, `neu!`, `regex!` and
  `escape_strval!` are modelled by their expansions on parsed tokens.

## What is not modelled

`src/log.rs` (tracing), `Debug`/`Clone`/`Default` derive code, `Display` of anything but errors, `lib.rs` re-exports, floats as numbers, the Unicode tables behind
`char::is_alphabetic` and friends (those units are arbitrary predicates; the ASCII ones are exact),
memory (lifetimes, allocation), trait resolution (which impl is picked for a type is done by hand
when a pattern is transcribed).

## Properties: what is modelled and how it is proved

| id | statement ranges over | proof |
|---|---|---|
| C01 C02 C04 | every pattern, any byte offset, any policies | one invariant on `parse` by induction on fuel, a lemma per combinator (`Atomic`, `ByteInv`, `Loose`); exceptions (bare user closures, longest containers, `longest` over late spans) refuted |
| C03 | every pattern on `str`, any policy stack | boundary invariant (`Leaf`, `Boundary`); `consume(n)` refuted |
| C05 | every pattern of `core`, every text | soundness by induction on fuel (`Sound`), completeness by induction on derivations (`Complete`), determinism of `Spec.v` |
| C06 | every pattern and context | fuel monotonicity, text invariance |
| C07 C08 C11 C14 C43 C44 C47 C48 C49 | arbitrary sub-patterns, both modes | laws over outcomes of the parts (`Laws`, `ApiLaws`, `SeqLaws`, `LoopLaws`) |
| C09 C10 C12 C13 C31 C32 C45 | every unit, text, offset | unit regexes in normal form: a run length over the item list (`Units`, `UnitLaws`, `UnitProps`); C13 uses that UTF-8 is prefix-free |
| C15 | every list of alternatives | list induction; the cursor clause is false of the code (refuted), hence partial |
| C16 C17 C19 | every element/separator | loop characterisations; capacity overflow and `sep_collect` deviation refuted, hence C17 and C19 partial |
| C18 C20 C21 C22 C30 | every pattern, handler, policy | `construct` against `CtorSpec.v` (sound, complete, deterministic) and against `parse` |
| C23 C24 | well-formed patterns / empty-matching bodies | measure argument (`Term`), checkable criterion `wfb`; divergence by induction on fuel |
| C25 C26 | every pattern and text | scan loops against a leftmost-scan specification, also item by item (`FindLaws`, `Inside`, `FindItems`); three corners refuted, hence C25 partial |
| C27 C28 | every policy and pattern | policy interpreter; C28 is false of the code (refuted), hence partial |
| C29 | every unit expression | denotation as a set |
| C33 | all spans | arithmetic |
| C34 - C37 | every history of operations | abstraction to a map from groups to lists, induction on histories; C37 is false after exhaustion (refuted), hence partial |
| C38 C39 C53 C54 | all byte strings and values | positional notation over `Z`, two's complement; UTF-8 grammar; maximal-subpart relation for the lossy decoder |
| C40 C41 | every history; every interleaving | automaton; invariant over small steps; lost update exhibited |
| C42 C51 | every environment; every nesting depth | environment unfolding, balanced brackets by induction; lock-free and synchronized runs related |
| C46 | every pattern, recursive ones included | induction on PEG derivations into a formal language |
| C50 C52 | all contexts; patterns without `start` | direct; relational induction on two runs (`Rel`, `Shift`); C50 partial (a byte-context panic) |
| C55 | every byte string | the grammar of `examples/json.rs` against the inductive notation of `Json.v`: complete, sound, unambiguous |
| C56 C57 | every byte string | `Png::new` chunk by chunk, classification of all byte strings; table-driven CRC = bit-serial register = long division; linearity and injectivity of the register |
| C58 | every text, quote, prefix, escape set | the expansion against an inductive notion of string body, by induction on the remaining text |
| C59 | every class and quantifier | set denotation of the expansions; the quantified forms by the laws of C09/C10 |
| C60 | one-call forms, any handler and mapper | equations over the outcome of the match; pointwise equality with the constructing form |
| C61 | fluent methods as the nodes they build | laws of C06-C10 instantiated; range emptiness by cases on the bounds; `times(..0)` refuted |
| C62 | nested units as a tree of cells; unit regexes over an arbitrary state and condition | answer relation per constructor, induction over the questions; leading run by induction over the items, the condition folded into the unit; `C62_number_refuted` |
| C63 | equivalence of parsers as equality of all answers; replacement as an inductive relation over the syntax | eventual refinement (`sle`) is preserved by every monadic operation, loop and node; induction on fuel; environments by a second induction |
| C64 | the equivalences of C63, plain contexts | both directions by running the two sides, with fuel raised by monotonicity; loops by induction; `C64_or_assoc_refuted` under policies |
| C65 | `Readme.v`: the two e-mail parsers, built with the modelled macros and methods; `Email` says which texts are addresses | leaf laws in terms of the text behind the cursor (`Pieces.v`); the condition on the domain is reduced to a test on the remaining text; uniqueness by the position of the last dot; totality from C21 |
| C66 | `Readme.v`: colour parser, first README example | iff laws of value trees (C22/C23), runs cut off the remaining text, numerals of C53; errors by totality and determinism |
| C67 | `Png1.v`: the loop of examples/png.rs with the printed lines as output; `report`, `partly` say what is to be printed | per-chunk lemmas for whole and cut chunks, induction over the chunks, classification of all byte strings; agreement with C56 via both soundness theorems |
| C68 | Decls.v (d_uses on skip_before(whitespace)), SkipPieces.v, SkipText.v | trees under a skipping policy turned into relations between remaining texts; iff with the inductive grammar Uses; layouts by induction; the two surprises stated as *_refuted for all letters and blanks |
| C69 | Decls.v (f_fields on skip_before(whitespace)), SkipText.v | iff with the grammar Fields built from ordered choice of types and of visibility; written layouts read back; pub-prefix and one-letter types stated as *_refuted for all names |
| C70 | `Con` of ConSpec.v (mutually inductive, one rule per behaviour, threading the handler's state; positions on skipping contexts up to `same`) | soundness by fuel induction on the model (ConSound.v), completeness by induction on derivations (ConComplete.v), determinism from both, termination by levels and remaining text with a checkable criterion (ConTerm.v) |
| C71 | Blame.v: `Reports` (own errors of each parser), `Passes` (parts whose errors are handed on), `Blame` their closure | Error-set rules for the state-and-result monad and induction on fuel over both interpreters; the in-text version is read off `Peg` and `Con` by induction on derivations |
| C72 | ErrText.v: `message`, the decimal printer is the standard library's | Case analysis; injectivity of decimal printing from its inverse |
| C73 | `Twin` (Utf8Sim.v) relates the two parsers; the model runs on both kinds of contexts | lock-step simulation (Rel.v) between the run on the text and the run on its bytes; the leaves by induction over the text; the cursor of `longest` through the soundness theorem (Sound.v); handlers that agree on pieces of the text |
| C74 | `typed`, `inh` (Types.v) give the erased values their Rust types back; one rule per `impl Ctor` | induction on the fuel of the construction (values) and on the specification `Con` (panics); mappers one by one (PropMaps.v); the JSON grammar as a typed instance |
| C75 | `o_env` (JsonOwned.v) is the parser of bench/json.rs term by term; `Spell` (Json.v) of `in_utf8 v` is the specification | the reference semantics of building (C70) with the leaf lemmas of the JSON grammar (JsonLaws.v), completeness by induction on the spelling, soundness by induction on the matched length, totality from the termination criterion, no panic from `calm` |
| C76 | `br_env` and `x_env` (DocRec.v) are the two parsers of src/regex/rec.rs:17-43 and 116-165; `Nested`, and `written` with `proper` are the notations | the reference semantics of building (C70): soundness by induction on the matched length, completeness by induction on the notation, failure from soundness and totality, totality from the termination criterion, no panic from `calm` |
| C77 | executions as calls with the stores their loads read from (WeakPrefix.v: `Execution`), no global order of accesses; `weak_match` is the body of `is_match` as a function of what is loaded | induction along the reads-from order (chains of decrements), uniqueness of the last store for ordered calls, and a simulation of every interleaving of PrefixUnit.v by an execution; the stale flag is refuted by an execution |
| C78 | the standard searches as recursive functions on lists of items (Search.v: `position`, `split_on`, `find_text`, `match_indices`) against `find`/`find_all` of the model | a left-to-right scan whose hits depend only on the text in front of it, shown to be the scan by items of C25; then list induction for filter, split and match_indices |
| C79 | the textbook first/continuation sets of a parser and the LL(1) condition on them (Ll1.v: `info_of`, `ll1`, `one_ahead`), against the position-free language `Lang` of C46 | induction on the derivation of the word, with totality (C20) and soundness (C46) to show that the alternatives and iterations not wanted fail |
| C80 | threads as a transition system with a lock word and a poison flag per mutex (MutexPar.v: `step`), the calls inside being those of the model; specification `OneByOne`: the same calls in sequence | an invariant on who is inside, a simulation by the sequential specification, a measure for termination |
| C81 | lists of tokens of a parser and their layouts, without positions or priorities (Tokens.v: `Toks`, `Spread`); the condition `crisp` on first items of tokens (TokensLl1.v) | soundness by induction on the specification with a skipper; exactness by induction on the derivation of the token list, splitting the layout so that blanks end the left part, with totality (C20) for the alternatives not wanted |
| C82 | agreement on all positions of all texts (PropRespell.v: `MatchAlike`, `BuildAlike`), parts exchanged by `Rewritten` (Refactor.v) in the parser and in the recursive parsers; the grammar of the benchmark (JsonZero.v) | congruence of the two specifications `Peg` and `Con` under exchange, by induction on the rewriting and on derivations (Respell.v, RespellCon.v), with soundness and completeness (C05, C70); the laws by cases on derivations; the benchmark by two exchanges from the example; the same congruence for matching under skip policies (PropRespellPol.v) |
| C83 | values of words (Meaning.v: `Mean`), the conditions `ll1` (Ll1.v) and `fed` (Meaning.v); a calculator and, independently of it, the number a text stands for (PropMean.v: `Sum`) | what is built is the value of what was consumed, by induction on derivations of `Con` (C70); the value of every word is built, by induction on `Mean` with the first and follow sets of C79 and the termination of C70; the calculator by induction on the text length (MeanLaws.v, PropMean.v) |
| C84 | values of token lists (TokMean.v: `TMean`), layouts (Tokens.v: `Spread`), the conditions `ll1` (Ll1.v), `crisp` (Tokens.v) and `tfed` (TokMean.v); independently of the model the number a token list stands for (PropTokMean.v: `TSum`) | soundness by induction on derivations of `Con` (C70) under the skipping policy; completeness by induction on `TMean` with the first and follow sets of C79 and the layout lemmas of C81; the calculator by induction on the number of tokens (TokMeanLaws.v, PropTokMean.v) |
| C85 | threads as a transition system whose calls lock and unlock in any of the ways their structure allows (MutexNest.v: `Locking`, `step`) | the invariant that the mutexes a thread holds form a chain descending in the order and that what it has to go is bracketed accordingly; progress by induction on the rank of the mutex waited for; a lexicographic measure for termination; that `Locking` leaves no lock out, by running the interpreters with a mutex already held (PropNest.v) |
| C86 | a value-and-leaves semantics of words (Told.v: `Told`, `quiet`, `tidy`) beside the one of Meaning.v | failing attempts leave the handler's state alone if nothing of the parser can begin at the cursor (induction over `Con`), then induction over `Told` gives the run and its state (ToldLaws.v); uniqueness from determinism with a logging handler (PropTold.v) |
| C87 | the rules of Spec.v with a counter (Work.v: `Work`), erased and supplied by two inductions | three bounds at once by induction over `Work` (WorkLaws.v): nothing of the parser at the cursor, then constant work; a match not to be continued, then the rate times its length; any run, then the rate times the rest; the constants of recursive handles by recursion on their rank; the polynomial bound by induction over `Work`, an unbounded loop repeating no match that leaves the cursor where it is (WorkPoly.v); the lower bounds by inversion (PropWork.v); that the steps cover every chain of calls by induction over `Work` (WorkCalls.v) |
| C88 | the rules of Spec.v with the height of the stack (Deep.v: `Deep`), erased and supplied by two inductions | without handles by induction over `Deep`; with them, induction over `Deep` with the height of the parser plus, for each handle that can still be entered, that of the highest body: handles are entered by falling rank, and anew for each item (DeepLaws.v); the lower bound by inversion (PropDeep.v); that the height is exact: Calls.v lists the calls each call makes (`Calls`) and chains of them (`Stack`), and the highest chain is `Deep`'s height by induction over `Deep`, with the determinism of Spec.v |
| C89 | the rules of Spec.v with the number of items looked at (Look.v: `Look`); how far ahead a parser looks (Reach.v: `Reach`) | erased and supplied by two inductions, transported along texts that agree by a third (LookLaws.v); the window by induction over `Reach` (Reach.v); one item of lookahead from C46 and C79 (PropLook.v); two places of two texts by the simulation of C52 (Shift.v) |
| C90 | the rules of ConSpec.v with the height of the stack (ConDeep.v: `ConD`) and the number of calls (ConWork.v: `ConW`) | erased and supplied by two inductions each; bounds by induction over the counted runs, with the checks of ConTerm.v for recursion and loops (ConDeepLaws.v, ConWorkLaws.v); the calls each call makes and the stacks they form (ConCalls.v: `BCalls`, `BStack`), whose highest is the height; a grammar of brackets and a patient handler for the lower bounds (PropConCost.v) |
| C91 | the rules of ConSpec.v with the number of items looked at (ConLook.v: `ConL`), `sees_match` for handlers | erased and supplied by two inductions, transported along texts that agree by a third (ConLook.v, over Look.v and LookLaws.v); the window by induction over `Reach` (ConReach.v), anywhere in a text with the simulation of Shift.v; joined to C70 (PropConLook.v) |
| C92 | questions to units over numbered mutexes as interleaved steps with lock words and poison flags (SharedUnit.v); the specification is one question without threads (`Says`, `Upto`, `mlen`) | an invariant over all reachable worlds: each question under way is a run of the code up to the mutexes it has passed; questions that ended agree with the specification (PropShared.v) |

Partial properties are those that the code violates in a corner: the full claim is then refuted by a
`_refuted` theorem and the strongest true version is proved.

## Trusted base

* The Coq 8.16.1 kernel and its standard library.
* `Print Assumptions` of every theorem in `MANIFEST.json` prints "Closed under the global context":
  no theorem depends on an axiom.
* Loading the standard library brings the seven constants `Coq.ssr.ssrunder.Under_rel.*` (module
  parameters of the standard library's `ssrunder`) into the environment; no theorem uses them.
* No axioms, parameters, functors, module types, plugins, or disabled kernel checks in this
  development.
* The transcription from Rust to Gallina, done by hand as described above.
