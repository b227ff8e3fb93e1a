# Formal model of cucumber-rs/cucumber-expressions in Rocq (Coq 8.16.1)

Source: `/repo` (read as text only). Model and proofs: `/verif/rocq/theories`, logical name `Verif`.

## Layers of the model

| file | models |
|------|--------|
| `Base.v` | `char` (Unicode scalar value as `N`), `str` (list of chars), UTF-8 byte lengths, byte slicing that panics off a boundary |
| `Span.v` | `LocatedSpan<&str>` (offset in bytes, line, fragment) and the `nom::Input` operations on it |
| `Nom.v` | the nom 8 combinators the crate calls: `tag`, `one_of`, `take_while(1)`, `verify`, `map`, `alt`, `many0`, `many1`, `separated_list1`, `peek` |
| `Ast.v` | `src/ast.rs` |
| `Combinator.v` | `src/combinator.rs` (`map_err`, `escaped0`) |
| `Escaped.v` | nom's `escaped` (used only by the tests of `src/combinator.rs`, and by its documentation) |
| `Parse.v` | `src/parse.rs` and `TryFrom<&str>` of `src/ast.rs` |
| `Iter.v` | the iterators of `src/expand/mod.rs` (`EscapeForRegex`, `SkipLast`, `OwnedChars`) as state machines |
| `Expand.v` | the `IntoRegexCharIter` impls of `src/expand/mod.rs` and `Expression::regex` |
| `Regex.v` | the part of the `regex`/`regex-syntax` crates the result relies on: concrete syntax (a parser) and meaning (a match relation with captures) |
| `Nest.v` | the nesting limit of `regex-syntax` (`NestLimiter`), and `Expression::regex`, `regex_with_parameters` under it |
| `Limit.v` | the size limit of `Regex::new` |
| `Debug.v` | the derived `Debug`s |
| `Lines.v` | spans with the `u32` line counter, with and without overflow checks |
| `Hir.v` | the part of `regex-syntax`'s `Hir` that custom parameters go through: translation, printing; and `regex_hir` of `src/expand/parameters.rs` |
| `Match.v` | a search with a regex: `Regex::captures`, `Regex::is_match`, leftmost-first |
| `Compiled.v` | the same search through the simplified regex, as the `regex` crate does it |
| `Automaton.v` | the same search by an automaton, as `regex-automata` compiles it and its bounded backtracker runs it |
| `Captures.v` | reading a match: `Captures::name`, `Captures::get` |
| `Steps.v` | the parsers of `Parse.v` once more, counting steps |
| `Generic.v` | the parsers of `Parse.v` once more, generic in the input as in the crate; `&str` as input |
| `Lazy.v` | the expansion once more, as the nested lazy iterators the code builds (`Chain`, `FlatMap`, `Map`, `Zip`, `Once`, `Either`, `Peekable`) with their states |
| `Asked.v` | the outermost of those iterators with a provider whose answers may change: what was cloned and asked so far |
| `Messages.v` | `Display` of `parse::Error`, `expand::Error`, `ParameterError` |
| `Source.v` | `std::error::Error` of the errors: the derived `source`, and for which inputs the implementation exists |
| `Params.v` | the rest of `src/expand/parameters.rs` (providers, `WithCustom`) and `Expression::regex_with_parameters` |

Specifications (`Spec*.v`) are small and do not use the model's helpers. Proofs live in other
files. `Prop*.v` hold only the property theorems, each closed by `exact`, with `Print Assumptions`.
`Tests*.v` replay the repository's own unit tests on the model (tests of fidelity, not proofs).

## Conventions

* Panics, exhausted fuel and `Err::Incomplete` are explicit outcomes, so "never panics / always
  terminates" is a statement, not an artefact of totality.
* `&mut usize` is state passing; the new value is returned on error paths too.
* `usize` overflow of the indexer is modelled (debug semantics: panic).
* nom's loops run on fuel that is never exhausted (proved); the mutual recursion
  `parameter`/`optional` runs on fuel that stands for call depth.

## Plan per property

See `properties.jsonl` for the statements.

* C01, C02 totality: refine the byte/span/fuel model to a char-level description; panics and fuel
  exhaustion are excluded by the refinement.
* C03, C04, C05, C06: one theorem: `parse (o,l,s) = Ok e` iff `e` is the location-decorated form of
  a well-formed AST whose source text is `s`. The grammar is an inductive definition over strings.
* C07 inclusion of the literal README grammar; C08 is expected to be false (`\}` in text, `(o)m(o)/x`):
  prove `_refuted` with witnesses, and say exactly which accepted strings the README derives (`SpecReadme.v`,
  `ProofReadme.v`: the two grammars differ in the escapes and in inner branches such as `(o)m(o)`).
* C09, C10 ids/indexer: from the same characterisation, plus the state-passing of `parameter`.
* C11, C12 errors: char-level description of every error path.
* C13, C14: the faithful model violates them (`a\` gives `EscapedNonReservedCharacter("a\")`): prove
  `_refuted` and the exact condition under which they hold.
* C15-C18: char-level description, stated as equivalences over strings.
* C19, C20: from the characterisation (C05) and from a simulation under shifting.
* C21-C24: state-machine iterators, proved for every finite source iterator.
* C25-C29, C38-C42: regex parser as a fold over chars with an explicit stack, so expansions compose;
  match relation over (before, matched, after) so anchoring is a theorem; Unicode tables for `\d`, `\s`, `\w`
  are arbitrary predicates (theorem parameters).
* C30-C33: expansion as lists of results with first error winning.
* C34-C37: `Hir` model; C36 and C37 are expected to be false: `_refuted` plus the true part.
* C43: fuel of the mutual recursion is depth; upper bound and a family reaching it.
* C44: length induction.

* C26 with custom parameters: true for matchers that are valid regexes (`C26_custom_partial`), false
  for invalid ones without `(`, which are pasted unchecked (`C26_custom_refuted`).
* C32: the outcome and meaning for all providers whose used matchers are valid and `tame`
  (no degenerate repetition or class that `Hir`'s constructors drop together with its groups). C32_texts: for the others the
  matched texts are right all the same; the normal form of `Hir`s and what remains of the groups is followed through the translation.
* C35: the printer of `Hir` is a theorem parameter with the property "printing keeps meaning and
  groups" (`C35_renamed_partial`); the printer of `regex-syntax` as remembered has it on the Hirs
  described by `no_nested` (`C35_printer`, `C35_display_partial`) and not on others (`C35_display_refuted`).
* C45: messages are texts; that they determine the error is decided by computing that no message ends in another.
* C46: a measure (unescaped characters that may need escaping) decreases with every step; it needs where
  every error points to (C12). False for a trailing backslash after text (same cause as C13).
* C47: strings in quotes are prefix-free; for the rest the first occurrence of the delimiter decides.
* C48: the search enumerates the matches in order of preference; it is sound and complete for the match relation.
* C49: the list of pieces tried for an element is computed for each kind of element and is sorted by preference;
  the first one from which the rest can be matched is taken.
* C50: the parsers again with a step counter (`Steps.v`), proved to compute the same. Successful parsers pay per
  consumed character, inapplicable ones a constant, failures abort; only `alternation` may scan and be dropped;
  it then stops at the end of the word, whose rest is what the following elements are made of (`ProofRescan.v`, for rejected inputs `ProofRescan3.v`, `ProofRescan4.v`).
  Texts never follow each other, so a word has at most two elements per opening parenthesis and one more: the time is linear if these are few (`ProofParens.v`).
* C51: C48's argument with the meaning of C32; values are cut per parameter (`readings`).
* C52: by induction over the parameters; a name has one pair of numbers because decimal notation is unique.
* C53: every parser commutes with a map of inputs that commutes with the operations of `nom::Input`; forgetting the line is such a map.
* C54: moving a span is another.
* C55: one lemma per adaptor (what it iterates, given what its parts iterate), then one per element. C56: by induction over the chars left.
* C57: an encoder after RFC 3629; lengths, slices and newlines of the model are shown to be those of the bytes, then C04 and C12 are restated on bytes.
* C58: an invariant says what has been read in each state; states are told apart by computing. C59: every live state has a
  way out of at most three characters; errors beyond repair lead to the dead state by C12_errors_exact.
* C60: replacement commutes with the grammar and the error specification of C12, which mention only reserved characters.
* C61: the regex of an expression is parsed back (C27's parse) and the parts are read off it by a left inverse; conversely its text is a function of the parts. With custom parameters the items of the expansion, locations forgotten, are a function of the parts (one direction only: a matcher may print as anything).
* C62: by the character-level parsers (`CharLevel*.v`), which are proved equal to the model and to the specification.
* C63: induction on the fuel of the loop, with the text taken so far and `consumed_nothing` in the invariant; the specification is proved deterministic.
* C64: the parts of an expression are spelled with the necessary escapes and built up to a well-formed AST with that source (C05 then parses it); lengths are compared part by part.
* C65: induction over `written` (C61); every piece closes what it opens.
* C66: C03's description of the errors is run through C58's automaton: dead one character after the error's text at the latest, and alive before it unless a branch had optionals only.
* C67: the ASTs are appended, with the texts (C67_words: the words) that meet joined, and C05 applied; meaning by C25. The grammar (C06) gives acceptance.
* C68: from C25 and the shape of the AST (C05): a piece for each node, of any length for a parameter; the finite list is computed from the AST. With custom matchers from C32, whose pieces may look around: a piece that fits anywhere is needed for existence.
* C69: the outcome of the regex parser depends only on its mode, the height of its stack and whether a concatenation is empty, so the matcher is read the same way alone and inside the expression; text without a bare closing bracket cannot leave a class. Then the first parenthesis that closes the group is found by induction.
* C70: every adaptor gets a saved amount so that each call costs at most a constant beyond what it uses up (amortised analysis); FlatMap saves what its items will need, OwnedChars the triangle number left. The same argument from below gives the necessary part. Nodes of a parsed tree are at most three times the input, and the text at most fifteen times.
* C71: every state the parser reaches has read: frames, a level, and a pending item, each described by the grammar (invariant by induction on the text); conversely each derivation is run, by mutual induction. The grammar is in `SpecSyntax.v` and uses nothing of the parser.
* C72: a scanner that knows escapes and one pair of characters (`SpecMarks.v`) is run over the source text of a well-formed AST; contents never hold the opening character unescaped. C67 (parameters, optionals, groups) follows, as the scanner does not see where two expressions meet.
* C73: from C67: cutting on both sides of the node, and what may stand next to each other depends on the kinds of nodes only. The grammar (C06) gives the second part.
* C74: the lemmas behind C25-C35 do not need the tree to be parsed; what is new is when the names of groups collide.
* C75: from C05 (names are well-formed), C72 (braces) and C32 (only the names in use matter).
* C76: the kinds in the specifications of C62, and an input for each kind. Finding: the list of `parameter` lacks `EscapedEndOfLine`.
* C77: a model of nom's `escaped`, its exact specification, and the comparison with C63's for `escaped0`.
* C78: the depth of a regex's syntax tree (`Nest.v`), equal to that by the grammar of C71; a simulation of the tree with groups by the regex parser, depths of all pieces of an expansion.
* C79: the derived equalities (`Equal.v`) by structural induction; with C03 for parsed expressions.
* C80: an equivalence of regexes that keeps the order of the matches (of the matches with any given property the first is the same), kept by every simplification of `Hir.v` except lifting an ambiguous prefix; for expressions such a prefix contains an optional, and the regex with the prefix lifted takes its readings in the order of C80_order.
* C81: a normal form of `hir` that every constructor of `Hir.v` yields and leaves alone; renamed groups keep it because indices are distinct, so nothing with a group is common to two alternatives; printing and reading a normal form by induction on it.
* C82: the place of a regex only shifts the indices of its groups, and names do not matter to a search, so by C81 a custom parameter is translated to its matcher as translated alone; then the readings are compared element by element as in C80, with what stands before and after.
* C83: an invariant of the regex parser (all chars in its state were read) and of the translation (the bounds of ranges are scalar values; negation steps over the surrogates), then the text piece by piece; captures by induction on the meaning of the regex.
* C84: the text of each built-in parameter is compared with what the expansion makes of its matcher; for string by C81 the Hir is the same but for names, and an equivalence that keeps the order of matches (C80) is carried through the expression. The general part is from C82.
* C85: C67 is proved again for meanings of parameters that may depend on the surrounding text, with the type of a parameter given by its name; C32 carries it to regexes. That matchers without assertions ignore the surroundings is an induction on matches.
* C86: the code of a regex, entered at its first state, leads the search through the list of matches of Match.v, in order, if each pair of state and place is explored at most once (a pair explored in vain is explored in vain again: induction over the compiler, with an invariant on the slots); turns are bounded by a potential that counts unvisited pairs and the stack. For any regex, an induction over paths shows the answer to be a leftmost match; an invariant that annotates the stack with where each pending run has been shows it to be that of the first run that comes nowhere twice (every run from a state already visited goes through a state of the pending run). Sizes: a weight that no simplification of a Hir makes larger, bounded by the expression's length as in C44. Custom parameters: printing a matcher again and renaming its groups keeps loops from going around nothing, so the order of C82 carries over.
* C87: the enums are data, the rules of `derive_more` functions on them; cases. Finding: `NotFound` lacks `#[error(not(source))]`, so `expand::Error<Spanned>` is no `std::error::Error`.
* C88: `Regex::new` of `Limit.v` in the pipeline of C78; upper bound from C86_states, lower bound by computing the automaton of a literal.
* C89: derived `Debug`s as trees of calls to the formatter; both forms of such trees are read back by induction, each field up to the char that ends it, `{:#?}` after taking the padding off. The declarations of `src/ast.rs` are data (`SpecAstDeclared.v`) whose values are compared with what is printed, both ways; that a parsed tree shows its source (`SpecShown.v`) follows from C03 and C05.
* C90: the parsers generic in the input on spans with a `u32` line: the remainder by 2^32 commutes with the operations; on spans that fit both kinds of counter do the same (a type of such spans, viewed twice); operations that may panic more give parsers that may panic more and do nothing else.
* C91: the iterators of C55 with the list of calls made so far; induction on the elements left, with the invariant that the history is that of the elements taken.
* C92: by induction on the number of calls, with the states of `SkipLast` computed in full; for `EscapeForRegex` the invariant is that what was yielded and what is pending are the quoted chars of the whole escapes read.

## Trusted base

* Coq 8.16.1's kernel (with `vm_compute`, used in examples, tests and witnesses).
* Axioms: none. `Print Assumptions` beneath each theorem of `Prop*.v` answers "Closed under the
  global context", for every one of them. No axiom of the standard library is used either. (A check of
  all loaded libraries, `coqchk -o`, also lists the seven constants of the opaque signature
  `Coq.ssr.ssrunder.Under_rel`, which `Lia` loads; no theorem here depends on them.)
* The model is a hand translation. Nothing links it to the Rust code but the line references, and the
  repository's own unit tests and doc tests, which `TestsParse.v`, `TestsExpand.v`, `TestsMatch.v`, `TestsParams.v`
  replay by computation. The code was not run.

### Modelled from memory, no source available

* `nom` 8 combinators and `nom_locate::LocatedSpan` (`Nom.v`, `Span.v`).
* `regex` / `regex-syntax`: `Regex.v` and `Hir.v`. (C71 shows that the parser in `Regex.v`, a state machine, accepts
  exactly a grammar, so only the grammar in `SpecSyntax.v` has to be believed.) Syntax outside the modelled part ends in an explicit
  `Unsupported`; theorems either exclude it or say that it is the outcome. The meaning is the relation
  "this text is matched with these captures", so theorems about captures hold for every match an engine
  may prefer, except C48, C49, C51 and C52, which are about the documented leftmost-first search (`Match.v`; how it
  treats loops around something that matches the empty string is simplified, see there; C48_loops: no regex of an
  expression over built-in parameters has one; custom matchers, C51 and C52, may). These search the regex as it is written; C80 is about
  searching its simplification.
* `regex-automata`: the compiler and the bounded backtracker (`Automaton.v`, C86), over chars instead of bytes; the crate may run
  another engine, documented to give the same answer.
* How the standard library prints in `Debug` (`Debug.v`, C89).
* `derive_more` 2.0: `Display` (`Messages.v`) and `Error` (`Source.v`, C87), from its documentation.
* `\d`, `\s`, `\w` are arbitrary tables (theorem parameters), never assumed to be ASCII.

### Not modelled

* How much memory an automaton takes (a parameter of C88, which is about the size limit of `Regex::new`, 10 MB). That limit is in `Limit.v` (C88), the nesting limit (250) in `Nest.v` (C78);
  the other theorems are about functions without them, which C78 and C88 compare with those that have them.
* Real time. `Steps.v` counts calls, loop rounds and characters looked at or skipped (C50), not allocation.
* Stack size. Call depth is counted (C43), its overflow is not an outcome.
* `Clone`, `AsRef`, `Deref` derives; the messages of the regex crates' own errors (`Display` and `Debug` of the crate's errors are modelled).
* Type-level machinery: `PhantomData`-like parameters, trait bounds, feature flags.
* The fuzz harness (what it calls is modelled, see C02 and C53) and the README's prose (its grammar is in `SpecGrammar.v`).

## Testing the theorems

`tools/mutate.py` edits the model in a scratch copy, recompiles and lists the property theorems that are
no longer closed. A broken proof is admitted in the scratch copy, so a theorem counts as failed when its
proof depends on a broken lemma; this does not show that its statement became false.
`seeded/mutants.json` holds the edits, `seeded/LOG.jsonl` the outcome of each.
`tools/survey.py` makes small edits by itself (a constructor, operator, number, character or string of a
definition exchanged for a neighbour) and looks whether any lemma breaks. The few edits that broke nothing
either changed nothing that can be observed or led to C71 and to `C45_stages`; these are in the log as S...
A later survey of the newer files led to `C86_some`, `C89_declared`, `C89_layout`, `C89_ast` and `C89_shown`; its survivors are in the
log as M321 to M333, one for each kind.
