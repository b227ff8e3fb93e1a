{
 "claims": [
  {
   "property": "C01",
   "status": "proved",
   "theorems": [
    "C01_parse_always_returns"
   ],
   "note": "Addressable input (fewer than 2^64 chars) is all that is assumed; it excludes overflow of the parameter indexer. The line counter of a location is unbounded here; C90 has it as a u32."
  },
  {
   "property": "C02",
   "status": "proved",
   "theorems": [
    "C02_parameter",
    "C02_optional",
    "C02_alternative",
    "C02_alternation",
    "C02_single_expression",
    "C02_expression"
   ],
   "note": ""
  },
  {
   "property": "C03",
   "status": "proved",
   "theorems": [
    "C03_lossless"
   ],
   "note": ""
  },
  {
   "property": "C04",
   "status": "proved",
   "theorems": [
    "C04_spans_exact"
   ],
   "note": ""
  },
  {
   "property": "C05",
   "status": "proved",
   "theorems": [
    "C05_round_trip",
    "C05_characterisation",
    "C05_unambiguous"
   ],
   "note": ""
  },
  {
   "property": "C06",
   "status": "proved",
   "theorems": [
    "C06_accepted_iff_grammar"
   ],
   "note": "The grammar as implemented (module Corrected of SpecGrammar.v) is written with EBNF operators on languages."
  },
  {
   "property": "C07",
   "status": "proved",
   "theorems": [
    "C07_readme_accepted"
   ],
   "note": ""
  },
  {
   "property": "C08",
   "status": "partial",
   "theorems": [
    "C08_refuted",
    "C08_exact_partial"
   ],
   "note": "False of the code: \\} is accepted although the README's grammar does not derive it (C08_refuted). C08_exact_partial says exactly which accepted strings the README derives: those with only the listed escapes and without an inner branch that is one character between optionals. C06 gives the exact language."
  },
  {
   "property": "C09",
   "status": "proved",
   "theorems": [
    "C09_ids_in_order"
   ],
   "note": ""
  },
  {
   "property": "C10",
   "status": "proved",
   "theorems": [
    "C10_parameter",
    "C10_single_expression"
   ],
   "note": ""
  },
  {
   "property": "C11",
   "status": "proved",
   "theorems": [
    "C11_errors_specific"
   ],
   "note": ""
  },
  {
   "property": "C12",
   "status": "proved",
   "theorems": [
    "C12_error_spans",
    "C12_errors_exact"
   ],
   "note": "Also the exact characterisation of all errors (C12_errors_exact)."
  },
  {
   "property": "C13",
   "status": "partial",
   "theorems": [
    "C13_refuted",
    "C13_end_of_line_partial"
   ],
   "note": "False of the code: after some text a trailing backslash is reported as EscapedNonReservedCharacter. C13_refuted gives the witness, C13_end_of_line_partial the exact condition."
  },
  {
   "property": "C14",
   "status": "partial",
   "theorems": [
    "C14_refuted",
    "C14_non_reserved_partial"
   ],
   "note": "False of the code for a trailing backslash. C14_refuted gives the witness, C14_non_reserved_partial says exactly when and where the error is reported."
  },
  {
   "property": "C15",
   "status": "proved",
   "theorems": [
    "C15_unfinished_parameter",
    "C15_unfinished_optional"
   ],
   "note": ""
  },
  {
   "property": "C16",
   "status": "proved",
   "theorems": [
    "C16_nested_parameter",
    "C16_optional_in_parameter",
    "C16_unescaped_in_parameter",
    "C16_parameter_no_other_error",
    "C16_empty_optional",
    "C16_nested_optional",
    "C16_parameter_in_optional",
    "C16_alternation_in_optional",
    "C16_unescaped_in_optional",
    "C16_optional_no_other_error"
   ],
   "note": ""
  },
  {
   "property": "C17",
   "status": "proved",
   "theorems": [
    "C17_empty_alternation",
    "C17_only_optional"
   ],
   "note": ""
  },
  {
   "property": "C18",
   "status": "proved",
   "theorems": [
    "C18_parameter",
    "C18_optional",
    "C18_alternation",
    "C18_single_expression"
   ],
   "note": ""
  },
  {
   "property": "C19",
   "status": "proved",
   "theorems": [
    "C19_compose"
   ],
   "note": ""
  },
  {
   "property": "C20",
   "status": "proved",
   "theorems": [
    "C20_parameter",
    "C20_optional",
    "C20_alternative",
    "C20_alternation",
    "C20_single_expression",
    "C20_expression"
   ],
   "note": ""
  },
  {
   "property": "C21",
   "status": "proved",
   "theorems": [
    "C21_literal"
   ],
   "note": "Non-empty literals of addressable size."
  },
  {
   "property": "C22",
   "status": "proved",
   "theorems": [
    "C22_matches_literal",
    "C22_escape",
    "C22_escape_stays_finished",
    "C22_twice",
    "C22_yields"
   ],
   "note": ""
  },
  {
   "property": "C23",
   "status": "proved",
   "theorems": [
    "C23_skip_last",
    "C23_stays_finished"
   ],
   "note": ""
  },
  {
   "property": "C24",
   "status": "proved",
   "theorems": [
    "C24_owned_chars"
   ],
   "note": ""
  },
  {
   "property": "C25",
   "status": "proved",
   "theorems": [
    "C25_matches_meaning"
   ],
   "note": "The regex crate is modelled by Regex.v (syntax and match relation); \\d, \\s, \\w are arbitrary tables."
  },
  {
   "property": "C26",
   "status": "partial",
   "theorems": [
    "C26_anchored_partial",
    "C26_custom_partial",
    "C26_custom_refuted"
   ],
   "note": "Proved for built-in parameters (C26_anchored_partial) and for custom matchers that are valid regexes (C26_custom_partial). False for invalid matchers without an open parenthesis, which the code does not check: C26_custom_refuted."
  },
  {
   "property": "C27",
   "status": "proved",
   "theorems": [
    "C27_compiles",
    "C27_outcomes"
   ],
   "note": "About Regex::new without its limits on nesting and size; C78 and C88 are about these."
  },
  {
   "property": "C28",
   "status": "proved",
   "theorems": [
    "C28_groups"
   ],
   "note": ""
  },
  {
   "property": "C29",
   "status": "proved",
   "theorems": [
    "C29_captures"
   ],
   "note": "For every way the regex can match, hence also for the one the engine prefers."
  },
  {
   "property": "C30",
   "status": "proved",
   "theorems": [
    "C30_not_found",
    "C30_custom"
   ],
   "note": "Exact conditions, for Expression::regex and for regex_with_parameters (all providers)."
  },
  {
   "property": "C31",
   "status": "proved",
   "theorems": [
    "C31_built_ins"
   ],
   "note": "For providers that know none of the names used."
  },
  {
   "property": "C32",
   "status": "proved",
   "theorems": [
    "C32_texts",
    "C32_compiles",
    "C32_precedence",
    "C32_only_used"
   ],
   "note": "The meaning theorem: provider first, else the built-in type; the exact outcome (duplicate names of groups below repetitions are the only failure). What is captured: for valid matchers that are not degenerate (tame). Which texts are matched (C32_texts): for all valid matchers. Both assume a printer of Hirs that keeps the meaning. C32_only_used needs nothing. For a provider whose answers do not change; of any other see C91 (its example gives one name two matchers)."
  },
  {
   "property": "C33",
   "status": "proved",
   "theorems": [
    "C33_hash_map"
   ],
   "note": "For every iteration order of the map."
  },
  {
   "property": "C34",
   "status": "proved",
   "theorems": [
    "C34_plain"
   ],
   "note": "Without assumptions on regex-syntax's Hir or its printer."
  },
  {
   "property": "C35",
   "status": "partial",
   "theorems": [
    "C35_renamed_partial",
    "C35_printer",
    "C35_display_partial",
    "C35_display_refuted",
    "C35_refuted"
   ],
   "note": "False for groups below repetitions (C35_refuted) and, with the printer of regex-syntax as we remember it, for repetitions below repetitions (C35_display_refuted). Proved for matchers without groups below repetitions."
  },
  {
   "property": "C36",
   "status": "partial",
   "theorems": [
    "C36_detected_partial",
    "C36_refuted"
   ],
   "note": "False of the code: groups below repetitions are not detected (C36_refuted). C36_detected_partial says exactly which are."
  },
  {
   "property": "C37",
   "status": "partial",
   "theorems": [
    "C37_rejected_partial",
    "C37_refuted"
   ],
   "note": "False of the code: matchers without an open parenthesis are not checked (C37_refuted). Proved for those with one; C69 says exactly which others slip through."
  },
  {
   "property": "C38",
   "status": "proved",
   "theorems": [
    "C38_int"
   ],
   "note": ""
  },
  {
   "property": "C39",
   "status": "proved",
   "theorems": [
    "C39_float",
    "C39_f64"
   ],
   "note": "Also compared with the grammar of f64::from_str (C39_f64)."
  },
  {
   "property": "C40",
   "status": "proved",
   "theorems": [
    "C40_word"
   ],
   "note": ""
  },
  {
   "property": "C41",
   "status": "proved",
   "theorems": [
    "C41_string"
   ],
   "note": ""
  },
  {
   "property": "C42",
   "status": "proved",
   "theorems": [
    "C42_anonymous"
   ],
   "note": ""
  },
  {
   "property": "C43",
   "status": "proved",
   "theorems": [
    "C43_parameter_depth",
    "C43_optional_depth",
    "C43_parameter_bound",
    "C43_optional_bound",
    "C43_unbounded"
   ],
   "note": "Exact depth; upper bound by the number of opening brackets; a family of inputs needing any depth."
  },
  {
   "property": "C44",
   "status": "proved",
   "theorems": [
    "C44_size"
   ],
   "note": "Chars; ids are below 2^64, hence at most 20 digits."
  },
  {
   "property": "C45",
   "status": "partial",
   "theorems": [
    "C45_quotes_input",
    "C45_determines_error",
    "C45_names_constructs",
    "C45_names_remedy_partial",
    "C45_reserved_remedy",
    "C45_refuted",
    "C45_expansion",
    "C45_stages"
   ],
   "note": "C45_refuted: the message of EscapedEndOfLine does not name the remedy (a quoting slip in src/parse.rs:674). All other messages do."
  },
  {
   "property": "C46",
   "status": "partial",
   "theorems": [
    "C46_advice_partial",
    "C46_accepted_partial",
    "C46_refuted"
   ],
   "note": "False of the code for inputs that end in a backslash escaping nothing (C46_refuted); proved for all others."
  },
  {
   "property": "C47",
   "status": "proved",
   "theorems": [
    "C47_unique",
    "C47_spaced"
   ],
   "note": ""
  },
  {
   "property": "C48",
   "status": "proved",
   "theorems": [
    "C48_search",
    "C48_captures",
    "C48_unique",
    "C48_loops"
   ],
   "note": "The search of Match.v; C48_search for every regex. Built-in parameters otherwise."
  },
  {
   "property": "C49",
   "status": "proved",
   "theorems": [
    "C49_best",
    "C49_one"
   ],
   "note": "Assumes that + - . e E i N are not in the table of digits."
  },
  {
   "property": "C50",
   "status": "proved",
   "theorems": [
    "C50_same",
    "C50_same_parsers",
    "C50_parameter",
    "C50_optional",
    "C50_alternative",
    "C50_alternation",
    "C50_single_expression",
    "C50_quadratic",
    "C50_least",
    "C50_least_parsers",
    "C50_word",
    "C50_words",
    "C50_words_least",
    "C50_words_within",
    "C50_word_parts",
    "C50_rejected",
    "C50_parens",
    "C50_reached"
   ],
   "note": "Steps are counted by the instrumented parser of Steps.v, proved to compute the same results."
  },
  {
   "property": "C51",
   "status": "proved",
   "theorems": [
    "C51_custom",
    "C51_values",
    "C51_per_parameter",
    "C51_boundary"
   ],
   "note": "Matchers whose repeated groups may match something (tame), as in C32; a printer of Hirs that keeps the meaning."
  },
  {
   "property": "C52",
   "status": "proved",
   "theorems": [
    "C52_named",
    "C52_names",
    "C52_exists"
   ],
   "note": "Matchers without groups below repetitions (flat), as in C35."
  },
  {
   "property": "C53",
   "status": "proved",
   "theorems": [
    "C53_parsers",
    "C53_returns",
    "C53_expression",
    "C53_any_input",
    "C53_expansion"
   ],
   "note": "&str is a pointer and a text (Generic.v); the parsers are written once more over a record of input operations."
  },
  {
   "property": "C54",
   "status": "proved",
   "theorems": [
    "C54_moved"
   ],
   "note": "The line counter is unbounded in the model; C90 has it as a u32."
  },
  {
   "property": "C55",
   "status": "proved",
   "theorems": [
    "C55_lazy",
    "C55_lazy_custom",
    "C55_collect",
    "C55_calls"
   ],
   "note": "The adaptors of the standard library and of either are modelled from memory (Lazy.v)."
  },
  {
   "property": "C56",
   "status": "proved",
   "theorems": [
    "C56_same",
    "C56_owned_chars_quadratic"
   ],
   "note": "Counts calls of Chars::next."
  },
  {
   "property": "C57",
   "status": "proved",
   "theorems": [
    "C57_bytes",
    "C57_slices",
    "C57_spans",
    "C57_error_spans"
   ],
   "note": "UTF-8 after RFC 3629, independent of the byte operations of the model; the model's slices are shown to be slices of bytes that panic off char boundaries."
  },
  {
   "property": "C58",
   "status": "proved",
   "theorems": [
    "C58_automaton",
    "C58_sixteen_kinds",
    "C58_interchangeable"
   ],
   "note": "The automaton is in SpecPrefix.v; C58_sixteen_kinds does not mention it."
  },
  {
   "property": "C59",
   "status": "proved",
   "theorems": [
    "C59_three_characters",
    "C59_two_are_not_enough",
    "C59_decided",
    "C59_beyond_repair",
    "C59_unfinished_parameter"
   ],
   "note": "For the other five kinds of errors C59_others shows that the kind alone does not tell; C59_decided decides."
  },
  {
   "property": "C60",
   "status": "proved",
   "theorems": [
    "C60_accepted",
    "C60_rejected",
    "C60_same_outcome"
   ],
   "note": "The replacement need not be injective: all plain characters may become the same one."
  },
  {
   "property": "C61",
   "status": "proved",
   "theorems": [
    "C61_same_regex",
    "C61_written",
    "C61_written_once",
    "C61_custom"
   ],
   "note": "Shown for the printed regex and for the parsed one; expressions with different regexes may still match the same strings."
  },
  {
   "property": "C62",
   "status": "proved",
   "theorems": [
    "C62_parameter",
    "C62_optional",
    "C62_alternative",
    "C62_alternation",
    "C62_single_expression",
    "C62_expression"
   ],
   "note": "Equivalence of parser and relation, so any other program with these properties computes the same. The kinds of recoverable errors are those of nom, modelled from memory."
  },
  {
   "property": "C63",
   "status": "proved",
   "theorems": [
    "C63_exact",
    "C63_parsers",
    "C63_characters"
   ],
   "note": "Parsers are assumed not to look behind and to give errors as nom does (Error for `normal`, any for `escapable`). C63_parsers shows that the parsers used in the crate and in its tests meet this."
  },
  {
   "property": "C64",
   "status": "proved",
   "theorems": [
    "C64_shortest",
    "C64_spelling",
    "C64_regex"
   ],
   "note": ""
  },
  {
   "property": "C65",
   "status": "proved",
   "theorems": [
    "C65_nesting"
   ],
   "note": "Counts parentheses in the text of the regex. The limit itself is in C78."
  },
  {
   "property": "C66",
   "status": "partial",
   "theorems": [
    "C66_refuted",
    "C66_location_partial",
    "C66_hidden"
   ],
   "note": "False for what stands before: a branch of optionals only is reported after any other error of its alternation (C66_refuted, (a)/(b). C66_location_partial proves everything else, and that such a branch is the only exception."
  },
  {
   "property": "C67",
   "status": "partial",
   "theorems": [
    "C67_accepted",
    "C67_nodes",
    "C67_cut",
    "C67_refuted",
    "C67_meaning_partial",
    "C67_regex_partial",
    "C67_words",
    "C67_words_exist",
    "C67_parameters",
    "C67_optionals",
    "C67_compiles",
    "C67_groups"
   ],
   "note": "The claim that a ++ b stands for what a stands for followed by what b stands for is false where an alternation touches a text, optional or alternation of the other expression: they become one alternation (C67_refuted: x followed by y/z). C67_words says what it stands for in every case. Everything else is proved."
  },
  {
   "property": "C68",
   "status": "proved",
   "theorems": [
    "C68_something",
    "C68_nothing",
    "C68_finite",
    "C68_infinite",
    "C68_custom_nothing",
    "C68_custom_something",
    "C68_custom_infinite",
    "C68_custom_bounded"
   ],
   "note": "All parts proved; about the modelled regexes, as C25."
  },
  {
   "property": "C69",
   "status": "proved",
   "theorems": [
    "C69_accepted",
    "C69_exactly",
    "C69_two"
   ],
   "note": "All parts proved, for the modelled regex syntax (matchers whose parse leaves it are neither accepted nor rejected). C69_two is the last sentence."
  },
  {
   "property": "C70",
   "status": "proved",
   "theorems": [
    "C70_same",
    "C70_built_in",
    "C70_custom",
    "C70_least",
    "C70_linear",
    "C70_quadratic"
   ],
   "note": "All parts proved. Steps are those LazySteps.v counts; parsing and printing a custom matcher, and growing the String, are not counted. Parsing time is C50."
  },
  {
   "property": "C71",
   "status": "proved",
   "theorems": [
    "C71_syntax",
    "C71_regex",
    "C71_unambiguous",
    "C71_expansion"
   ],
   "note": "All parts proved. Concerns the modelled part of the regex crates' syntax (Regex.v says which); what is outside it is Unsupported and not derivable."
  },
  {
   "property": "C72",
   "status": "proved",
   "theorems": [
    "C72_parameters",
    "C72_optionals",
    "C72_branches"
   ],
   "note": "All parts proved."
  },
  {
   "property": "C73",
   "status": "proved",
   "theorems": [
    "C73_edit",
    "C73_rearranged"
   ],
   "note": "All parts proved."
  },
  {
   "property": "C74",
   "status": "proved",
   "theorems": [
    "C74_error",
    "C74_compiles",
    "C74_meaning",
    "C74_custom_error",
    "C74_custom_meaning"
   ],
   "note": "All parts proved. With a provider: for matchers that are tame (no group repeated zero times or around nothing) and a printer that keeps the meaning of a Hir."
  },
  {
   "property": "C75",
   "status": "proved",
   "theorems": [
    "C75_reachable",
    "C75_dead",
    "C75_live",
    "C75_used"
   ],
   "note": "All parts proved."
  },
  {
   "property": "C76",
   "status": "partial",
   "theorems": [
    "C76_optional",
    "C76_alternative",
    "C76_alternation",
    "C76_single_expression",
    "C76_expression",
    "C76_expression_parse",
    "C76_parameter_refuted",
    "C76_parameter_partial",
    "C76_slash_refuted"
   ],
   "note": "Proved for all parsers but parameter, whose list lacks EscapedEndOfLine (on an open brace and a backslash): refuted, and the exact set is proved. The documented condition for a recoverable error of alternation is refuted as well; C18 has the exact one."
  },
  {
   "property": "C77",
   "status": "proved",
   "theorems": [
    "C77_escaped",
    "C77_goes_on",
    "C77_errors",
    "C77_strict",
    "C77_characters"
   ],
   "note": "nom's escaped is modelled after its documentation; the outcomes the crate's tests state for it are replayed on the model."
  },
  {
   "property": "C78",
   "status": "proved",
   "theorems": [
    "C78_depth",
    "C78_accepted",
    "C78_limit",
    "C78_groups",
    "C78_length",
    "C78_built_in",
    "C78_least",
    "C78_custom",
    "C78_short",
    "C78_own_limit"
   ],
   "note": "The limiter is that of the external crate regex-syntax, modelled for the syntax the regex model supports."
  },
  {
   "property": "C79",
   "status": "proved",
   "theorems": [
    "C79_expression",
    "C79_error",
    "C79_spanned",
    "C79_spanned_error",
    "C79_lawful",
    "C79_lawful_error",
    "C79_parsed",
    "C79_parsed_texts"
   ],
   "note": "PartialEq of LocatedSpan is that of nom_locate; Vec's is the standard library's."
  },
  {
   "property": "C80",
   "status": "proved",
   "theorems": [
    "C80_matches",
    "C80_reading",
    "C80_unique",
    "C80_order",
    "C80_unshared",
    "C80_unshared_best",
    "C80_shared"
   ],
   "note": "The order is exact (C80_order); it is not that of the regex as written (C80_shared) unless no alternation has branches that all begin with the same optional (C80_unshared). The translation is a model of regex-syntax 0.8, whose source is not in /repo."
  },
  {
   "property": "C81",
   "status": "proved",
   "theorems": [
    "C81_names",
    "C81_read_again",
    "C81_lazy_count"
   ],
   "note": "C81_lazy_count shows that the condition on lazy exact counts is needed. Printer and translation are models of regex-syntax 0.8, whose source is not in /repo."
  },
  {
   "property": "C82",
   "status": "proved",
   "theorems": [
    "C82_order",
    "C82_tried",
    "C82_lazy_count"
   ],
   "note": "C82_lazy_count shows that the condition on lazy exact counts is needed. Search, printer and translation are models of the regex crates, whose source is not in /repo."
  },
  {
   "property": "C83",
   "status": "proved",
   "theorems": [
    "C83_regex",
    "C83_custom",
    "C83_captured"
   ],
   "note": "The printer and the translation of classes are models of regex-syntax, whose source is not in /repo."
  },
  {
   "property": "C84",
   "status": "proved",
   "theorems": [
    "C84_same",
    "C84_string",
    "C84_alike"
   ],
   "note": "Search, printer and translation are models of the regex crates, whose source is not in /repo."
  },
  {
   "property": "C85",
   "status": "proved",
   "theorems": [
    "C85_words",
    "C85_meaning",
    "C85_regex",
    "C85_looking"
   ],
   "note": "C85_looking shows why matchers that look around (assertions such as $) are excluded from C85_regex. Printer and matching are models of the regex crates, whose source is not in /repo."
  },
  {
   "property": "C86",
   "status": "proved",
   "theorems": [
    "C86_answers",
    "C86_same",
    "C86_still",
    "C86_still_whole",
    "C86_first",
    "C86_compiled",
    "C86_expression",
    "C86_expression_compiled",
    "C86_custom",
    "C86_custom_compiled",
    "C86_custom_order",
    "C86_some",
    "C86_states"
   ],
   "note": "C86_still is the witness that loops around nothing are a real exception. The compiler and the backtracker are models of regex-automata, whose source is not in /repo; a turn is a step of its loop, states read chars rather than bytes."
  },
  {
   "property": "C87",
   "status": "proved",
   "theorems": [
    "C87_stages",
    "C87_quoted",
    "C87_chain",
    "C87_lost",
    "C87_implemented",
    "C87_spanned"
   ],
   "note": "C87_lost and C87_spanned are findings: the crate derives Error for types for which, because #[error(not(source))] is missing at src/expand/mod.rs:157, it is not implemented. The rules of derive_more are modelled from its documentation."
  },
  {
   "property": "C88",
   "status": "proved",
   "theorems": [
    "C88_exact",
    "C88_exact_custom",
    "C88_fits",
    "C88_literal",
    "C88_too_long",
    "C88_every_limit"
   ],
   "note": "C88_every_limit: C27 is about Regex::new without its size limit and fails with it, for very long expressions. The memory of an automaton is a parameter."
  },
  {
   "property": "C89",
   "status": "proved",
   "theorems": [
    "C89_expression",
    "C89_error",
    "C89_parsed",
    "C89_expansion",
    "C89_input",
    "C89_line",
    "C89_line_error",
    "C89_layout",
    "C89_declared",
    "C89_all_declared",
    "C89_declared_once",
    "C89_variant",
    "C89_ast",
    "C89_shown"
   ],
   "note": "The way the standard library prints strings, numbers, tuples, structs and lists is modelled from its documentation. regex::Error prints itself in its own way and is left out; what Needed holds is left out, as in C79."
  },
  {
   "property": "C90",
   "status": "proved",
   "theorems": [
    "C90_few",
    "C90_unchecked",
    "C90_unchecked_parsers",
    "C90_checked",
    "C90_overflow"
   ],
   "note": "LocatedSpan's counter (newlines counted as u32, then added) is modelled from nom_locate 5.0, from memory. C90_overflow: C01 is false of a build with overflow checks on a text of 2^32 - 1 line breaks."
  },
  {
   "property": "C91",
   "status": "proved",
   "theorems": [
    "C91_outcome",
    "C91_questions",
    "C91_steady",
    "C91_whole",
    "C91_whole_steady"
   ],
   "note": "Iterators of the standard library around the provider (Repeat, Zip, FlatMap, Chain) modelled as in Lazy.v, with the history of calls. The provider's clones are made even for elements that are no parameters."
  },
  {
   "property": "C92",
   "status": "proved",
   "theorems": [
    "C92_skip_last",
    "C92_skip_last_endless",
    "C92_skip_last_ahead",
    "C92_escape",
    "C92_escape_endless"
   ],
   "note": ""
  }
 ]
}