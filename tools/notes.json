{
 "C01": "Addressable input (fewer than 2^64 chars) is all that is assumed; it excludes overflow of the parameter indexer. The line counter of a location is unbounded here; C90 has it as a u32.",
 "C12": "Also the exact characterisation of all errors (C12_errors_exact).",
 "C13": "False of the code: after some text a trailing backslash is reported as EscapedNonReservedCharacter. C13_refuted gives the witness, C13_end_of_line_partial the exact condition.",
 "C14": "False of the code for a trailing backslash. C14_refuted gives the witness, C14_non_reserved_partial says exactly when and where the error is reported.",
 "C08": "False of the code: \\} is accepted although the README's grammar does not derive it (C08_refuted). C08_exact_partial says exactly which accepted strings the README derives: those with only the listed escapes and without an inner branch that is one character between optionals. C06 gives the exact language.",
 "C06": "The grammar as implemented (module Corrected of SpecGrammar.v) is written with EBNF operators on languages.",
 "C43": "Exact depth; upper bound by the number of opening brackets; a family of inputs needing any depth.",
 "C21": "Non-empty literals of addressable size.",
 "C25": "The regex crate is modelled by Regex.v (syntax and match relation); \\d, \\s, \\w are arbitrary tables.",
 "C26": "Proved for built-in parameters (C26_anchored_partial) and for custom matchers that are valid regexes (C26_custom_partial). False for invalid matchers without an open parenthesis, which the code does not check: C26_custom_refuted.",
 "C27": "About Regex::new without its limits on nesting and size; C78 and C88 are about these.",
 "C29": "For every way the regex can match, hence also for the one the engine prefers.",
 "C30": "Exact conditions, for Expression::regex and for regex_with_parameters (all providers).",
 "C39": "Also compared with the grammar of f64::from_str (C39_f64).",
 "C44": "Chars; ids are below 2^64, hence at most 20 digits.",
 "C31": "For providers that know none of the names used.",
 "C32": "The meaning theorem: provider first, else the built-in type; the exact outcome (duplicate names of groups below repetitions are the only failure). What is captured: for valid matchers that are not degenerate (tame). Which texts are matched (C32_texts): for all valid matchers. Both assume a printer of Hirs that keeps the meaning. C32_only_used needs nothing. For a provider whose answers do not change; of any other see C91 (its example gives one name two matchers).",
 "C33": "For every iteration order of the map.",
 "C34": "Without assumptions on regex-syntax's Hir or its printer.",
 "C35": "False for groups below repetitions (C35_refuted) and, with the printer of regex-syntax as we remember it, for repetitions below repetitions (C35_display_refuted). Proved for matchers without groups below repetitions.",
 "C36": "False of the code: groups below repetitions are not detected (C36_refuted). C36_detected_partial says exactly which are.",
 "C37": "False of the code: matchers without an open parenthesis are not checked (C37_refuted). Proved for those with one; C69 says exactly which others slip through.",
 "C45": "C45_refuted: the message of EscapedEndOfLine does not name the remedy (a quoting slip in src/parse.rs:674). All other messages do.",
 "C46": "False of the code for inputs that end in a backslash escaping nothing (C46_refuted); proved for all others.",
 "C48": "The search of Match.v; C48_search for every regex. Built-in parameters otherwise.",
 "C49": "Assumes that + - . e E i N are not in the table of digits.",
 "C50": "Steps are counted by the instrumented parser of Steps.v, proved to compute the same results.",
 "C51": "Matchers whose repeated groups may match something (tame), as in C32; a printer of Hirs that keeps the meaning.",
 "C52": "Matchers without groups below repetitions (flat), as in C35.",
 "C53": "&str is a pointer and a text (Generic.v); the parsers are written once more over a record of input operations.",
 "C54": "The line counter is unbounded in the model; C90 has it as a u32.",
 "C55": "The adaptors of the standard library and of either are modelled from memory (Lazy.v).",
 "C56": "Counts calls of Chars::next.",
 "C57": "UTF-8 after RFC 3629, independent of the byte operations of the model; the model's slices are shown to be slices of bytes that panic off char boundaries.",
 "C58": "The automaton is in SpecPrefix.v; C58_sixteen_kinds does not mention it.",
 "C59": "For the other five kinds of errors C59_others shows that the kind alone does not tell; C59_decided decides.",
 "C60": "The replacement need not be injective: all plain characters may become the same one.",
 "C61": "Shown for the printed regex and for the parsed one; expressions with different regexes may still match the same strings.",
 "C62": "Equivalence of parser and relation, so any other program with these properties computes the same. The kinds of recoverable errors are those of nom, modelled from memory.",
 "C63": "Parsers are assumed not to look behind and to give errors as nom does (Error for `normal`, any for `escapable`). C63_parsers shows that the parsers used in the crate and in its tests meet this.",
 "C64": "",
 "C65": "Counts parentheses in the text of the regex. The limit itself is in C78.",
 "C66": "False for what stands before: a branch of optionals only is reported after any other error of its alternation (C66_refuted, (a)/(b). C66_location_partial proves everything else, and that such a branch is the only exception.",
 "C67": "The claim that a ++ b stands for what a stands for followed by what b stands for is false where an alternation touches a text, optional or alternation of the other expression: they become one alternation (C67_refuted: x followed by y/z). C67_words says what it stands for in every case. Everything else is proved.",
 "C68": "All parts proved; about the modelled regexes, as C25.",
 "C69": "All parts proved, for the modelled regex syntax (matchers whose parse leaves it are neither accepted nor rejected). C69_two is the last sentence.",
 "C70": "All parts proved. Steps are those LazySteps.v counts; parsing and printing a custom matcher, and growing the String, are not counted. Parsing time is C50.",
 "C71": "All parts proved. Concerns the modelled part of the regex crates' syntax (Regex.v says which); what is outside it is Unsupported and not derivable.",
 "C72": "All parts proved.",
 "C73": "All parts proved.",
 "C74": "All parts proved. With a provider: for matchers that are tame (no group repeated zero times or around nothing) and a printer that keeps the meaning of a Hir.",
 "C75": "All parts proved.",
 "C76": "Proved for all parsers but parameter, whose list lacks EscapedEndOfLine (on an open brace and a backslash): refuted, and the exact set is proved. The documented condition for a recoverable error of alternation is refuted as well; C18 has the exact one.",
 "C77": "nom's escaped is modelled after its documentation; the outcomes the crate's tests state for it are replayed on the model.",
 "C78": "The limiter is that of the external crate regex-syntax, modelled for the syntax the regex model supports.",
 "C79": "PartialEq of LocatedSpan is that of nom_locate; Vec's is the standard library's.",
 "C80": "The order is exact (C80_order); it is not that of the regex as written (C80_shared) unless no alternation has branches that all begin with the same optional (C80_unshared). The translation is a model of regex-syntax 0.8, whose source is not in /repo.",
 "C81": "C81_lazy_count shows that the condition on lazy exact counts is needed. Printer and translation are models of regex-syntax 0.8, whose source is not in /repo.",
 "C82": "C82_lazy_count shows that the condition on lazy exact counts is needed. Search, printer and translation are models of the regex crates, whose source is not in /repo.",
 "C83": "The printer and the translation of classes are models of regex-syntax, whose source is not in /repo.",
 "C84": "Search, printer and translation are models of the regex crates, whose source is not in /repo.",
 "C85": "C85_looking shows why matchers that look around (assertions such as $) are excluded from C85_regex. Printer and matching are models of the regex crates, whose source is not in /repo.",
 "C86": "C86_still is the witness that loops around nothing are a real exception. The compiler and the backtracker are models of regex-automata, whose source is not in /repo; a turn is a step of its loop, states read chars rather than bytes.",
 "C87": "C87_lost and C87_spanned are findings: the crate derives Error for types for which, because #[error(not(source))] is missing at src/expand/mod.rs:157, it is not implemented. The rules of derive_more are modelled from its documentation.",
 "C88": "C88_every_limit: C27 is about Regex::new without its size limit and fails with it, for very long expressions. The memory of an automaton is a parameter.",
 "C89": "The way the standard library prints strings, numbers, tuples, structs and lists is modelled from its documentation. regex::Error prints itself in its own way and is left out; what Needed holds is left out, as in C79.",
 "C90": "LocatedSpan's counter (newlines counted as u32, then added) is modelled from nom_locate 5.0, from memory. C90_overflow: C01 is false of a build with overflow checks on a text of 2^32 - 1 line breaks.",
 "C91": "Iterators of the standard library around the provider (Repeat, Zip, FlatMap, Chain) modelled as in Lazy.v, with the history of calls. The provider's clones are made even for elements that are no parameters."
}