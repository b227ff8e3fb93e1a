import json
P=[]
def p(title,statement,quantifier,why,anchors):
    P.append(dict(id="C%02d"%(len(P)+1),title=title,statement=statement,quantifier=quantifier,why_tests_cant=why,anchors=anchors))
PA="src/parse.rs"; AST="src/ast.rs"; CO="src/combinator.rs"; EX="src/expand/mod.rs"; PR="src/expand/parameters.rs"
inf="The input space (all Unicode strings) is infinite; tests and fuzzing sample it."
p("Expression::parse always returns",
  "Expression::parse(s) terminates and returns Ok or Err for every string s: no slicing off a char boundary, no arithmetic overflow, no endless loop.",
  "every string s that fits in memory (byte length below 2^63)", inf+" A panic or hang needs one unlucky byte boundary.",
  [AST+": TryFrom<&str> for Expression, Expression::parse", PA+": expression, single_expression, alternation, optional, parameter", CO+": escaped0"])
p("Every public parser always returns",
  "parse::parameter, optional, alternative, alternation, single_expression and expression, each applied to any input span at any location (and any indexer below usize::MAX), return Ok, a recoverable Error or a Failure: they never panic, never run forever and never ask for more input (Err::Incomplete).",
  "every string, every starting offset and line, every indexer value below usize::MAX", inf, [PA+": parameter, optional, alternative, alternation, single_expression, expression"])
p("Parsing loses nothing",
  "If Expression::parse(s) is Ok(e) then writing the nodes of e back in order with their delimiters ({..}, (..), /) gives exactly s.",
  "every string s that parses", inf, [AST+": Expression, SingleExpression, Alternation, Alternative, Optional, Parameter", PA+": expression"])
p("Spans are exact",
  "Every span in a parsed AST carries the byte offset at which its fragment really starts in the input and the 1-based line number of that position, and the fragment is the input's text at that offset.",
  "every string s that parses, every node of its AST", inf+" Multi-byte characters and newlines interact with offsets.", [AST+": Spanned", PA+": expression"])
p("Round trip of canonical ASTs",
  "Every well-formed AST (no mergeable neighbours, well-formed contents, parameters numbered in order) is exactly what Expression::parse returns for its source text; so the parser is a bijection between accepted strings and well-formed ASTs.",
  "every well-formed AST", "ASTs are unboundedly long; a test covers a handful of shapes.", [AST+": Expression", PA+": expression"])
p("Accepted strings are exactly the grammar",
  "Expression::parse(s) is Ok iff s is derivable from the context-free grammar of the README, where (as implemented) any of the reserved characters may be escaped anywhere and a single-alternation is any sequence of texts and optionals holding at least one text.",
  "every string s", inf, ["README.md: Grammar", PA+": expression"])
p("Everything in the README grammar is accepted",
  "Every string derivable from the EBNF grammar in the README, read literally, is accepted by Expression::parse.",
  "every derivation of the README grammar", "The grammar generates infinitely many strings.", ["README.md: Grammar", PA+": expression"])
p("Nothing outside the README grammar is accepted",
  "Every string accepted by Expression::parse is derivable from the README's EBNF grammar read literally.",
  "every string s", inf, ["README.md: Grammar", PA+": escaped_reserved_chars0, alternation"])
p("Parameter ids count from zero in order",
  "In a parsed expression the ids of the parameters, read left to right, are 0, 1, 2, ...: they are unique and equal to the parameter's position.",
  "every string s that parses", inf, [PA+": expression, parameter", AST+": Parameter::id"])
p("The indexer moves only on success",
  "parse::parameter increments the caller's indexer by one exactly when it returns a Parameter (whose id is the old value); single_expression does so exactly when it returns a Parameter; otherwise the indexer is unchanged, also on errors.",
  "every input span, every indexer value below usize::MAX", "Needs all error paths, including speculative parses done for error reporting.", [PA+": parameter, single_expression"])
p("Parse errors are always specific",
  "Expression::parse never returns the catch-all Error::Other nor Error::Needed: every rejection is one of the thirteen documented causes.",
  "every string s", inf, [AST+": TryFrom<&str> for Expression", PA+": Error"])
p("Error spans point into the input",
  "Whatever error Expression::parse returns, its span carries the byte offset and line of a real position of the input, and its fragment is a non-empty piece of the input's text at that offset.",
  "every string s that does not parse", inf, [PA+": Error, parameter, optional, alternation, escaped_reserved_chars0"])
p("Escaped end of line is reported as such",
  "If an expression ends in a lone backslash that is reached by the parser, the error is EscapedEndOfLine pointing at that backslash.",
  "every string ending in an unescaped backslash", inf, [PA+": escaped_reserved_chars0", CO+": escaped0"])
p("Escaped non-reserved character is reported exactly",
  "EscapedNonReservedCharacter is returned only when the input holds a backslash followed by a non-reserved character, and its span is exactly that backslash and that character.",
  "every string for which that error is returned", inf, [PA+": escaped_reserved_chars0", CO+": escaped0"])
p("Unfinished parameter or optional",
  "UnfinishedParameter (UnfinishedOptional) is returned by parse::parameter (optional) exactly when the input is an opening brace (parenthesis) followed only by legal name (text) characters and legal escapes up to the end of the input; the span is that opening brace (parenthesis).",
  "every input span", inf, [PA+": parameter, optional"])
p("Forbidden nesting is diagnosed",
  "NestedParameter, OptionalInParameter, NestedOptional, ParameterInOptional, AlternationInOptional, EmptyOptional and UnescapedReservedCharacter are each returned by parse::parameter / parse::optional exactly under their documented condition, and the span covers exactly the offending construct.",
  "every input span", inf, [PA+": parameter, optional"])
p("Bad alternations are diagnosed",
  "parse::alternation fails with EmptyAlternation exactly when the first malformed spot of the alternation is a slash with nothing on one side, pointing at that slash, and with OnlyOptionalInAlternation exactly when the alternation is otherwise well-formed but one branch holds only optionals, the span covering the whole alternation.",
  "every input span", inf, [PA+": alternation", AST+": Alternation::span_len, Alternation::contains_only_optional"])
p("Recoverable errors only where documented",
  "parse::parameter returns a recoverable Error exactly if the input does not start with '{', parse::optional exactly if it does not start with '('; on recoverable errors nothing was recognised; single_expression returns a recoverable Error only on the empty input.",
  "every input span, every indexer", inf, [PA+": parameter, optional, alternative, alternation, single_expression"])
p("Expressions compose at whitespace",
  "If a and b parse and a does not end, nor b start, with a blank, then a + \" \" + b parses to the nodes of a, one Whitespaces node, and the nodes of b with spans shifted and parameter ids renumbered.",
  "all pairs of strings that parse", "Pairs of arbitrary strings; look-ahead could leak across the blank.", [PA+": expression, single_expression, alternation"])
p("Parsing is independent of the location",
  "Running any of the parsers on the same text placed at a different offset/line gives the same result with all spans (in AST, rest and error) shifted by the same amount.",
  "every string, every pair of locations", inf, [PA+": all parsers"])
p("Any literal can be written by escaping",
  "For every non-empty string t, putting a backslash before each reserved character gives an expression that parses to a single Text node and whose regex matches t and nothing else.",
  "every string t", inf, [PA+": RESERVED_CHARS, escaped_reserved_chars0", EX+": EscapeForRegex, Expression::regex"])
p("EscapeForRegex produces the literal",
  "EscapeForRegex over any sequence of chars yields a regex matching exactly one string: the sequence with each backslash escape replaced by the escaped char (and a trailing lone backslash dropped). Applied to what it yields it changes nothing, and it yields the same for two sequences exactly if they stand for the same string.",
  "every finite char iterator", "All sequences of chars, including all mixes of backslashes and metacharacters.", [EX+": EscapeForRegex"])
p("SkipLast drops exactly the last item",
  "SkipLast over any finite iterator yields all its items in order except the last one (nothing for an empty one), and stays finished.",
  "every finite iterator", "Every length and every item type.", [EX+": SkipLast"])
p("OwnedChars yields the string's chars",
  "OwnedChars over any String yields exactly its chars in order, then None forever.",
  "every string", inf, [EX+": OwnedChars"])
p("The regex matches exactly what the expression means",
  "For an expression over built-in parameters, Expression::regex(s) matches exactly the strings obtained by concatenating, in order: each text unescaped, each optional's unescaped content or nothing, one branch of each alternation, and any string of each parameter's type.",
  "every string s that parses and uses built-in parameter names, every subject string", "Two infinite spaces: all expressions and all subjects.", [EX+": IntoRegexCharIter impls, Expression::regex"])
p("Matching is anchored",
  "The regex of an expression finds a match in a subject only if it matches the whole subject: no partial matches, whatever the parameters or newlines in the subject.",
  "every expression, every subject", "All subjects and expressions, in particular top-level alternatives in parameters.", [EX+": IntoRegexCharIter for Expression", PR+": IntoRegexCharIter for WithCustom<Expression>"])
p("Expansion always compiles",
  "For every parsed expression over built-in parameters the produced text is a syntactically valid regex with pairwise different group names, so Expression::regex returns Ok.",
  "every string s that parses with built-in parameter names", inf, [EX+": Expression::regex, IntoRegexCharIter impls"])
p("Capturing groups mirror the parameters",
  "The capturing groups of the regex, left to right, are those of the parameters in order: one unnamed group for int, float, word and {}, and two groups named __{id}_0 and __{id}_1 for string; texts, optionals and alternations add none.",
  "every string s that parses with built-in parameter names", inf, [EX+": IntoRegexCharIter for Parameter / Optional / Alternation"])
p("Captured values",
  "In a match, the value captured for a parameter is a piece of the subject belonging to the parameter's type (for string: the content between the quotes, in exactly one of its two groups), and the pieces with the literal texts between them make up the subject in order.",
  "every expression over built-ins, every subject, every match", "All expressions, subjects and ways of matching.", [EX+": IntoRegexCharIter impls"])
p("The leftmost unknown parameter is reported",
  "If some parameter of the expression is neither built-in nor provided, regex / regex_with_parameters fail with ParameterError::NotFound carrying the span of the leftmost such parameter (if no earlier parameter fails otherwise).",
  "every expression, every provider", inf, [EX+": IntoRegexCharIter for Parameter, Expression::regex", PR+": WithCustom"])
p("No custom parameters means built-ins",
  "regex_with_parameters with a provider that knows no name gives the same result as regex, for every expression.",
  "every string s", inf, [EX+": Expression::regex, regex_with_parameters", PR+": WithCustom"])
p("Custom parameters take precedence",
  "If the provider returns a matcher for a name, that matcher is used for every parameter of that name, even when the name is a built-in; names the provider does not know behave as with Expression::regex.",
  "every expression, every provider", inf, [PR+": IntoRegexCharIter for WithCustom<Parameter>"])
p("HashMap provider",
  "A HashMap provider returns the value whose key equals the raw text between the braces char by char, independently of the map's iteration order, and nothing if there is no such key.",
  "every map, every iteration order, every name", "Iteration order is randomised per process; names are arbitrary.", [PR+": Provider for &HashMap"])
p("Custom matcher without groups",
  "A custom matcher that is a valid regex without '(' contributes exactly one unnamed capturing group and matches exactly the strings the matcher itself matches, at its place in the expression.",
  "every expression, every such matcher, every subject", "All matchers and all subjects.", [PR+": IntoRegexCharIter for WithCustom<Parameter>"])
p("Custom matcher with groups",
  "If a custom matcher has capturing groups, they are renamed in order to __{id}_0, __{id}_1, ... (names unique across the whole expression), no extra capturing group is added, and the language matched is unchanged.",
  "every matcher regex, every parameter id", "All regex syntax trees.", [PR+": regex_hir::has_capture_groups, rename_capture_groups, rename_groups_inner"])
p("No capturing group escapes renaming",
  "Whenever a custom matcher holds a capturing group anywhere, also under a repetition, that group is detected and renamed, so one parameter never yields several unnamed groups and the same parameter can be used twice.",
  "every matcher regex", "All regex syntax trees.", [PR+": regex_hir::has_capture_groups, rename_groups_inner"])
p("Invalid custom matchers are rejected",
  "If a used custom matcher is not a valid regex on its own, regex_with_parameters returns an error.",
  "every expression, every provider", "Combinations of several broken matchers.", [PR+": IntoRegexCharIter for WithCustom<Parameter>"])
p("Built-in int",
  "{int} matches exactly the strings consisting of an optional minus sign and one or more (Unicode) decimal digits.",
  "every subject string", inf, [EX+": IntoRegexCharIter for Parameter"])
p("Built-in float",
  "{float} matches exactly an optional sign followed by inf, NaN or a decimal number (digits, digits with a point on either side, optional exponent e/E with optional sign): over ASCII this is the lower-case-e/E grammar of f64::from_str with inf and NaN.",
  "every subject string", inf, [EX+": IntoRegexCharIter for Parameter"])
p("Built-in word",
  "{word} matches exactly the non-empty strings without whitespace.",
  "every subject string", inf, [EX+": IntoRegexCharIter for Parameter"])
p("Built-in string",
  "{string} matches exactly a single- or double-quoted string in which the closing quote occurs inside only after a backslash, and captures the content without the quotes.",
  "every subject string", inf, [EX+": IntoRegexCharIter for Parameter"])
p("Anonymous parameter",
  "{} matches exactly every string without a newline.",
  "every subject string", inf, [EX+": IntoRegexCharIter for Parameter"])
p("Recursion depth",
  "The depth of recursive calls made while parsing is at most linear in the number of nested opening brackets; it is unbounded over all inputs (deeply nested brackets make it grow linearly).",
  "every string s", "Depth grows with the input; no finite set of inputs bounds it.", [PA+": parameter, optional"])
p("Regex size",
  "The text of the produced regex is at most linear in the size of the expression, for expressions over built-in parameters.",
  "every string s that parses with built-in parameter names", inf, [EX+": IntoRegexCharIter impls"])
p("Error messages",
  "The message of every error starts with the text at fault as it stands in the input, determines the kind of the error, and names the escape that mends it; expansion errors name the first parameter at fault.",
  "every input, every provider", "The quoted text is arbitrary, so messages of different errors might coincide.", [PA+": Error", EX+": Error, ParameterError"])
p("The advice of error messages works",
  "Whoever keeps escaping an unescaped character that the error points at and is about ends, after at most as many steps as the input has reserved characters, with an accepted expression; never gets stuck and never has to undo a step.",
  "every string s, every order of following the advice", "Sequences of corrections of any length.", [PA+": Error"])
p("Captured values are unique",
  "If everything whose length may vary (parameters other than strings; texts with optionals or alternations) is followed by the end or by a literal starting with a char it cannot contain, e.g. by a blank, then the subject determines all captured values, whichever way the regex engine matches.",
  "every such expression, every subject", "All subjects and all ways of matching them.", [EX+": IntoRegexCharIter impls"])
p("A search returns the values of a reading",
  "Regex::captures on the regex of an expression returns None exactly for the subjects the expression does not stand for; otherwise the whole subject followed by the values of a reading, and by those of the only reading if there is only one.",
  "every expression over built-in parameters, every subject", "All subjects; tests call captures once (README).", [EX+": Expression::regex", "README.md:21-25"])
p("Of several readings a search takes the best",
  "Among the readings of a subject Regex::captures takes the one whose piece, at the first element read differently, is preferred: optional texts before nothing, alternatives in order, longer ints, words and anonymous pieces before shorter ones, floats without a point before floats with one and then longer ones. That reading is unique.",
  "every expression over built-in parameters, every subject, every other reading", "Quantifies over all readings of all subjects.", [EX+": IntoRegexCharIter impls"])
p("Parsing time",
  "Parsing takes at most quadratically many steps in the length of the input, whatever the input and the outcome (each parser below expression: linearly many, although errors are found by parsing again); no better bound holds, as words of texts and optionals are scanned again at each of their elements. That is the only cause (for a rejected input it is that of some accepted part before the error); for an accepted input the steps are at most linear in its length plus, at every text and optional, the length of the rest of its word (and at least each of the two); so words of bounded length, or of a bounded number of texts and optionals, are parsed in linear time. In particular every input, accepted or not, with a bounded number of opening parentheses is. No parser consumes a char without a step.",
  "every string s", "Worst cases over all inputs of all lengths; a slow input is not a wrong result.", [PA+": parameter, optional, alternation, single_expression, expression", "src/combinator.rs: escaped0"])
p("Searches with custom parameters",
  "Regex::captures on the regex of an expression with custom parameters returns None exactly for the subjects that are no reading of the expression; otherwise the whole subject followed by the values of a reading, parameter by parameter in order.",
  "every expression, every provider of valid matchers, every subject", "All matchers and subjects.", [EX+": Expression::regex_with_parameters", PR+": IntoRegexCharIter for WithCustom<Parameter>"])
p("Group names identify parameters",
  "In every match, the group named __i_k holds the k-th value of the i-th parameter of the expression, if that parameter has named groups, and there is no such group otherwise; different pairs of numbers have different names.",
  "every expression, every provider of valid matchers without groups below repetitions, every subject, all i and k", "All matchers, subjects and numbers of parameters; names are decimal numbers of any length.", ["src/expand/parameters.rs:29-32,64-67", PR+": rename_groups_inner", EX+": IntoRegexCharIter for Parameter"])
p("Parsers on plain strings",
  "Every public parser gives on a &str what it gives on a located span of the same text, without the lines: the same value, rest, error and next id, and so it always returns; parse::expression on a &str parses to the end exactly what Expression::parse accepts, into the same parts. Expansion gives the same characters for either.",
  "every string, every starting id; every input type whose operations behave like those of spans", "The parsers are generic and run with two input types; the crate's tests use one, the fuzz targets the other.", [PA+": parameter, optional, alternative, alternation, single_expression, expression", "fuzz/fuzz_targets"])
p("Parsing does not depend on where the input lies",
  "Moved by any number of bytes and lines, an input gives the same result with every location moved as much.",
  "every located span, every move, every parser", "All starting offsets and lines; tests start at 0 and 1.", [PA+": parameter, optional, alternative, alternation, single_expression, expression"])
p("Expansion is lazy",
  "The chained iterators that into_regex_char_iter builds for every element of an expression, without and with custom parameters, yield exactly the characters of the expansion and then None forever; collecting them into a Result stops at the first error, after one call of next per character before it and one for the error.",
  "every expression, every provider, any number of calls of next", "All states of nested adaptors, also after the end.", [EX+": IntoRegexCharIter impls, ExpressionIter, AlternationIter, ParameterIter", PR+": ExpressionWithParsIter, WithParsIter"])
p("Cost of OwnedChars",
  "Collecting an OwnedChars of n chars reads (n+1)(n+2)/2 chars, as each next starts from the beginning: expanding a custom matcher with groups takes quadratic time in the length of its printed form.",
  "every string", "Exact cost for all lengths.", [EX+": OwnedChars::next"])
p("Spans in bytes",
  "Locations are in bytes of the UTF-8 encoding: at the offset of every span of an AST or of an error stand the bytes of its text, between two char boundaries, and its line is one more than the newline bytes before it; slicing never splits a char.",
  "every string s, every span in the result", "All strings with chars of one to four bytes; tests use ASCII.", ["src/ast.rs:25-26", PA+": Error::take calls, slice_index", "src/combinator.rs: escaped0"])
p("Accepted expressions are a regular language",
  "A finite automaton of sixteen states that reads the string once from left to right accepts exactly what Expression::parse accepts; no smaller one does: there are exactly sixteen kinds of beginnings, told apart by what may follow them.",
  "every string s, every continuation", "All continuations of all strings.", [PA+": expression", "README.md: Grammar"])
p("Which rejected expressions can be completed",
  "If any continuation makes a string an accepted expression, then one of at most three characters does. Errors about nesting, empty optionals and unescaped characters cannot be mended by any continuation; an unfinished parameter is always mended by a closing brace.",
  "every string s, every error, every continuation", "All continuations of all rejected strings.", [PA+": Error, expression"])
p("Only reserved characters matter",
  "Replacing characters that are not reserved by other such characters changes neither whether an expression is accepted nor the shape of the result or of the error; only the characters in it change, and the locations where the replacements have other lengths in bytes or are newlines.",
  "every string s, every replacement of characters", "All replacements in all strings.", [PA+": RESERVED_CHARS, expression", "src/combinator.rs"])
p("Which expressions have the same regex",
  "Two accepted expressions get the same regex exactly if they consist of the same characters, optionals, alternations and parameters in the same order, however these are escaped or divided into texts and whitespace: expansion loses nothing else. The regex is determined character by character. With custom parameters looked up by their text, such expressions have the same outcome too, errors included, up to the location of the parameter an error names.",
  "every two accepted expressions; every provider that looks only at the text of a name", "All pairs of expressions.", [EX+": IntoRegexCharIter impls, Expression::regex"])
p("The public parsers, exactly",
  "For every input and location, each public parser returns exactly one specified outcome: the node with its spans, the rest and the next id; or the recoverable error (where, of which kind); or the failure. The specification is in terms of the texts only and leaves nothing open.",
  "every string, location and starting id", "All inputs and all outcomes, successful ones included.", [PA+": parameter, optional, alternative, alternation, single_expression, expression"])
p("escaped0 for any parsers",
  "escaped0 with any parsers for normal and escapable text and any control character returns exactly one specified outcome: the longest text of normal pieces and escaped ones, or an Escaped error at the control character, or at the start of the input if that character ends it. It always terminates and never panics. With take_while or take_while1 and one_of, the text is the longest of those characters.",
  "every input, all parsers that return a rest of their input, every control character of one to four bytes", "All parsers and all control characters; the crate uses one.", ["src/combinator.rs:37-128: escaped0"])
p("The shortest spelling",
  "Of all accepted expressions that differ only in their spelling (escapes and the division of the text), exactly one is shorter than all others: the one that escapes only what has to be escaped where it stands. Likewise of all expressions with the same regex.",
  "every accepted expression, every other spelling of it", "All spellings of all expressions.", [PA+": RESERVED_CHARS, expression", EX+": EscapeForRegex"])
p("The regex is nested at most three groups deep",
  "However long the expression and however many optionals, alternations and parameters it has: in the regex with built-in parameters no more than three groups are open at once. The nesting limit of the regex crate (250) is out of reach.",
  "every accepted expression with built-in parameters", "All expressions; nesting in long ones.", [EX+": IntoRegexCharIter impls"])
p("Errors are reported where the expression goes wrong",
  "What stands before the text an error points at can be completed to an accepted expression, and the first character that rules out every completion, if there is one, is in that text or directly follows it.",
  "every rejected expression", "All rejected expressions and all of their completions.", [PA+": errors of parameter, optional, alternation, escaped0 callers"])
p("Expressions one after the other",
  "Two accepted expressions written one after the other are an accepted expression; its nodes are those of the two, moved and renumbered, exactly if nothing merges where they meet, and it stands for what the first stands for followed by what the second stands for. Where they meet, the last branch of the last word of the first goes on with the first branch of the first word of the second. Its parameters, optionals and groups are always those of the two. Conversely an expression can be cut between any two nodes.",
  "every two accepted expressions; every accepted expression and every place between two nodes", "All pairs of expressions.", [PA+": expression, single_expression", EX+": Expression::regex"])
p("How much an expression matches",
  "Every expression with built-in parameters matches some subject. It matches the empty subject exactly if it consists of optionals and anonymous parameters only. Without parameters it matches finitely many subjects, none longer than the expression; with a parameter it matches arbitrarily long ones. With custom parameters: the empty subject exactly if each element is an optional, an anonymous parameter or has a matcher for the empty text; some subject if each matcher has a text that it matches anywhere; arbitrarily long ones if moreover one has such texts of any length; and if each parameter has a matcher for at most k chars, no subject longer than the expression and k for each parameter.",
  "every accepted expression for which Expression::regex() returns a regex, every table of digits with at least one digit, every table of whitespace that leaves out at least one character, every subject", "All expressions; that the set of matched subjects is finite, empty or unbounded cannot be seen on finitely many subjects.", [EX+": Expression::regex, IntoRegexCharIter", EX+": Parameter::into_regex_char_iter"])
p("Matchers that are not looked at",
  "A custom matcher without an open parenthesis is put in parentheses without being parsed. In an expression with one parameter the outcome is a regex exactly if the matcher in parentheses is one: the matcher is a regex, or it closes the group itself and ends in a backslash, or it is one of these behind ?: or a group name. In an expression with two parameters neither matcher in parentheses need be a regex.",
  "every expression with one parameter, every provider, every matcher without an open parenthesis", "All matchers and all surrounding expressions; the exact set of strings that slip through is infinite.", [PR+": ParameterIter, WithCustom", EX+": Expression::regex_with_parameters"])
p("Expansion takes linear time, but for renamed groups",
  "Draining the iterators of the expansion takes a number of steps (calls of next and peek of all nested iterators, chars passed by nth, calls in comparing names) that is at most linear in the length of the outcome and the number of nodes of the tree, plus (n+1)(n+2)/2 for every text of length n that is kept in an OwnedChars; that much is also necessary if there is no error. For a parsed expression with built-in parameters this is linear in the length of the input, whatever the outcome; for a parameter with renamed groups it is quadratic in the length of the outcome. Every call that collects the outcome costs at least one step, errors included.",
  "every tree, every input type, every provider; every parsed input", "Tests see a few inputs; bounds hold for all sizes, and the quadratic case needs long matchers.", [EX+": IntoRegexCharIter, SkipLast, OwnedChars, EscapeForRegex", PR+": WithParsIter"])
p("What a regex is, by a grammar",
  "The text handed to Regex::new is accepted, with a given syntax tree, exactly if it is derivable from a grammar (atoms, escapes, classes, repetitions, groups, alternatives) with that tree and no two groups have the same name. The grammar is unambiguous. Every regex that Expression::regex or regex_with_parameters returns is of that grammar.",
  "every text, every syntax tree; every input and provider", "The parser of the model is a state machine written from the documentation; tests compare it on a few regexes, the grammar pins it down for all.", [EX+": Regex::new(regex)", PR+": regex_syntax::Parser::new().parse"])
p("Unescaped braces, parentheses and slashes",
  "In an accepted expression the parameters are exactly the texts between an unescaped { and the next unescaped }, the optionals exactly those between an unescaped ( and the next unescaped ), and a branch of an alternation starts exactly after every unescaped slash: all three can be read off left to right without parsing.",
  "every accepted input", "Closing characters are ordinary text in places, opening ones never are; tests try a few positions only.", [PA+": fn parameter", PA+": fn optional", PA+": fn alternation"])
p("Editing one node",
  "Every node of an accepted expression has a text of its own, and replacing this text by the text of another node of the same variant gives an accepted expression with all other nodes the same, but moved. Any nodes of an accepted expression, in any order and number, make an accepted expression.",
  "every accepted input, every node of it, every replacement", "Tools that edit expressions rely on it for all texts; where alternations touch words it would fail, and only the kind of a node decides.", [PA+": fn single_expression", PA+": fn expression"])
p("Expansion of trees built by hand",
  "The AST and the traits that expand it are public. Whatever the tree (lone backslashes and reserved characters in texts, empty optionals, alternations with no branch or one, any ids), collecting the expansion gives the error of the first parameter that is unknown, or a text that compiles exactly unless two {string} parameters have the same id, and then matches exactly what the tree means with the captures of its parameters. The same holds with a provider of valid matchers: the regex is rejected iff two named groups are equal.",
  "every AST over every input type, every provider, every subject", "Tests expand parsed trees only; shapes that the parser never builds are endless.", [EX+": impl IntoRegexCharIter<I> for Expression<I>", EX+": impl IntoRegexCharIter<I> for Alternation<I>", EX+": impl IntoRegexCharIter<I> for Parameter<I>", PR+": impl IntoRegexCharIter<I> for WithCustom<Expression<I>, Pars>"])
p("Which keys of a HashMap provider can be reached",
  "Names are looked up as written. A key is the name of a parameter of some accepted expression iff it is a sequence of escapes and characters other than braces, an open parenthesis, a slash and a backslash; entries with other keys change no result for any input, and for a key that can be reached (and is no built-in type) there is an input where the entry matters. For a given input only entries whose key stands between unescaped braces matter.",
  "every map, every key, every input", "That an entry is never looked up for any input cannot be seen from examples.", [PR+": impl Provider<I> for &HashMap", PA+": fn parameter"])
p("The documented errors",
  "Each public parser fails (irrecoverably) with the kinds of errors its documentation lists, with every one of them for some input, and with no other for any input; so Expression::parse has exactly thirteen kinds of errors. alternation is recoverable if the input has no slash.",
  "every input, location and id, for every public parser and every kind of error", "That a kind of error is never returned is a claim about all inputs; the lists in the documentation are not checked by anything.", [PA+": fn parameter", PA+": fn optional", PA+": fn alternative", PA+": fn alternation", PA+": fn single_expression", PA+": fn expression"])
p("escaped0 against nom's escaped",
  "The three differences the documentation of escaped0 names are the only ones: where escaped returns a text, escaped0 returns the same one unless the rest starts with the control character (then normal took the empty text and escaped0 goes on from there); where escaped fails, escaped0 returns the empty text (nothing normal and no control character at the start), fails the same way (the control character ends the input), or fails with Escaped at the control character in place of the error of escapable.",
  "every normal and escapable parser, control character, input and location", "The tests compare the two on nine inputs with one pair of parsers.", [CO+": fn escaped0"])
p("Nesting limit of regexes",
  "Regex::new and regex_syntax refuse a regex nested more than 250 deep. Expression::regex never runs into a limit of 12 or more, however long the expression is, and 12 is the least such limit. With matchers that are regexes, regex_with_parameters gives what it gives without the limit exactly if every used matcher, as expanded, is at most 248 deep (two less than the limit) and no matcher with an open parenthesis is itself over the limit; else it is an error of Regex::new, or RenameRegexGroup for the first matcher with an open parenthesis over the limit. A regex is nested at most as deep as it is long, so matchers of up to 248 chars (also as renamed) are never affected; but a matcher that is a valid regex by itself can make an expression invalid.",
  "every limit, expression, provider, printer of Hir and table of character classes", "No test has a regex near the limit, and expressions are unboundedly long.", [EX+": Regex::new", PR+": regex_syntax::Parser"])
p("Equality of expressions and errors",
  "The derived equality of expressions (and of errors) holds exactly if the trees are the same up to the equality of their inputs, and is an equivalence whenever that of the inputs is one. With Spanned it is identity. Two parsed expressions are equal exactly if their sources are, even if only the texts of the nodes are compared. Errors of different sources can be equal.",
  "every input type with an equality, every pair of trees, of errors and of accepted strings", "Tests compare the debug output of single trees with a constant.", [AST+":33-34", AST+":70-178", PA+":559-697"])
p("Searches through the simplified regex",
  "The regex crate simplifies a regex before it searches with it. That does not change whether a subject matches; what is captured stays a reading of the expression; and it stays the same captures if no alternation has branches that all begin with the same optional (after the same text, if any). Otherwise the captures can differ from what the documented order of preference gives.",
  "every regex (matching), every expression over built-in parameters and every subject (captures), all Unicode tables", "The tests match a handful of subjects; none has an ambiguous reading.", [EX+":72", EX+":117"])
p("A renamed matcher is the same matcher",
  "Renaming the groups of a custom matcher goes through the simplifying constructors of Hir again. It changes nothing but the names: without names the Hir is the same as before. And the text printed for it is read back as exactly that Hir, so compiling the expression simplifies the matcher no further. The exception are lazy exact counts such as a{2}?, whose laziness is not printed.",
  "every matcher, every parameter id, all Unicode tables; for reading back, matchers without dropped groups and without lazy exact counts", "The tests rename one matcher with flat groups; alternations with common beginnings, overlapping classes and nested repetitions are not tried.", [PR+":207", PR+":245", PR+":324-376"])
p("With custom parameters the first reading in a fixed order is captured",
  "If an expression with custom parameters can be read in several ways, a search takes the best reading, where the first piece in which two readings differ decides. For built-in elements the order is that of C80. For a custom parameter a piece is better than another if a search with its matcher alone, at that place of the subject, tries it earlier; that the matcher stands within an expression, and that its groups are renamed, printed and read again, does not change this order. The exception are lazy exact counts such as a{2}? (C81).",
  "every expression, every provider whose matchers in use are valid and printed exactly, every subject, all Unicode tables", "The tests search with one custom parameter whose matcher can be read in one way only.", [EX+":95-117", PR+":207", PR+":245", PR+":324-376"])
p("Regexes and captures consist of Rust chars",
  "The text of the regex of an expression consists of chars of the expression and of ASCII chars. With custom parameters, whose classes are printed by the bounds of their ranges, other chars may appear in it, but only Unicode scalar values (Rust's char): no surrogate, nothing above 0x10FFFF. What a search captures are pieces of the subject.",
  "every expression, every provider, all Unicode tables whose bounds are Rust chars, every regex and subject", "No test has a class next to the surrogates or to the last char, and the tests compare regexes with a fixed text.", [EX+":66-117", EX+":417-448", PR+":200-207", PR+":324-376"])
p("The built-in parameters could be custom ones",
  "If some of the built-in parameters are also provided as custom parameters with their documented regexes, nothing changes: for int, float, word and the anonymous parameter the regex (or the error) is the same; for string, whose groups are then renamed and printed by regex-syntax, the groups have the same names, and every search returns the same captures. More generally only what the matchers in use match, and the order in which a search tries it, matters to a search, not how the matchers are written.",
  "every expression, every provider that spells built-in parameters, every subject; every two providers that are alike in this sense", "No test overrides a built-in parameter by its own regex; that two of many ways to the same regex agree on every subject is not testable.", [EX+":402-453", PR+":179-255", EX+":103-117"])
p("Expressions with custom parameters can be put one after the other",
  "If the provider looks at the names of parameters only, then also with custom parameters a concatenation of two expressions stands for what the first stands for followed by what the second stands for, each read in view of what surrounds it, unless an alternation meets an adjacent word; in every case it stands for the rest of the first, a branch of the two words written together, and the rest of the second, with the captured values one after the other. If no matcher looks around, the regex of the concatenation matches exactly what the two regexes match one after the other; with a matcher that looks around this is false.",
  "every pair of expressions, every provider that depends on names only, every subject and surrounding text", "Tests never compare the regex of a concatenation with the regexes of its parts, with or without custom parameters.", [PA+": expression, single_expression", EX+":402-453", PR+":179-255"])
p("Searches with the regex of an expression take linear time",
  "The regex of an expression, as written and as simplified by Regex::new, compiles to an automaton of at most 6 |s| + 5 states whose search by backtracking that remembers where it has been ends after at most 12 (|s| + 1) (|subject| + 1) turns, |s| being the length of the expression, and gives the whole match and the captured values that the leftmost-first search gives. For any regex at all such a search ends after at most two turns for every state and place, and answers with a match that starts leftmost, or that there is none (with custom parameters: the values of a reading of the subject, or there is no reading; that first in the order of C82 if no matcher has a loop around nothing); it agrees with the leftmost-first order of trying unless a loop without end goes around something that matches the empty string, and then it may not. In any case its answer is that of the run of the automaton that is preferred to all others among those that are never in the same state at the same place twice.",
  "every expression, every subject, every regex of the modelled syntax", "Tests search short subjects; that no expression, however written, makes a search of a step text slow (as nested repetitions do in engines that try all ways) is a claim about all of them.", [EX+":72", EX+":117", EX+":402-453"])
p("The sources of errors",
  "Each error of Expression::regex and regex_with_parameters has a source (std::error::Error::source), the error of the stage that failed: the parse error, the parameter error or the regex error; its message is the name of the stage followed by the message of the source, and following the sources ends after three errors. A parse error has no source, a parameter that was not found has its input as one, and RenameRegexGroup has none though it holds and quotes the error of the regex parser. parse::Error<I> implements std::error::Error for every I that can be shown; ParameterError<I> and expand::Error<I> only if I is itself a 'static error, so never for the spans that Expression::regex returns them with.",
  "every error, every input type", "No test looks at source or boxes an error; a missing implementation is only noticed by the code that would need it.", [PA+":560-697", EX+":137-176"])
p("The size limit of regexes",
  "Regex::new refuses a regex whose automaton takes more memory than a limit. With the limit Expression::regex and regex_with_parameters return what they return without it, except that a regex whose automaton is too large becomes Error::Regex. If a state takes at most k units of memory, every expression s over built-in parameters with k (6 |s| + 5) units within the limit is unaffected; if a state takes at least one, a literal text as long as the limit is refused, so for every limit there is a valid expression over built-in parameters whose expansion fails.",
  "every limit, every measure of memory between one and k units per state, every expression and provider", "The limit of 10 MB is far from the expressions of tests; that the expansion of any expression compiles (C27) silently depends on it.", [EX+":66-73", EX+":103-130", EX+":137-150"])
p("Debug hides nothing",
  "Two expressions, or two parse errors, are printed alike by their derived Debug, in the form {:?} or {:#?}, if and only if they are equal, whatever chars the standard library considers printable; parsed expressions are printed alike if and only if they were written alike, and so for errors of the expansion other than those of Regex::new. This holds for any Input whose Debug makes different calls for different values. The form {:?} is one line and holds no char that is neither printable nor visible ASCII; {:#?} differs from it by blanks, line breaks and commas outside of string literals only. An error is printed as its type is declared: the name of its variant and the fields, in order, of their types and with their names. What is printed of expressions are exactly the values of Expression as declared in src/ast.rs, and what is printed of a parsed expression shows, node by node, how it was written.",
  "every expression and error, every Input whose Debug tells values apart, every set of printable chars", "Tests compare Debug output only when they fail; that quotes, commas, brackets or line breaks in the text of an expression can never make two different trees look the same is about all texts.", ["src/ast.rs:33-34", "src/ast.rs:70-178", "src/parse.rs:560-697", "src/expand/mod.rs:137-176"])
p("The line counter of a location",
  "Locations count lines in a u32. Of a text with fewer than 2^32 - 1 line breaks Expression::parse makes the same whether the build has overflow checks or not, with true line numbers; of any text a build without them makes the same as with unbounded line numbers, each number being the remainder by 2^32 (so do all public parsers); a build with them makes the same or panics, and does panic on some text.",
  "every text; every span for the public parsers", "A test would need a text of four gigabytes; that nothing else overflows is about all texts.", ["src/ast.rs:25-61", "src/combinator.rs:47-128", "src/parse.rs:138-557"])
p("Providers whose answers may change",
  "A Provider may answer differently from call to call. While an expression is expanded the provider is cloned exactly once for each element and asked exactly once for each parameter, from left to right, and nothing is done with it after the first element that fails; the regular expression is made of exactly those answers, and the error is that of the first failing element. If the answers do not change, this is the expansion with custom parameters of the other claims.",
  "every expression (of any input type), every function from what was done with the provider to its answer", "A test has one provider; that no call is repeated, skipped or made early is about every history of calls.", ["src/expand/parameters.rs:69-83", "src/expand/parameters.rs:107-145", "src/expand/parameters.rs:156-192", "src/expand/mod.rs:99-133"])
p("The iterators on whatever they are given",
  "SkipLast and EscapeForRegex are public and take any iterator, also an endless one or one that answers again after None. A call of SkipLast answers what the inner call of the same number does if the inner call after it answers something, else None, and it is always exactly one inner call ahead; so it yields everything an endless iterator does. EscapeForRegex never has read more from the inner iterator than is needed for what it has yielded and at most one char it yields next, it has only read whole escapes, and it ends only if the inner iterator does.",
  "every iterator (any state and any next), every number of calls", "Tests use finite strings; reading too far ahead of an endless or blocking iterator changes no collected string.", [EX+":469-507", EX+":538-603"])
with open('/verif/properties.jsonl','w') as f:
    for x in P: f.write(json.dumps(x,ensure_ascii=False)+"\n")
print(len(P))
