(** The texts of the errors: [Display] of src/parse.rs:560-697 and src/expand/mod.rs:137-176, as
    [derive_more] generates it from the attributes ([{{] and [}}] stand for braces, [\\] for a
    backslash, [\'] for a quote, a backslash at the end of a line for nothing).
    The [Display] of a span is its fragment. *)
From Verif Require Export Nom Expand.

(** The [\n] of src/parse.rs:564-681. *)
Definition newline : str := [10].

(** src/parse.rs:559-697 [Display for Error]. Simplification: the model's [ENeeded] does not say how
    much is needed, so its message is that of [Needed::Unknown]. *)
Definition display_parsing (e : error span) : str :=
  match e with
  | NestedParameter i => frag i ++ newline ++
      s_ "A parameter may not contain an other parameter." ++ newline ++
      s_ "If you did not mean to use an optional type you can use '\{' to escape the '{'. For more complicated expressions consider using a regular expression instead."
  | OptionalInParameter i => frag i ++ newline ++
      s_ "A parameter may not contain an optional." ++ newline ++
      s_ "If you did not mean to use an parameter type you can use '\(' to escape the '('."
  | UnfinishedParameter i => frag i ++ newline ++
      s_ "The '{' does not have a matching '}'." ++ newline ++
      s_ "If you did not intend to use a parameter you can use '\{' to escape the '{'."
  | NestedOptional i => frag i ++ newline ++
      s_ "An optional may not contain an other optional." ++ newline ++
      s_ "If you did not mean to use an optional type you can use '\(' to escape the '('. For more complicated expressions consider using a regular expression instead."
  | ParameterInOptional i => frag i ++ newline ++
      s_ "An optional may not contain a parameter." ++ newline ++
      s_ "If you did not mean to use an parameter type you can use '\{' to escape the '{'."
  | EmptyOptional i => frag i ++ newline ++
      s_ "An optional must contain some text." ++ newline ++
      s_ "If you did not mean to use an optional you can use '\(' to escape the '('."
  | AlternationInOptional i => frag i ++ newline ++
      s_ "An alternation can not be used inside an optional." ++ newline ++
      s_ "You can use '\/' to escape the '/'."
  | UnfinishedOptional i => frag i ++ newline ++
      s_ "The '(' does not have a matching ')'." ++ newline ++
      s_ "If you did not intend to use an optional you can use '\(' to escape the '('."
  | EmptyAlternation i => frag i ++ newline ++
      s_ "An alternation can not be empty." ++ newline ++
      s_ "If you did not mean to use an alternative you can use '\/' to escape the '/'."
  | OnlyOptionalInAlternation i => frag i ++ newline ++
      s_ "An alternation may not exclusively contain optionals." ++ newline ++
      s_ "If you did not mean to use an optional you can use '\(' to escape the '('."
  | UnescapedReservedCharacter i => frag i ++ newline ++
      s_ "Unescaped reserved character." ++ newline ++
      s_ "You can use an '\' to escape it."
  | EscapedNonReservedCharacter i => frag i ++ newline ++
      s_ "Only the characters '{', '}', '(', ')', '\', '/' and whitespace can be escaped." ++ newline ++
      s_ "If you did mean to use an '\' you can use '\\' to escape it."
  | EscapedEndOfLine i => frag i ++ newline ++
      s_ "The end of line can not be escaped." ++ newline ++
      s_ "You can use '\' to escape the the ''."
  | Other i _ => frag i ++ newline ++ s_ "Unknown parsing error."
  | ENeeded => s_ "Parsing requires more data"
  end.

(** src/expand/mod.rs:153-176 [Display for ParameterError]; [err] is the message of the
    [regex_syntax::Error], which is not modelled. [Unmodelled] is not a result of the code. *)
Definition display_param (err : str) (e : param_error span) : str :=
  match e with
  | NotFound i => s_ "Parameter `" ++ frag i ++ s_ "` not found"
  | RenameRegexGroup i re =>
      s_ "Failed to rename capturing groups in regex `" ++ re ++ s_ "` of parameter `" ++ frag i
      ++ s_ "`: " ++ err
  | Unmodelled => []
  end.

(** src/expand/mod.rs:137-150 [Display for Error]; [None]: not an error of the code. *)
Definition display_error (err : str) (x : expanded span) : option str :=
  match x with
  | XParsing e => Some (s_ "Parsing failed: " ++ display_parsing e)
  | XExpansion Unmodelled => None
  | XExpansion e => Some (s_ "Failed to expand regex: " ++ display_param err e)
  | XRegex => Some (s_ "Regex creation failed: " ++ err)
  | _ => None
  end.
