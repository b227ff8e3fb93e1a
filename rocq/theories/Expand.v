(** Model of src/expand/mod.rs: expansion of an AST into the text of a regex, generic in [Input]
    ([elements] stands for [iter_elements().map(AsChar::as_char)]).

    Simplification: the standard library's lazy adapters ([chain], [map], [flat_map], [once],
    [Either]) are the list operations they stand for (C55: Lazy.v has the iterators). The crate's own iterators ([EscapeForRegex],
    [SkipLast], [OwnedChars]) are run as the state machines of Iter.v. *)
From Coq Require Import DecimalString.
From Verif Require Export Ast Iter Parse Regex.

(** src/expand/mod.rs:154-176 [ParameterError] (the text of the [regex_syntax::Error] is left out).
    [Unmodelled] is not an error of the code: a custom matcher uses regex syntax outside the modelled
    part. *)
Inductive param_error (I : Type) :=
| NotFound (i : I)
| RenameRegexGroup (parameter : I) (re : str)
| Unmodelled.
Arguments NotFound {I}. Arguments RenameRegexGroup {I}. Arguments Unmodelled {I}.

(** [Result<char, ParameterError<I>>]. src/expand/mod.rs:186. *)
Inductive item (I : Type) := IOk (c : char) | IErr (e : param_error I).
Arguments IOk {I}. Arguments IErr {I}.

(** Draining an iterator of the crate; [fuel] is always enough (proved). As [collect] does at
    src/expand/mod.rs:71,116. *)
Definition drain {St A} (fuel : nat) (next : iter St A) (s : St) : list A :=
  match collect fuel next s with Some l => l | None => [] end.
(** [EscapeForRegex::new(t).collect()]. As at src/expand/mod.rs:248,346,377. *)
Definition escape_for_regex (t : str) : str :=
  drain (1 + 2 * List.length t) (escape_next list_next) (escape_new t).
(** [SkipLast::new(l).collect()], as at src/expand/mod.rs:297. *)
Definition skip_last {A} (l : list A) : list A :=
  drain (1 + List.length l) (skip_last_next list_next) (skip_last_new l).
(** [OwnedChars::new(t).collect()], as at src/expand/mod.rs:438 and src/expand/parameters.rs:245. *)
Definition owned (t : str) : str :=
  drain (1 + List.length t) owned_chars_next (owned_chars_new t).

(** [impl Display for usize]. Used by the [format!] at src/expand/mod.rs:438-444 and
    src/expand/parameters.rs:344. *)
Definition dec (n : N) : str := s_ (NilZero.string_of_uint (N.to_uint n)).

(** [Iterator::eq] on two sequences of chars. Called at src/expand/mod.rs:413 and src/expand/parameters.rs:92.
    *)
Definition chars_eq (a b : str) : bool := str_eqb a b.

Section Expand.
  Context {I : Type} (elements : I -> str).

  (** src/expand/mod.rs:399-400 [MapOkChar]: every char in [Ok]. *)
  Definition ok (t : str) : list (item I) := map IOk t.

  (** src/expand/mod.rs:365-381 *)
  Definition expand_optional (o : optional I) : list (item I) :=
    ok (s_ "(?:" ++ escape_for_regex (elements (opt_input o)) ++ s_ ")?").

  (** src/expand/mod.rs:331-350 *)
  Definition expand_alternative (a : alternative I) : list (item I) :=
    match a with
    | AltOptional o => expand_optional o
    | AltText t => ok (escape_for_regex (elements t))
    end.

  (** src/expand/mod.rs:276-300 *)
  Definition expand_single_alternation (b : single_alternation I) : list (item I) :=
    flat_map expand_alternative b ++ ok (s_ "|").
  (** src/expand/mod.rs:276-300. *)
  Definition expand_alternation (a : alternation I) : list (item I) :=
    ok (s_ "(?:") ++ skip_last (flat_map expand_single_alternation a) ++ ok (s_ ")").

  (** src/expand/mod.rs:416-417 *)
  Definition int_regex : str := s_ "((?:-?\d+)|(?:\d+))".
  (** src/expand/mod.rs:418-433 *)
  Definition float_regex : str :=
    s_ "([+-]?(?:inf|NaN|(?:\d+|\d+\.\d*|\d*\.\d+)(?:[eE][+-]?\d+)?))".
  (** src/expand/mod.rs:434-435 *)
  Definition word_regex : str := s_ "([^\s]+)".
  (** src/expand/mod.rs:436-446: the [format!]. In a Coq string a double quote is written twice. *)
  Definition string_regex (id : N) : str :=
    s_ "(?:""(?P<__" ++ dec id ++ s_ "_0>[^""\\]*(?:\\.[^""\\]*)*)""|'(?P<__"
      ++ dec id ++ s_ "_1>[^'\\]*(?:\\.[^'\\]*)*)')".
  (** src/expand/mod.rs:447-448 *)
  Definition anonymous_regex : str := s_ "(.*)".

  (** src/expand/mod.rs:402-453 *)
  Definition expand_parameter (p : parameter I) : list (item I) :=
    let eq := fun (i : I) (t : str) => chars_eq (elements i) t in
    if eq (par_input p) (s_ "int") then ok int_regex
    else if eq (par_input p) (s_ "float") then ok float_regex
    else if eq (par_input p) (s_ "word") then ok word_regex
    else if eq (par_input p) (s_ "string") then ok (owned (string_regex (par_id p)))
    else if eq (par_input p) (s_ "") then ok anonymous_regex
    else [IErr (NotFound (par_input p))].

  (** src/expand/mod.rs:230-252 *)
  Definition expand_single (x : single_expression I) : list (item I) :=
    match x with
    | ExAlternation a => expand_alternation a
    | ExOptional o => expand_optional o
    | ExParameter p => expand_parameter p
    | ExText t | ExWhitespaces t => ok (escape_for_regex (elements t))
    end.

  (** src/expand/mod.rs:195-210 *)
  Definition expand_expression (e : expression I) : list (item I) :=
    ok (s_ "^") ++ flat_map expand_single e ++ ok (s_ "$").
End Expand.

(** [collect::<Result<String, _>>()]: the first error wins. src/expand/mod.rs:71,116. *)
Fixpoint collect_result {I} (l : list (item I)) : str + param_error I :=
  match l with
  | [] => inl []
  | IOk c :: l' => match collect_result l' with inl t => inl (c :: t) | inr e => inr e end
  | IErr e :: _ => inr e
  end.

(** src/expand/mod.rs:138-150 [expand::Error] (without the text of the [regex::Error]), and the
    other ways a call may end: [XPanic] and [XDiverges] if parsing does, [XUnsupported] if the text uses regex
    syntax outside the modelled part. [XOk t r]: a [Regex] with text [t] (its [as_str]), meaning [r]. *)
Inductive expanded (I : Type) :=
| XOk (text : str) (r : re)
| XParsing (e : error I)
| XExpansion (e : param_error I)
| XRegex
| XPanic
| XDiverges
| XUnsupported.
Arguments XOk {I}. Arguments XParsing {I}. Arguments XExpansion {I}. Arguments XRegex {I}.
Arguments XPanic {I}. Arguments XDiverges {I}. Arguments XUnsupported {I}.

(** The common shape of src/expand/mod.rs:69-72 and 113-117; [expand] is [into_regex_char_iter]. *)
Definition regex_by (expand : expression span -> list (item span)) (input : str) : expanded span :=
  match expression_parse input with
  | RetErr e => XParsing e
  | Panics => XPanic
  | Diverges => XDiverges
  | RetOk e =>
      match collect_result (expand e) with
      | inr Unmodelled => XUnsupported
      | inr err => XExpansion err
      | inl t =>
          match regex_new t with
          | Done r => XOk t r
          | Invalid => XRegex
          | Unsupported => XUnsupported
          end
      end
  end.

(** src/expand/mod.rs:66-73 [Expression::regex]. *)
Definition expression_regex (input : str) : expanded span :=
  regex_by (expand_expression iter_elements) input.
