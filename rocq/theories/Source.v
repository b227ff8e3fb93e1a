(** [std::error::Error] for the errors of the crate, as [derive_more] 2.0 derives it (src/parse.rs:560-697,
    src/expand/mod.rs:137-176): which field is the [source], and for which [Input] the implementation exists.
    The rules of [derive_more] are from its documentation; its source is not in the repository. *)
From Verif Require Export Messages.

(** The types of the fields of src/parse.rs:561-697 and src/expand/mod.rs:138-176; the type parameter [Input] is left
    open. *)
Inductive ty := TyInput | TyKind | TyNeeded | TyParse | TyParameter | TyRegex | TyString | TySyntax.

(** A field of a variant: its name, if it has one, its type and whether [#[error(not(source))]] stands before it
    (as at src/parse.rs:570). *)
Record field := mkfield { fd_name : option str; fd_type : ty; fd_not_source : bool }.
(** A variant: its name and fields. As at src/expand/mod.rs:162-175. *)
Record variant := mkvariant { vr_name : str; vr_fields : list field }.

(** The field [_0] of a variant, as at src/expand/mod.rs:141. *)
Definition plain (t : ty) : field := mkfield None t false.
(** A field with [#[error(not(source))]], as at src/parse.rs:570. *)
Definition kept (t : ty) : field := mkfield None t true.
(** A field with a name, as at src/expand/mod.rs:164. *)
Definition named (n : str) (t : ty) : field := mkfield (Some n) t false.

(** src/parse.rs:561-697 [Error]. *)
Definition parse_error_type : list variant :=
  [mkvariant (s_ "NestedParameter") [kept TyInput]; mkvariant (s_ "OptionalInParameter") [kept TyInput];
   mkvariant (s_ "UnfinishedParameter") [kept TyInput]; mkvariant (s_ "NestedOptional") [kept TyInput];
   mkvariant (s_ "ParameterInOptional") [kept TyInput]; mkvariant (s_ "EmptyOptional") [kept TyInput];
   mkvariant (s_ "AlternationInOptional") [kept TyInput]; mkvariant (s_ "UnfinishedOptional") [kept TyInput];
   mkvariant (s_ "EmptyAlternation") [kept TyInput]; mkvariant (s_ "OnlyOptionalInAlternation") [kept TyInput];
   mkvariant (s_ "UnescapedReservedCharacter") [kept TyInput]; mkvariant (s_ "EscapedNonReservedCharacter") [kept TyInput];
   mkvariant (s_ "EscapedEndOfLine") [kept TyInput]; mkvariant (s_ "Other") [kept TyInput; plain TyKind];
   mkvariant (s_ "Needed") [kept TyNeeded]].
(** src/expand/mod.rs:154-176 [ParameterError]. *)
Definition param_error_type : list variant :=
  [mkvariant (s_ "NotFound") [plain TyInput];
   mkvariant (s_ "RenameRegexGroup") [named (s_ "parameter") TyInput; named (s_ "re") TyString; named (s_ "err") TySyntax]].
(** src/expand/mod.rs:138-150 [Error]. *)
Definition expand_error_type : list variant :=
  [mkvariant (s_ "Parsing") [plain TyParse]; mkvariant (s_ "Expansion") [plain TyParameter]; mkvariant (s_ "Regex") [plain TyRegex]].

(** Which field [source] returns: that with the name [source], or the only one of a variant without names, unless it is marked
    otherwise. Used at src/parse.rs:560, src/expand/mod.rs:137 and 153; simplified: no field here has the attribute
    [source] nor the type [Backtrace]. *)
Definition source_field (v : variant) : option field :=
  match vr_fields v with
  | [mkfield None t false] => Some (plain t)
  | l => find (fun f => match fd_name f with Some n => str_eqb n (s_ "source") && negb (fd_not_source f) | None => false end) l
  end.

(** What is known of [Input]: whether it implements [Debug], [Display] and [Error], and whether it outlives ['static]. The
    bounds of src/parse.rs:560 and src/expand/mod.rs:137,153 are about these. *)
Record input_type := mkinput { shows : bool; errs : bool; stays : bool }.
(** [Spanned<'s>] (src/ast.rs:26): [LocatedSpan] implements [Debug] and [Display] but not [Error]. *)
Definition spanned (static : bool) : input_type := mkinput true false static.

(** Whether the types of the fields mention [Input] (the bounds of src/expand/mod.rs:137,153 are about those that do). *)
Definition mentions_input (t : ty) : bool := match t with TyInput | TyParse | TyParameter => true | _ => false end.
(** The implementation derived at src/parse.rs:560 or src/expand/mod.rs:137,153: it requires [Debug] and [Display] (which
    require those of [Input]), and of each source whose type mentions [Input] that it is an [Error] and outlives ['static];
    [is] says which of these are. *)
Definition derived (is : ty -> bool) (i : input_type) (vs : list variant) : bool :=
  shows i && forallb (fun v => match source_field v with
    | Some f => if mentions_input (fd_type f) then is (fd_type f) && stays i else true
    | None => true
    end) vs.
(** Whether [parse::Error<Input>] is an [Error], src/parse.rs:560. *)
Definition parse_error_is (i : input_type) : bool := derived (fun t => match t with TyInput => errs i | _ => false end) i parse_error_type.
(** Whether [ParameterError<Input>] is an [Error], src/expand/mod.rs:153. *)
Definition param_error_is (i : input_type) : bool := derived (fun t => match t with TyInput => errs i | _ => false end) i param_error_type.
(** Whether [expand::Error<Input>] is an [Error], src/expand/mod.rs:137. *)
Definition expand_error_is (i : input_type) : bool :=
  derived (fun t => match t with TyInput => errs i | TyParse => parse_error_is i | TyParameter => param_error_is i | _ => false end) i expand_error_type.

(** An error with those it may hold: src/parse.rs:561, src/expand/mod.rs:138,154, [regex::Error] (src/expand/mod.rs:149),
    [regex_syntax::Error] (src/expand/mod.rs:174, the two with their messages, which are not modelled), an [Input]. *)
Inductive any_error :=
| AnyExpand (variant : nat) (e : any_error)
| AnyParse (e : error span)
| AnyNotFound (i : span)
| AnyRename (parameter : span) (re : str) (err : str)
| AnyRegex (err : str)
| AnyInput (i : span).
(** The error returned at src/expand/mod.rs:69-72 and 113-117, by [From] (src/expand/mod.rs:137); [err] is the message of the
    library's error. *)
Definition any_of (err : str) (x : expanded span) : option any_error :=
  match x with
  | XParsing e => Some (AnyExpand 0 (AnyParse e))
  | XExpansion (NotFound i) => Some (AnyExpand 1 (AnyNotFound i))
  | XExpansion (RenameRegexGroup i re) => Some (AnyExpand 1 (AnyRename i re err))
  | XRegex => Some (AnyExpand 2 (AnyRegex err))
  | _ => None
  end.
(** [Display] of all these: src/parse.rs:560, src/expand/mod.rs:137-176. *)
Fixpoint message (e : any_error) : str :=
  match e with
  | AnyExpand n x => match n with O => s_ "Parsing failed: " | S O => s_ "Failed to expand regex: " | _ => s_ "Regex creation failed: " end ++ message x
  | AnyParse x => display_parsing x
  | AnyNotFound i => display_param [] (NotFound i)
  | AnyRename i re err => display_param err (RenameRegexGroup i re)
  | AnyRegex err => err
  | AnyInput i => frag i
  end.
(** The variant of an error, with its input: src/parse.rs:561-697. *)
Definition variant_of (e : error span) : str * option span :=
  match e with
  | NestedParameter i => (s_ "NestedParameter", Some i) | OptionalInParameter i => (s_ "OptionalInParameter", Some i)
  | UnfinishedParameter i => (s_ "UnfinishedParameter", Some i) | NestedOptional i => (s_ "NestedOptional", Some i)
  | ParameterInOptional i => (s_ "ParameterInOptional", Some i) | EmptyOptional i => (s_ "EmptyOptional", Some i)
  | AlternationInOptional i => (s_ "AlternationInOptional", Some i) | UnfinishedOptional i => (s_ "UnfinishedOptional", Some i)
  | EmptyAlternation i => (s_ "EmptyAlternation", Some i) | OnlyOptionalInAlternation i => (s_ "OnlyOptionalInAlternation", Some i)
  | UnescapedReservedCharacter i => (s_ "UnescapedReservedCharacter", Some i)
  | EscapedNonReservedCharacter i => (s_ "EscapedNonReservedCharacter", Some i)
  | EscapedEndOfLine i => (s_ "EscapedEndOfLine", Some i) | Other i _ => (s_ "Other", Some i) | ENeeded => (s_ "Needed", None)
  end.
(** The source of the variant [name] of the type [vs], if it has one: [x], as derived at src/parse.rs:560, src/expand/mod.rs:137,153. *)
Definition source_in (vs : list variant) (name : str) (x : option any_error) : option any_error :=
  match find (fun v => str_eqb (vr_name v) name) vs with
  | Some v => match source_field v with Some _ => x | None => None end
  | None => None
  end.
(** [Error::source] as derived at src/parse.rs:560, src/expand/mod.rs:137,153: the field that [source_field] names. Simplified: a source of
    [RenameRegexGroup] would be its first field; a [regex::Error] has no source, and an [Input] that is an [Error] none either. *)
Definition source_of (e : any_error) : option any_error :=
  match e with
  | AnyExpand n x => source_in expand_error_type (match n with O => s_ "Parsing" | S O => s_ "Expansion" | _ => s_ "Regex" end) (Some x)
  | AnyParse x => source_in parse_error_type (fst (variant_of x)) (option_map AnyInput (snd (variant_of x)))
  | AnyNotFound i => source_in param_error_type (s_ "NotFound") (Some (AnyInput i))
  | AnyRename i _ _ => source_in param_error_type (s_ "RenameRegexGroup") (Some (AnyInput i))
  | AnyRegex _ => None
  | AnyInput _ => None
  end.
(** The errors found by following [source], as at src/expand/mod.rs:137,153. *)
Fixpoint chain (n : nat) (e : any_error) : list any_error :=
  match n with
  | O => []
  | S n' => e :: match source_of e with Some x => chain n' x | None => [] end
  end.
