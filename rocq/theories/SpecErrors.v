(** Specification of the parser's errors: which string is rejected with which error, and where.
    Independent of the parser's model: only the error type, strings and [SpecAst] are used. *)
From Verif Require Export SpecAst Nom.

(** Errors whose spans are (everything before, the text), and errors located in a real input. *)
Definition map_error {I J} (f : I -> J) (e : error I) : error J :=
  match e with
  | NestedParameter i => NestedParameter (f i)
  | OptionalInParameter i => OptionalInParameter (f i)
  | UnfinishedParameter i => UnfinishedParameter (f i)
  | NestedOptional i => NestedOptional (f i)
  | ParameterInOptional i => ParameterInOptional (f i)
  | EmptyOptional i => EmptyOptional (f i)
  | AlternationInOptional i => AlternationInOptional (f i)
  | UnfinishedOptional i => UnfinishedOptional (f i)
  | EmptyAlternation i => EmptyAlternation (f i)
  | OnlyOptionalInAlternation i => OnlyOptionalInAlternation (f i)
  | UnescapedReservedCharacter i => UnescapedReservedCharacter (f i)
  | EscapedNonReservedCharacter i => EscapedNonReservedCharacter (f i)
  | EscapedEndOfLine i => EscapedEndOfLine (f i)
  | Other i k => Other (f i) k
  | ENeeded => ENeeded
  end.
(** The same error in a text that has [p] in front. *)
Definition after (p : str) : error text_at -> error text_at :=
  map_error (fun x => (p ++ fst x, snd x)).
Definition locate_error (o l : N) : error text_at -> error span := map_error (span_at o l).

(** A text (of plain characters outside [special] and of escapes) that is broken by a backslash.
    [broken_text_eol] is how the code behaves, not how it is documented: a trailing backslash after
    some text is reported as an escaped non-reserved character, at the start of the text. *)
Inductive broken_text (special : str) : str -> error text_at -> Prop :=
| broken_lone_backslash :
    broken_text special [backslash] (EscapedEndOfLine ([], [backslash]))
| broken_text_eol t :
    t <> [] -> content special t ->
    broken_text special (t ++ [backslash])
      (EscapedNonReservedCharacter ([], firstn 2 (t ++ [backslash])))
| broken_escape t c r :
    content special t -> ~ In c reserved ->
    broken_text special (t ++ [backslash; c] ++ r)
      (EscapedNonReservedCharacter (t, [backslash; c])).

(** A parameter followed by something. *)
Definition has_parameter (s n r : str) : Prop :=
  s = s_ "{" ++ n ++ s_ "}" ++ r /\ content name_special n.
Definition has_optional (s n r : str) : Prop :=
  s = s_ "(" ++ n ++ s_ ")" ++ r /\ n <> [] /\ content optional_special n.
(** [r] completes an outer parameter (optional). *)
Definition completes_parameter (r : str) : Prop :=
  exists t r', r = t ++ s_ "}" ++ r' /\ content name_special t.
Definition completes_optional (r : str) : Prop :=
  exists t r', r = t ++ s_ ")" ++ r' /\ content optional_special t.

(** Inputs that start with ["{"] and are not a parameter. *)
Inductive parameter_error : str -> error text_at -> Prop :=
| par_broken s e :
    broken_text name_special s e -> parameter_error (s_ "{" ++ s) (after (s_ "{") e)
| par_unfinished t :
    content name_special t ->
    parameter_error (s_ "{" ++ t) (UnfinishedParameter ([], s_ "{"))
| par_nested t s n r :
    content name_special t -> has_parameter s n r -> completes_parameter r ->
    parameter_error (s_ "{" ++ t ++ s) (NestedParameter (s_ "{" ++ t, s_ "{" ++ n ++ s_ "}"))
| par_optional t s n r :
    content name_special t -> has_optional s n r ->
    parameter_error (s_ "{" ++ t ++ s) (OptionalInParameter (s_ "{" ++ t, s_ "(" ++ n ++ s_ ")"))
| par_brace t r0 :
    content name_special t ->
    (forall n r, has_parameter (s_ "{" ++ r0) n r -> ~ completes_parameter r) ->
    parameter_error (s_ "{" ++ t ++ s_ "{" ++ r0)
      (UnescapedReservedCharacter (s_ "{" ++ t, s_ "{"))
| par_paren t r0 :
    content name_special t ->
    (forall n r, ~ has_optional (s_ "(" ++ r0) n r) ->
    parameter_error (s_ "{" ++ t ++ s_ "(" ++ r0)
      (UnescapedReservedCharacter (s_ "{" ++ t, s_ "("))
| par_slash t r :
    content name_special t ->
    parameter_error (s_ "{" ++ t ++ s_ "/" ++ r) (UnescapedReservedCharacter (s_ "{" ++ t, s_ "/")).

(** Inputs that start with ["("] and are not an optional. *)
Inductive optional_error : str -> error text_at -> Prop :=
| opt_broken s e :
    broken_text optional_special s e -> optional_error (s_ "(" ++ s) (after (s_ "(") e)
| opt_unfinished t :
    content optional_special t ->
    optional_error (s_ "(" ++ t) (UnfinishedOptional ([], s_ "("))
| opt_empty r :
    optional_error (s_ "()" ++ r) (EmptyOptional ([], s_ "()"))
| opt_nested t s n r :
    content optional_special t -> has_optional s n r -> completes_optional r ->
    optional_error (s_ "(" ++ t ++ s) (NestedOptional (s_ "(" ++ t, s_ "(" ++ n ++ s_ ")"))
| opt_parameter t s n r :
    content optional_special t -> has_parameter s n r ->
    optional_error (s_ "(" ++ t ++ s) (ParameterInOptional (s_ "(" ++ t, s_ "{" ++ n ++ s_ "}"))
| opt_slash t r :
    content optional_special t ->
    optional_error (s_ "(" ++ t ++ s_ "/" ++ r) (AlternationInOptional (s_ "(" ++ t, s_ "/"))
| opt_paren t r0 :
    content optional_special t ->
    (forall n r, has_optional (s_ "(" ++ r0) n r -> ~ completes_optional r) ->
    optional_error (s_ "(" ++ t ++ s_ "(" ++ r0)
      (UnescapedReservedCharacter (s_ "(" ++ t, s_ "("))
| opt_brace t r0 :
    content optional_special t ->
    (forall n r, ~ has_parameter (s_ "{" ++ r0) n r) ->
    optional_error (s_ "(" ++ t ++ s_ "{" ++ r0)
      (UnescapedReservedCharacter (s_ "(" ++ t, s_ "{")).

(** A text or an optional that is broken. *)
Definition item_error (s : str) (e : error text_at) : Prop :=
  optional_error s e \/ broken_text text_special s e.

(** A sequence of texts and optionals, texts being maximal. *)
Definition items (b : single_alternation str) : Prop :=
  Forall wf_alternative b /\
  (forall l x y r, b = l ++ x :: y :: r -> ~ (is_text x /\ is_text y)).
Definition ends_in_text (b : single_alternation str) : Prop :=
  exists l x, b = l ++ [x] /\ is_text x.
Definition starts_with_in (cs : str) (s : str) : Prop := exists c r, s = c :: r /\ In c cs.
(** The source of branches that are all followed by a slash. *)
Definition slashed (a : alternation str) : str :=
  List.concat (map (fun b => src_branch b ++ s_ "/") a).
Definition branch (b : single_alternation str) : Prop := b <> [] /\ items b.

(** Inputs that are neither an alternation nor a single branch. *)
Inductive alternation_error : str -> error text_at -> Prop :=
| alt_broken a b s e :
    Forall branch a -> items b -> (ends_in_text b -> starts_with_in (s_ "(") s) ->
    item_error s e ->
    alternation_error (slashed a ++ src_branch b ++ s) (after (slashed a ++ src_branch b) e)
| alt_leading_slash r :
    alternation_error (s_ "/" ++ r) (EmptyAlternation ([], s_ "/"))
| alt_dangling_slash a b r :
    Forall branch a -> branch b -> (r = [] \/ starts_with_in (s_ " {/") r) ->
    alternation_error (slashed a ++ src_branch b ++ s_ "/" ++ r)
      (EmptyAlternation (slashed a ++ src_branch b, s_ "/"))
| alt_only_optional a r :
    (2 <= List.length a)%nat -> Forall branch a -> (r = [] \/ starts_with_in (s_ " {") r) ->
    Exists (fun b => ~ Exists is_text b) a ->
    alternation_error (join (s_ "/") (map src_branch a) ++ r)
      (OnlyOptionalInAlternation ([], join (s_ "/") (map src_branch a))).

Definition single_error (s : str) (e : error text_at) : Prop :=
  parameter_error s e \/ alternation_error s e.

(** Rejected expressions: nodes, then something broken. Text, optionals and alternations are not
    separated from a broken alternation: it takes them in. *)
Inductive expression_error : str -> error text_at -> Prop :=
| expression_broken x s e :
    Forall wf_single x ->
    (forall l y z r, x = l ++ y :: z :: r -> may_follow y z) ->
    (forall l y, x = l ++ [y] ->
       match y with
       | ExParameter _ | ExWhitespaces _ => True
       | _ => starts_with_in (s_ "{") s
       end) ->
    single_error s e ->
    expression_error (source x ++ s) (after (source x) e).
