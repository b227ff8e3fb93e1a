(** Model of src/parse.rs (the parsers) and of [TryFrom<&str> for Expression] (src/ast.rs:36-62). *)
From Verif Require Export Combinator Ast.

(** src/parse.rs:38-39 [RESERVED_CHARS]. *)
Definition reserved_chars : str := s_ "{}()\/ ".

(** [Error::X(inp.take(n)).failure()] (src/parse.rs:699-707 for [failure]). As at src/parse.rs:164-170. *)
Definition fail_take (e : span -> error span) (inp : span) (n : N) : bad :=
  match take inp n with
  | Some s => BFailure (e s)
  | None => BPanic
  end.

(** src/parse.rs:71-87: the closure given to [map_err] in [escaped_reserved_chars0]. *)
Definition escaped_error (e : bad) : bad :=
  match e with
  | BError (Other sp KEscaped) =>
      let n := input_len sp in
      if n =? 1 then BFailure (EscapedEndOfLine sp)
      else if 1 <? n then
        (* take(slice_index(2).unwrap_or_default()) *)
        fail_take EscapedNonReservedCharacter sp
          (match slice_index sp 2 with Some k => k | None => 0 end)
      else BFailure (EscapedNonReservedCharacter sp)
  | _ => e
  end.

(** src/parse.rs:61-88 [escaped_reserved_chars0]. *)
Definition escaped_reserved_chars0 (normal : parser span) : parser span :=
  map_err (escaped0 normal (c_ "\") (one_of reserved_chars)) escaped_error.

(** src/parse.rs:148-150 [is_name]. *)
Definition is_name (c : char) : bool := negb (contains (s_ "{}(\/") c).
(** src/parse.rs:257-259 [is_in_optional]. *)
Definition is_in_optional (c : char) : bool := negb (contains (s_ "(){\/") c).
(** src/parse.rs:356-358 and 497-499 [is_without_whitespace]. *)
Definition is_without_whitespace (c : char) : bool := negb (contains (s_ " ({\/") c).
(** src/parse.rs:500-502 [is_whitespace]. *)
Definition is_whitespace (c : char) : bool := c =? c_ " ".

(** [if let Ok((_, a)) = p { return k a } ...]: panics and fuel exhaustion of the speculative parser [r]
    propagate. src/parse.rs:155-170,173-180,264-278,282-291. *)
Definition if_ok {A} (r : result A) (yes : A -> bad) (no : bad) : bad :=
  match r with
  | Ok _ a => yes a
  | Bad BPanic => BPanic
  | Bad BFuel => BFuel
  | Bad _ => no
  end.

(** src/parse.rs:138-200 [parameter] and src/parse.rs:250-318 [optional]. They call each other for
    error reporting; [depth] bounds the depth of these calls. [parameter] also returns the new
    value of [*indexer]. *)
Fixpoint parameter_d (depth : nat) (input : span) (indexer : N) {struct depth}
  : result (parameter span) * N :=
  match depth with
  | O => (Bad BFuel, indexer)
  | S depth' =>
      (* lines 152-189 *)
      let fail (inp opening_brace : span) : bad :=
        match iter_elements inp with
        | c :: _ =>
            if c =? c_ "{" then
              if_ok
                (bind (fst (parameter_d depth' inp 0)) (fun i1 par =>
                 bind (escaped_reserved_chars0 (take_while is_name) i1) (fun i2 _ =>
                 bind (tag (s_ "}") i2) (fun i3 _ => Ok i3 par))))
                (fun par => fail_take NestedParameter inp (input_len (par_input par) + 2))
                (fail_take UnescapedReservedCharacter inp 1)
            else if c =? c_ "(" then
              if_ok (peek (optional_d depth') inp)
                (fun opt => fail_take OptionalInParameter inp (input_len (opt_input opt) + 2))
                (fail_take UnescapedReservedCharacter inp 1)
            else if contains reserved_chars c then
              fail_take UnescapedReservedCharacter inp 1
            else BFailure (UnfinishedParameter opening_brace)
        | [] => BFailure (UnfinishedParameter opening_brace)
        end in
      match tag (s_ "{") input with
      | Bad b => (Bad b, indexer)
      | Ok input1 opening_brace =>
          match escaped_reserved_chars0 (take_while is_name) input1 with
          | Bad b => (Bad b, indexer)
          | Ok input2 par_name =>
              match map_err (tag (s_ "}")) (fun _ => fail input2 opening_brace) input2 with
              | Bad b => (Bad b, indexer)
              | Ok input3 _ =>
                  if usize_max <? indexer + 1 then (Bad BPanic, indexer)
                  else (Ok input3 (mkParameter par_name (indexer + 1 - 1)), indexer + 1)
              end
          end
      end
  end
with optional_d (depth : nat) (input : span) {struct depth} : result (optional span) :=
  match depth with
  | O => Bad BFuel
  | S depth' =>
      (* lines 261-303 *)
      let fail (inp opening_brace : span) : bad :=
        match iter_elements inp with
        | c :: _ =>
            if c =? c_ "(" then
              if_ok
                (bind (optional_d depth' inp) (fun i1 opt =>
                 bind (escaped_reserved_chars0 (take_while is_in_optional) i1) (fun i2 _ =>
                 bind (tag (s_ ")") i2) (fun i3 _ => Ok i3 opt))))
                (fun opt => fail_take NestedOptional inp (input_len (opt_input opt) + 2))
                (fail_take UnescapedReservedCharacter inp 1)
            else if c =? c_ "{" then
              if_ok (peek (fun i => fst (parameter_d depth' i 0)) inp)
                (fun par => fail_take ParameterInOptional inp (input_len (par_input par) + 2))
                (fail_take UnescapedReservedCharacter inp 1)
            else if c =? c_ "/" then fail_take AlternationInOptional inp 1
            else if contains reserved_chars c then
              fail_take UnescapedReservedCharacter inp 1
            else BFailure (UnfinishedOptional opening_brace)
        | [] => BFailure (UnfinishedOptional opening_brace)
        end in
      match tag (s_ "(") input with
      | Bad b => Bad b
      | Ok input1 opening_paren =>
          match escaped_reserved_chars0 (take_while is_in_optional) input1 with
          | Bad b => Bad b
          | Ok input2 opt =>
              match map_err (tag (s_ ")")) (fun _ => fail input2 opening_paren) input2 with
              | Bad b => Bad b
              | Ok input3 _ =>
                  if input_len opt =? 0 then Bad (fail_take EmptyOptional input 2)
                  else Ok input3 (mkOptional opt)
              end
          end
      end
  end.

(** The public [parse::parameter] and [parse::optional]: the recursion never goes deeper than the number of
    characters (proved). src/parse.rs:138 and 250. *)
Definition parse_parameter (input : span) (indexer : N) : result (parameter span) * N :=
  parameter_d (S (List.length (frag input))) input indexer.
(** src/parse.rs:250 [optional]. *)
Definition parse_optional (input : span) : result (optional span) :=
  optional_d (S (List.length (frag input))) input.

(** src/parse.rs:349-371 [alternative]. *)
Definition parse_alternative : parser (alternative span) := fun input =>
  fst (alt [pure (map_parser parse_optional AltOptional);
            pure (map_parser
                    (verify (escaped_reserved_chars0 (take_while is_without_whitespace))
                       (fun p => 0 <? input_len p))
                    AltText)] input tt).

(** src/parse.rs:410-448 [alternation]. *)
Definition parse_alternation : parser (alternation span) := fun input =>
  let listed :=
    match separated_list1 (tag (s_ "/")) (many1 parse_alternative) input with
    | Ok rest alt =>
        match peek (tag (s_ "/")) rest with
        | Ok _ slash => Bad (BFailure (EmptyAlternation slash))
        | Bad BPanic => Bad BPanic
        | Bad BFuel => Bad BFuel
        | Bad _ =>
            if Nat.eqb (List.length alt) 1 then Bad (BError (Other rest KTag))
            else Ok rest alt
        end
    | Bad (BError (Other sp KMany1)) =>
        match peek (tag (s_ "/")) sp with
        | Ok _ _ => Bad (fail_take EmptyAlternation sp 1)
        | Bad BPanic => Bad BPanic
        | Bad BFuel => Bad BFuel
        | Bad _ => Bad (BError (Other sp KMany1))
        end
    | Bad e => Bad e
    end in
  match listed with
  | Bad b => Bad b
  | Ok rest alt =>
      if contains_only_optional alt then
        match span_len input_len alt with
        | None => Bad BPanic
        | Some n => Bad (fail_take OnlyOptionalInAlternation input n)
        end
      else Ok rest alt
  end.

(** src/parse.rs:487-518 [single_expression]. *)
Definition parse_single_expression (input : span) (indexer : N)
  : result (single_expression span) * N :=
  alt [pure (map_parser parse_alternation ExAlternation);
       pure (map_parser parse_optional ExOptional);
       (fun i ix =>
          match parse_parameter i ix with
          | (Ok r p, ix') => (Ok r (ExParameter p), ix')
          | (Bad b, ix') => (Bad b, ix')
          end);
       pure (map_parser
               (verify (escaped_reserved_chars0 (take_while is_without_whitespace))
                  (fun s => 0 <? input_len s))
               ExText);
       pure (map_parser (take_while1 is_whitespace) ExWhitespaces)]
      input indexer.

(** src/parse.rs:547-557 [expression]. *)
Definition parse_expression (input : span) : result (expression span) :=
  fst (many0 parse_single_expression input 0).

(** [Result<Expression<Spanned>, parse::Error<Spanned>>], or a panic, or no return. The result type of
    src/ast.rs:57-59. *)
Inductive returned (A E : Type) :=
| RetOk (a : A)
| RetErr (e : E)
| Panics
| Diverges.
Arguments RetOk {A E}. Arguments RetErr {A E}. Arguments Panics {A E}. Arguments Diverges {A E}.

(** src/ast.rs:36-49 [TryFrom::try_from] and src/ast.rs:57-61 [Expression::parse]. *)
Definition expression_parse (value : str) : returned (expression span) (error span) :=
  match parse_expression (span_new value) with
  | Bad (BError e) => RetErr e
  | Bad (BFailure e) => RetErr e
  | Bad BIncomplete => RetErr ENeeded
  | Bad BPanic => Panics
  | Bad BFuel => Diverges
  | Ok rest parsed =>
      if input_len rest =? 0 then RetOk parsed
      else RetErr (Other rest KVerify)
  end.
