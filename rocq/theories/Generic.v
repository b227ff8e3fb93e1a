(** The parsers of Parse.v once more, for any input type. In the crate all of them are generic:
    [I: Clone + Display + Offset + Input + Compare<&str>] (src/parse.rs:64-67, 142-146, 251-255, 350-354,
    411-415, 491-495, 548-552; src/combinator.rs:47-62); [Expression::parse] runs them on [Spanned]
    (src/ast.rs:36-49), callers may run them on [&str] as well, and fuzz/fuzz_targets/*.rs do.
    Definition by definition the text is that of Nom.v, Combinator.v and Parse.v with the operations of
    [nom::Input] and [nom::Offset] taken from a record; what is said there about simplifications holds
    here. *)
From Verif Require Export Parse.

(** The operations of [nom::Input] and [nom::Offset] in use; [None] is a panic (for [g_slice_index]:
    [Err(Needed)]). [Compare::compare] and [Input::position] go by the elements. The bounds of
    src/parse.rs:143. *)
Record input_ops (I : Type) := mkops {
  g_len : I -> N;
  g_take : I -> N -> option I;
  g_take_from : I -> N -> option I;
  g_take_split : I -> N -> option (I * I);
  g_slice_index : I -> nat -> option N;
  g_elements : I -> str;
  g_offset : I -> I -> option N
}.
Arguments mkops {I}. Arguments g_len {I}. Arguments g_take {I}. Arguments g_take_from {I}.
Arguments g_take_split {I}. Arguments g_slice_index {I}. Arguments g_elements {I}. Arguments g_offset {I}.

(** [LocatedSpan<&str>]: Span.v. src/ast.rs:26. *)
Definition span_ops : input_ops span :=
  mkops input_len take take_from take_split slice_index iter_elements offset.

(** [&str]: where it starts in memory, and its text. A caller may pass one to src/parse.rs:547, and
    fuzz/fuzz_targets/*.rs do. *)
Record slice := mkslice { ptr : N; chars_of : str }.
(** [Input for &str] and [Offset for &str] (nom 8.0, from memory): slicing, and the difference of the
    pointers; a negative difference overflows. Called at src/parse.rs:78. *)
Definition slice_take (i : slice) (n : N) : option slice :=
  match take_bytes n (chars_of i) with
  | Some p => Some (mkslice (ptr i) p)
  | None => None
  end.
(** [Input::take_from] of a [&str], src/combinator.rs:69,95. *)
Definition slice_take_from (i : slice) (n : N) : option slice :=
  match drop_bytes n (chars_of i) with
  | Some q => Some (mkslice (ptr i + n) q)
  | None => None
  end.
(** [split_at], swapped. Called at src/combinator.rs:117. *)
Definition slice_take_split (i : slice) (n : N) : option (slice * slice) :=
  match take_bytes n (chars_of i), drop_bytes n (chars_of i) with
  | Some p, Some q => Some (mkslice (ptr i + n) q, mkslice (ptr i) p)
  | _, _ => None
  end.
(** [Offset::offset] of two [&str], src/combinator.rs:116. *)
Definition slice_offset (a b : slice) : option N :=
  if ptr b <? ptr a then None else Some (ptr b - ptr a).
(** The operations on [&str] that src/parse.rs:143 asks for. *)
Definition slice_ops : input_ops slice :=
  mkops (fun i => blen (chars_of i)) slice_take slice_take_from slice_take_split
        (fun i n => slice_index_str (chars_of i) n) chars_of slice_offset.

(** What is not [Ok] (see [bad] of Nom.v), and [IResult<I, A, Error<I>>]. [nom::Err], src/parse.rs:21. *)
Inductive gbad (I : Type) :=
| GError (e : error I)
| GFailure (e : error I)
| GIncomplete
| GPanic
| GFuel.
Arguments GError {I}. Arguments GFailure {I}. Arguments GIncomplete {I}. Arguments GPanic {I}. Arguments GFuel {I}.
(** [IResult], src/parse.rs:141. *)
Inductive gresult (I A : Type) :=
| GOk (rest : I) (out : A)
| GBad (b : gbad I).
Arguments GOk {I A}. Arguments GBad {I A}.

Section Generic.
  Context {I : Type} (ops : input_ops I).
  Notation bad_in := (gbad I).
  Notation result_in := (gresult I).

  (** src/parse.rs:709-712 [ParseError::from_error_kind]. *)
  Definition from_error_kind_in (i : I) (k : error_kind) : error I := Other i k.
  (** src/parse.rs:714-720 [ParseError::append]. *)
  Definition append_in (i : I) (k : error_kind) (other : error I) : error I :=
    match other with
    | Other _ _ => from_error_kind_in i k
    | _ => other
    end.
  (** [ParseError::or] (default method of nom): keeps the later error. Not overridden at src/parse.rs:709-721.
      *)
  Definition or_error_in (e other : error I) : error I := other.

  (** [Parser] as imported at src/parse.rs:21; simplified: a function, no associated types. *)
  Definition parser_in (A : Type) := I -> result_in A.

  (** [take_split] as the body of a parser: (rest, output). Used by the parsers of src/parse.rs:23-24. *)
  Definition split_result_in (i : I) (n : N) : result_in I :=
    match g_take_split ops i n with
    | Some (suffix, prefix) => GOk suffix prefix
    | None => GBad GPanic
    end.

  (** [nom::bytes::complete::tag]. Called at src/parse.rs:160,191,194,267,306,309,418,423,433. *)
  Definition tag_in (t : str) : parser_in I := fun i =>
    if starts_with t (g_elements ops i) then split_result_in i (blen t)
    else GBad (GError (from_error_kind_in i KTag)).

  (** [nom::character::complete::one_of]. Called at src/parse.rs:72. *)
  Definition one_of_in (list : str) : parser_in char := fun i =>
    match g_elements ops i with
    | c :: _ =>
        if contains list c then
          match g_take_from ops i (len_utf8 c) with
          | Some r => GOk r c
          | None => GBad GPanic
          end
        else GBad (GError (from_error_kind_in i KOneOf))
    | [] => GBad (GError (from_error_kind_in i KOneOf))
    end.

  (** [nom::bytes::complete::take_while]. Called at src/parse.rs:159,193,266,308,364,510. *)
  Definition take_while_in (cond : char -> bool) : parser_in I := fun i =>
    match find_bytes (fun c => negb (cond c)) (g_elements ops i) with
    | Some n => split_result_in i n
    | None => split_result_in i (g_len ops i)
    end.

  (** [nom::bytes::complete::take_while1]. Called at src/parse.rs:515. *)
  Definition take_while1_in (cond : char -> bool) : parser_in I := fun i =>
    match find_bytes (fun c => negb (cond c)) (g_elements ops i) with
    | Some n => if n =? 0 then GBad (GError (from_error_kind_in i KTakeWhile1)) else split_result_in i n
    | None =>
        if g_len ops i =? 0 then GBad (GError (from_error_kind_in i KTakeWhile1))
        else split_result_in i (g_len ops i)
    end.

  (** [nom::combinator::map]. Called at src/parse.rs:361-362,505-515,555. *)
  Definition map_parser_in {A B} (p : parser_in A) (f : A -> B) : parser_in B := fun i =>
    match p i with
    | GOk r a => GOk r (f a)
    | GBad b => GBad b
    end.

  (** [nom::combinator::verify]. Called at src/parse.rs:363,509. *)
  Definition verify_in {A} (p : parser_in A) (ok : A -> bool) : parser_in A := fun i =>
    match p i with
    | GOk r a => if ok a then GOk r a else GBad (GError (from_error_kind_in i KVerify))
    | GBad b => GBad b
    end.

  (** [nom::combinator::peek]. Called at src/parse.rs:155,173,264,283,423,433. *)
  Definition peek_in {A} (p : parser_in A) : parser_in A := fun i =>
    match p i with
    | GOk _ a => GOk i a
    | GBad b => GBad b
    end.

  (** Sequencing (nom's tuple parsers; Rust's [?]). As at src/parse.rs:155-161,191-196,264-268,306-311. *)
  Definition bind_in {A B} (r : result_in A) (k : I -> A -> result_in B) : result_in B :=
    match r with
    | GOk i a => k i a
    | GBad b => GBad b
    end.

  (** [nom::branch::alt] over a tuple of parsers, threading the state [S] that the closures capture by [&mut].
      [last] is the error of the previous branch. Called at src/parse.rs:360,504. *)
  Fixpoint alt_from_in {S A} (ps : list (I -> S -> result_in A * S)) (last : error I)
      (i : I) (st : S) : result_in A * S :=
    match ps with
    | [] => (GBad (GError (append_in i KAlt last)), st)
    | p :: ps' =>
        match p i st with
        | (GBad (GError e), st') => alt_from_in ps' (or_error_in last e) i st'
        | r => r
        end
    end.
  (** [nom::branch::alt] at its first branch, src/parse.rs:360,504. *)
  Definition alt_in {S A} (ps : list (I -> S -> result_in A * S)) (i : I) (st : S) :=
    match ps with
    | [] => (GBad GPanic, st)      (* not expressible in nom *)
    | p :: ps' =>
        match p i st with
        | (GBad (GError e), st') => alt_from_in ps' e i st'
        | r => r
        end
    end.
  (** A parser that does not touch the state. All but the one at src/parse.rs:507. *)
  Definition pure_in {S A} (p : parser_in A) : I -> S -> result_in A * S := fun i st => (p i, st).

  (** [nom::multi::many0], threading the state of the closure. The fuel bounds the iterations. Called at
      src/parse.rs:555. *)
  Fixpoint many0_loop_in {S A} (fuel : nat) (p : I -> S -> result_in A * S) (acc : list A)
      (i : I) (st : S) : result_in (list A) * S :=
    match fuel with
    | O => (GBad GFuel, st)
    | Datatypes.S fuel' =>
        match p i st with
        | (GBad (GError _), st') => (GOk i (rev acc), st')
        | (GBad b, st') => (GBad b, st')
        | (GOk i1 o, st') =>
            if g_len ops i1 =? g_len ops i then (GBad (GError (from_error_kind_in i KMany0)), st')
            else many0_loop_in fuel' p (o :: acc) i1 st'
        end
    end.
  (** [nom::multi::many0], src/parse.rs:555; an item more than there are chars cannot be read. *)
  Definition many0_in {S A} (p : I -> S -> result_in A * S) (i : I) (st : S) :=
    many0_loop_in (Datatypes.S (List.length (g_elements ops i))) p [] i st.

  (** [nom::multi::many1]. Called at src/parse.rs:418. *)
  Fixpoint many1_loop_in {A} (fuel : nat) (p : parser_in A) (acc : list A) (i : I) : result_in (list A) :=
    match fuel with
    | O => GBad GFuel
    | S fuel' =>
        match p i with
        | GBad (GError _) => GOk i (rev acc)
        | GBad b => GBad b
        | GOk i1 o =>
            if g_len ops i1 =? g_len ops i then GBad (GError (from_error_kind_in i KMany1))
            else many1_loop_in fuel' p (o :: acc) i1
        end
    end.
  (** [nom::multi::many1], src/parse.rs:418: the first item, then the loop. *)
  Definition many1_in {A} (p : parser_in A) : parser_in (list A) := fun i =>
    match p i with
    | GBad (GError e) => GBad (GError (append_in i KMany1 e))
    | GBad b => GBad b
    | GOk i1 o => many1_loop_in (S (List.length (g_elements ops i1))) p [o] i1
    end.

  (** [nom::multi::separated_list1]. Called at src/parse.rs:418. *)
  Fixpoint separated_list1_loop_in {A B} (fuel : nat) (sep : parser_in B) (p : parser_in A) (acc : list A)
      (i : I) : result_in (list A) :=
    match fuel with
    | O => GBad GFuel
    | S fuel' =>
        match sep i with
        | GBad (GError _) => GOk i (rev acc)
        | GBad b => GBad b
        | GOk i1 _ =>
            match p i1 with
            | GBad (GError _) => GOk i (rev acc)
            | GBad b => GBad b
            | GOk i2 o =>
                if g_len ops i2 =? g_len ops i
                then GBad (GError (from_error_kind_in i KSeparatedList))
                else separated_list1_loop_in fuel' sep p (o :: acc) i2
            end
        end
    end.
  (** [nom::multi::separated_list1], src/parse.rs:418: the first item, then the loop. *)
  Definition separated_list1_in {A B} (sep : parser_in B) (p : parser_in A) : parser_in (list A) := fun i =>
    match p i with
    | GBad b => GBad b
    | GOk i1 o => separated_list1_loop_in (S (List.length (g_elements ops i1))) sep p [o] i1
    end.

  (** src/combinator.rs:18-35 [map_err]: applies [map] to the error. Panics and exhausted fuel are
      not errors and pass through. *)
  Definition map_err_in {A} (p : parser_in A) (map : bad_in -> bad_in) : parser_in A := fun i =>
    match p i with
    | GOk r a => GOk r a
    | GBad GPanic => GBad GPanic
    | GBad GFuel => GBad GFuel
    | GBad b => GBad (map b)
    end.

  (** [Ok((input.take_from(input.input_len()), input))], src/combinator.rs:69,98-101,126. *)
  Definition whole_in (input : I) : result_in I :=
    match g_take_from ops input (g_len ops input) with
    | Some r => GOk r input
    | None => GBad GPanic
    end.

  (** src/combinator.rs:47-128 [escaped0]: the [while] loop, on fuel. *)
  Fixpoint escaped0_loop_in {A B} (fuel : nat) (normal : parser_in A) (control_char : char)
      (escapable : parser_in B) (input i : I) (consumed_nothing : bool) : result_in I :=
    if g_len ops i =? 0 then whole_in input
    else match fuel with
    | O => GBad GFuel
    | S fuel' =>
        (* lines 76-119: the arm for (Ok, true) | (Err(Error), _) *)
        let escape :=
          match g_elements ops i with
          | [] => GBad (GError (from_error_kind_in i KEscaped))
          | next_char :: _ =>
              if next_char =? control_char then
                let next := len_utf8 control_char in
                if g_len ops i <=? next then GBad (GError (from_error_kind_in input KEscaped))
                else match g_take_from ops i next with
                     | None => GBad GPanic
                     | Some i' =>
                         match escapable i' with
                         | GOk i2 _ =>
                             if g_len ops i2 =? 0 then whole_in input
                             else escaped0_loop_in fuel' normal control_char escapable input i2 false
                         | GBad GPanic => GBad GPanic
                         | GBad GFuel => GBad GFuel
                         | GBad _ => GBad (GError (from_error_kind_in i KEscaped))
                         end
                     end
              else
                match g_offset ops input i with
                | None => GBad GPanic
                | Some index => split_result_in input index
                end
          end in
        match normal i, consumed_nothing with
        | GOk i2 _, false =>
            if g_len ops i2 =? 0 then whole_in input
            else escaped0_loop_in fuel' normal control_char escapable input i2
                   (g_len ops i2 =? g_len ops i)
        | GOk _ _, true => escape
        | GBad (GError _), _ => escape
        | GBad b, _ => GBad b
        end
    end.
  (** The loop either shortens [i] or sets [consumed_nothing], hence twice the length.
      src/combinator.rs:47-128. *)
  Definition escaped0_in {A B} (normal : parser_in A) (control_char : char) (escapable : parser_in B)
    : parser_in I := fun input =>
    escaped0_loop_in (2 * List.length (g_elements ops input))%nat normal control_char escapable input input false.

  (** [Error::X(inp.take(n)).failure()] (src/parse.rs:699-707 for [failure]). As at src/parse.rs:164-170. *)
  Definition fail_take_in (e : I -> error I) (inp : I) (n : N) : bad_in :=
    match g_take ops inp n with
    | Some s => GFailure (e s)
    | None => GPanic
    end.

  (** src/parse.rs:71-87: the closure given to [map_err] in [escaped_reserved_chars0]. *)
  Definition escaped_error_in (e : bad_in) : bad_in :=
    match e with
    | GError (Other sp KEscaped) =>
        let n := g_len ops sp in
        if n =? 1 then GFailure (EscapedEndOfLine sp)
        else if 1 <? n then
          (* take(slice_index(2).unwrap_or_default()) *)
          fail_take_in EscapedNonReservedCharacter sp
            (match g_slice_index ops sp 2 with Some k => k | None => 0 end)
        else GFailure (EscapedNonReservedCharacter sp)
    | _ => e
    end.

  (** src/parse.rs:61-88 [escaped_reserved_chars0]. *)
  Definition escaped_reserved_chars0_in (normal : parser_in I) : parser_in I :=
    map_err_in (escaped0_in normal (c_ "\") (one_of_in reserved_chars)) escaped_error_in.

  (** [if let Ok((_, a)) = p { return k a } ...]: panics and fuel exhaustion of the speculative parser [r]
      propagate. src/parse.rs:155-170,173-180,264-278,282-291. *)
  Definition if_ok_in {A} (r : result_in A) (yes : A -> bad_in) (no : bad_in) : bad_in :=
    match r with
    | GOk _ a => yes a
    | GBad GPanic => GPanic
    | GBad GFuel => GFuel
    | GBad _ => no
    end.

  (** src/parse.rs:138-200 [parameter] and src/parse.rs:250-318 [optional]. They call each other for
      error reporting; [depth] bounds the depth of these calls. [parameter] also returns the new
      value of [*indexer]. *)
  Fixpoint parameter_d_in (depth : nat) (input : I) (indexer : N) {struct depth}
    : result_in (parameter I) * N :=
    match depth with
    | O => (GBad GFuel, indexer)
    | S depth' =>
        (* lines 152-189 *)
        let fail (inp opening_brace : I) : bad_in :=
          match g_elements ops inp with
          | c :: _ =>
              if c =? c_ "{" then
                if_ok_in
                  (bind_in (fst (parameter_d_in depth' inp 0)) (fun i1 par =>
                   bind_in (escaped_reserved_chars0_in (take_while_in is_name) i1) (fun i2 _ =>
                   bind_in (tag_in (s_ "}") i2) (fun i3 _ => GOk i3 par))))
                  (fun par => fail_take_in NestedParameter inp (g_len ops (par_input par) + 2))
                  (fail_take_in UnescapedReservedCharacter inp 1)
              else if c =? c_ "(" then
                if_ok_in (peek_in (optional_d_in depth') inp)
                  (fun opt => fail_take_in OptionalInParameter inp (g_len ops (opt_input opt) + 2))
                  (fail_take_in UnescapedReservedCharacter inp 1)
              else if contains reserved_chars c then
                fail_take_in UnescapedReservedCharacter inp 1
              else GFailure (UnfinishedParameter opening_brace)
          | [] => GFailure (UnfinishedParameter opening_brace)
          end in
        match tag_in (s_ "{") input with
        | GBad b => (GBad b, indexer)
        | GOk input1 opening_brace =>
            match escaped_reserved_chars0_in (take_while_in is_name) input1 with
            | GBad b => (GBad b, indexer)
            | GOk input2 par_name =>
                match map_err_in (tag_in (s_ "}")) (fun _ => fail input2 opening_brace) input2 with
                | GBad b => (GBad b, indexer)
                | GOk input3 _ =>
                    if usize_max <? indexer + 1 then (GBad GPanic, indexer)
                    else (GOk input3 (mkParameter par_name (indexer + 1 - 1)), indexer + 1)
                end
            end
        end
    end
  with optional_d_in (depth : nat) (input : I) {struct depth} : result_in (optional I) :=
    match depth with
    | O => GBad GFuel
    | S depth' =>
        (* lines 261-303 *)
        let fail (inp opening_brace : I) : bad_in :=
          match g_elements ops inp with
          | c :: _ =>
              if c =? c_ "(" then
                if_ok_in
                  (bind_in (optional_d_in depth' inp) (fun i1 opt =>
                   bind_in (escaped_reserved_chars0_in (take_while_in is_in_optional) i1) (fun i2 _ =>
                   bind_in (tag_in (s_ ")") i2) (fun i3 _ => GOk i3 opt))))
                  (fun opt => fail_take_in NestedOptional inp (g_len ops (opt_input opt) + 2))
                  (fail_take_in UnescapedReservedCharacter inp 1)
              else if c =? c_ "{" then
                if_ok_in (peek_in (fun i => fst (parameter_d_in depth' i 0)) inp)
                  (fun par => fail_take_in ParameterInOptional inp (g_len ops (par_input par) + 2))
                  (fail_take_in UnescapedReservedCharacter inp 1)
              else if c =? c_ "/" then fail_take_in AlternationInOptional inp 1
              else if contains reserved_chars c then
                fail_take_in UnescapedReservedCharacter inp 1
              else GFailure (UnfinishedOptional opening_brace)
          | [] => GFailure (UnfinishedOptional opening_brace)
          end in
        match tag_in (s_ "(") input with
        | GBad b => GBad b
        | GOk input1 opening_paren =>
            match escaped_reserved_chars0_in (take_while_in is_in_optional) input1 with
            | GBad b => GBad b
            | GOk input2 opt =>
                match map_err_in (tag_in (s_ ")")) (fun _ => fail input2 opening_paren) input2 with
                | GBad b => GBad b
                | GOk input3 _ =>
                    if g_len ops opt =? 0 then GBad (fail_take_in EmptyOptional input 2)
                    else GOk input3 (mkOptional opt)
                end
            end
        end
    end.

  (** The public [parse::parameter] and [parse::optional]: the recursion never goes deeper than the number of
      characters (proved). src/parse.rs:138 and 250. *)
  Definition parse_parameter_in (input : I) (indexer : N) : result_in (parameter I) * N :=
    parameter_d_in (S (List.length (g_elements ops input))) input indexer.
  (** src/parse.rs:250 [optional]. *)
  Definition parse_optional_in (input : I) : result_in (optional I) :=
    optional_d_in (S (List.length (g_elements ops input))) input.

  (** src/parse.rs:349-371 [alternative]. *)
  Definition parse_alternative_in : parser_in (alternative I) := fun input =>
    fst (alt_in [pure_in (map_parser_in parse_optional_in AltOptional);
              pure_in (map_parser_in
                      (verify_in (escaped_reserved_chars0_in (take_while_in is_without_whitespace))
                         (fun p => 0 <? g_len ops p))
                      AltText)] input tt).

  (** src/parse.rs:410-448 [alternation]. *)
  Definition parse_alternation_in : parser_in (alternation I) := fun input =>
    let listed :=
      match separated_list1_in (tag_in (s_ "/")) (many1_in parse_alternative_in) input with
      | GOk rest alts =>
          match peek_in (tag_in (s_ "/")) rest with
          | GOk _ slash => GBad (GFailure (EmptyAlternation slash))
          | GBad GPanic => GBad GPanic
          | GBad GFuel => GBad GFuel
          | GBad _ =>
              if Nat.eqb (List.length alts) 1 then GBad (GError (Other rest KTag))
              else GOk rest alts
          end
      | GBad (GError (Other sp KMany1)) =>
          match peek_in (tag_in (s_ "/")) sp with
          | GOk _ _ => GBad (fail_take_in EmptyAlternation sp 1)
          | GBad GPanic => GBad GPanic
          | GBad GFuel => GBad GFuel
          | GBad _ => GBad (GError (Other sp KMany1))
          end
      | GBad e => GBad e
      end in
    match listed with
    | GBad b => GBad b
    | GOk rest alts =>
        if contains_only_optional alts then
          match span_len (g_len ops) alts with
          | None => GBad GPanic
          | Some n => GBad (fail_take_in OnlyOptionalInAlternation input n)
          end
        else GOk rest alts
    end.

  (** src/parse.rs:487-518 [single_expression]. *)
  Definition parse_single_expression_in (input : I) (indexer : N)
    : result_in (single_expression I) * N :=
    alt_in [pure_in (map_parser_in parse_alternation_in ExAlternation);
         pure_in (map_parser_in parse_optional_in ExOptional);
         (fun i ix =>
            match parse_parameter_in i ix with
            | (GOk r p, ix') => (GOk r (ExParameter p), ix')
            | (GBad b, ix') => (GBad b, ix')
            end);
         pure_in (map_parser_in
                 (verify_in (escaped_reserved_chars0_in (take_while_in is_without_whitespace))
                    (fun s => 0 <? g_len ops s))
                 ExText);
         pure_in (map_parser_in (take_while1_in is_whitespace) ExWhitespaces)]
        input indexer.

  (** src/parse.rs:547-557 [expression]. *)
  Definition parse_expression_in (input : I) : result_in (expression I) :=
    fst (many0_in parse_single_expression_in input 0).
End Generic.
