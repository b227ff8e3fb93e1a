(** The parser with a step counter: every function of Nom.v, Combinator.v and Parse.v again, now
    returning its result together with the number of steps taken to find it. That the results are
    those of the uncounted functions is proved (C50_same), so the counts are counts of the modelled
    computation.

    What is a step (all of it a choice of the model; the crate has no notion of it): one for a call
    of a combinator or of a parser function, one for a round of a loop, one for each character a
    primitive looks at, and one for each character skipped by [take_from] and [take_split]
    (nom_locate scans it for newlines) or kept by [take]. Constant work inside a round (comparing
    lengths, looking a character up in a fixed list, pushing onto a vector) is not counted. *)
From Verif Require Export Parse.

(** A result and the steps it took. No counterpart in the code: of the parsers of src/parse.rs and
    src/combinator.rs:26-128. *)
Definition counted (A : Type) : Type := (A * nat)%type.
(** The steps; see src/parse.rs:138-557. *)
Definition steps_of {A} (x : counted A) : nat := snd x.
(** [n] more steps; see src/parse.rs:138-557. *)
Definition tick {A} (n : nat) (x : counted A) : counted A := (fst x, (n + snd x)%nat).
(** One after the other; see src/parse.rs:138-557. *)
Definition then_ {A B} (x : counted A) (k : A -> counted B) : counted B := tick (snd x) (k (fst x)).

(** Characters among the first [n] bytes. What [take_from] of src/ast.rs:26 goes through for the line number.
    *)
Definition chars (n : N) (s : str) : nat :=
  match take_bytes n s with Some p => List.length p | None => 0 end.
(** Characters [find] looks at before it stops. In [take_while], src/parse.rs:193. *)
Fixpoint looked_at (f : char -> bool) (s : str) : nat :=
  match s with
  | c :: s' => if f c then 1 else S (looked_at f s')
  | [] => 0
  end.

(** [take_split] within src/parse.rs:191,193. *)
Definition split_result_steps (i : span) (n : N) : counted (result span) :=
  (split_result i n, chars n (frag i)).

(** [nom::bytes::complete::tag]. Called at src/parse.rs:191. *)
Definition tag_steps (t : str) (i : span) : counted (result span) :=
  tick (S (List.length t))
    (if starts_with t (frag i) then split_result_steps i (blen t)
     else (Bad (BError (from_error_kind i KTag)), 0%nat)).

(** [nom::character::complete::one_of]. Called at src/parse.rs:72. *)
Definition one_of_steps (list : str) (i : span) : counted (result char) :=
  match iter_elements i with
  | c :: _ =>
      if contains list c then
        match take_from i (len_utf8 c) with
        | Some r => (Ok r c, 2 + chars (len_utf8 c) (frag i))%nat
        | None => (Bad BPanic, 2%nat)
        end
      else (Bad (BError (from_error_kind i KOneOf)), 2%nat)
  | [] => (Bad (BError (from_error_kind i KOneOf)), 1%nat)
  end.

(** [nom::bytes::complete::take_while]. Called at src/parse.rs:193. *)
Definition take_while_steps (cond : char -> bool) (i : span) : counted (result span) :=
  tick (S (looked_at (fun c => negb (cond c)) (frag i)))
    (match find_bytes (fun c => negb (cond c)) (frag i) with
     | Some n => split_result_steps i n
     | None => split_result_steps i (input_len i)
     end).

(** [nom::bytes::complete::take_while1]. Called at src/parse.rs:515. *)
Definition take_while1_steps (cond : char -> bool) (i : span) : counted (result span) :=
  tick (S (looked_at (fun c => negb (cond c)) (frag i)))
    (match find_bytes (fun c => negb (cond c)) (frag i) with
     | Some n =>
         if n =? 0 then (Bad (BError (from_error_kind i KTakeWhile1)), 0%nat)
         else split_result_steps i n
     | None =>
         if input_len i =? 0 then (Bad (BError (from_error_kind i KTakeWhile1)), 0%nat)
         else split_result_steps i (input_len i)
     end).

(** The parsers of src/parse.rs:138-557, counted. *)
Definition counted_parser (A : Type) := span -> counted (result A).

(** [nom::combinator::map]. Called at src/parse.rs:361,505. *)
Definition map_steps {A B} (p : counted_parser A) (f : A -> B) : counted_parser B := fun i =>
  tick 1 (then_ (p i) (fun r =>
    match r with
    | Ok r a => (Ok r (f a), 0%nat)
    | Bad b => (Bad b, 0%nat)
    end)).

(** [nom::combinator::verify]. Called at src/parse.rs:363,509. *)
Definition verify_steps {A} (p : counted_parser A) (ok : A -> bool) : counted_parser A := fun i =>
  tick 1 (then_ (p i) (fun r =>
    match r with
    | Ok r a => (if ok a then Ok r a else Bad (BError (from_error_kind i KVerify)), 0%nat)
    | Bad b => (Bad b, 0%nat)
    end)).

(** [nom::combinator::peek]. Called at src/parse.rs:155,173,264,283,423,433. *)
Definition peek_steps {A} (p : counted_parser A) : counted_parser A := fun i =>
  tick 1 (then_ (p i) (fun r =>
    match r with
    | Ok _ a => (Ok i a, 0%nat)
    | Bad b => (Bad b, 0%nat)
    end)).

(** Sequencing. src/parse.rs:155-161,264-268. *)
Definition bind_steps {A B} (x : counted (result A)) (k : span -> A -> counted (result B))
  : counted (result B) :=
  then_ x (fun r =>
    match r with
    | Ok i a => k i a
    | Bad b => (Bad b, 0%nat)
    end).

(** [nom::branch::alt]. Called at src/parse.rs:360,504. *)
Fixpoint alt_from_steps {S A} (ps : list (span -> S -> counted (result A * S)))
    (last : error span) (i : span) (st : S) : counted (result A * S) :=
  match ps with
  | [] => ((Bad (BError (Nom.append i KAlt last)), st), 0%nat)
  | p :: ps' =>
      then_ (p i st) (fun x =>
        match x with
        | (Bad (BError e), st') => alt_from_steps ps' (or_error last e) i st'
        | r => (r, 0%nat)
        end)
  end.
(** [nom::branch::alt] at its first branch, src/parse.rs:360,504. *)
Definition alt_steps {S A} (ps : list (span -> S -> counted (result A * S))) (i : span) (st : S)
  : counted (result A * S) :=
  tick 1
  match ps with
  | [] => ((Bad BPanic, st), 0%nat)
  | p :: ps' =>
      then_ (p i st) (fun x =>
        match x with
        | (Bad (BError e), st') => alt_from_steps ps' e i st'
        | r => (r, 0%nat)
        end)
  end.
(** A parser that does not touch the state: all but src/parse.rs:507. *)
Definition pure_steps {S A} (p : counted_parser A) : span -> S -> counted (result A * S) :=
  fun i st => ((fst (p i), st), snd (p i)).

(** [nom::multi::many0]. Called at src/parse.rs:555. *)
Fixpoint many0_loop_steps {S A} (fuel : nat) (p : span -> S -> counted (result A * S))
    (acc : list A) (i : span) (st : S) : counted (result (list A) * S) :=
  match fuel with
  | O => ((Bad BFuel, st), 0%nat)
  | Datatypes.S fuel' =>
      tick 1 (then_ (p i st) (fun x =>
      match x with
      | (Bad (BError _), st') => ((Ok i (rev acc), st'), 0%nat)
      | (Bad b, st') => ((Bad b, st'), 0%nat)
      | (Ok i1 o, st') =>
          if input_len i1 =? input_len i
          then ((Bad (BError (from_error_kind i KMany0)), st'), 0%nat)
          else many0_loop_steps fuel' p (o :: acc) i1 st'
      end))
  end.
(** [nom::multi::many0], src/parse.rs:555. *)
Definition many0_steps {S A} (p : span -> S -> counted (result A * S)) (i : span) (st : S) :=
  tick 1 (many0_loop_steps (Datatypes.S (List.length (frag i))) p [] i st).

(** [nom::multi::many1]. Called at src/parse.rs:418. *)
Fixpoint many1_loop_steps {A} (fuel : nat) (p : counted_parser A) (acc : list A) (i : span)
  : counted (result (list A)) :=
  match fuel with
  | O => (Bad BFuel, 0%nat)
  | S fuel' =>
      tick 1 (then_ (p i) (fun x =>
      match x with
      | Bad (BError _) => (Ok i (rev acc), 0%nat)
      | Bad b => (Bad b, 0%nat)
      | Ok i1 o =>
          if input_len i1 =? input_len i then (Bad (BError (from_error_kind i KMany1)), 0%nat)
          else many1_loop_steps fuel' p (o :: acc) i1
      end))
  end.
(** [nom::multi::many1], src/parse.rs:418. *)
Definition many1_steps {A} (p : counted_parser A) : counted_parser (list A) := fun i =>
  tick 1 (then_ (p i) (fun x =>
  match x with
  | Bad (BError e) => (Bad (BError (Nom.append i KMany1 e)), 0%nat)
  | Bad b => (Bad b, 0%nat)
  | Ok i1 o => many1_loop_steps (S (List.length (frag i1))) p [o] i1
  end)).

(** [nom::multi::separated_list1]. Called at src/parse.rs:418. *)
Fixpoint separated_list1_loop_steps {A B} (fuel : nat) (sep : counted_parser B)
    (p : counted_parser A) (acc : list A) (i : span) : counted (result (list A)) :=
  match fuel with
  | O => (Bad BFuel, 0%nat)
  | S fuel' =>
      tick 1 (then_ (sep i) (fun x =>
      match x with
      | Bad (BError _) => (Ok i (rev acc), 0%nat)
      | Bad b => (Bad b, 0%nat)
      | Ok i1 _ =>
          then_ (p i1) (fun y =>
          match y with
          | Bad (BError _) => (Ok i (rev acc), 0%nat)
          | Bad b => (Bad b, 0%nat)
          | Ok i2 o =>
              if input_len i2 =? input_len i
              then (Bad (BError (from_error_kind i KSeparatedList)), 0%nat)
              else separated_list1_loop_steps fuel' sep p (o :: acc) i2
          end)
      end))
  end.
(** [nom::multi::separated_list1], src/parse.rs:418. *)
Definition separated_list1_steps {A B} (sep : counted_parser B) (p : counted_parser A)
  : counted_parser (list A) := fun i =>
  tick 1 (then_ (p i) (fun x =>
  match x with
  | Bad b => (Bad b, 0%nat)
  | Ok i1 o => separated_list1_loop_steps (S (List.length (frag i1))) sep p [o] i1
  end)).

(** src/combinator.rs:18-35 [map_err]; the closure is counted too. *)
Definition map_err_steps {A} (p : counted_parser A) (map : bad -> counted bad)
  : counted_parser A := fun i =>
  tick 1 (then_ (p i) (fun x =>
  match x with
  | Ok r a => (Ok r a, 0%nat)
  | Bad BPanic => (Bad BPanic, 0%nat)
  | Bad BFuel => (Bad BFuel, 0%nat)
  | Bad b => then_ (map b) (fun b' => (Bad b', 0%nat))
  end)).

(** [take_from(input_len())]. src/combinator.rs:69,98-101,126. *)
Definition whole_steps (input : span) : counted (result span) :=
  (whole input, List.length (frag input)).

(** src/combinator.rs:47-128 [escaped0]. *)
Fixpoint escaped0_loop_steps {A B} (fuel : nat) (normal : counted_parser A) (control_char : char)
    (escapable : counted_parser B) (input i : span) (consumed_nothing : bool)
  : counted (result span) :=
  tick 1
  (if input_len i =? 0 then whole_steps input
  else match fuel with
  | O => (Bad BFuel, 0%nat)
  | S fuel' =>
      let escape :=
        match iter_elements i with
        | [] => (Bad (BError (from_error_kind i KEscaped)), 0%nat)
        | next_char :: _ =>
            tick 1
            (if next_char =? control_char then
              let next := len_utf8 control_char in
              if input_len i <=? next then (Bad (BError (from_error_kind input KEscaped)), 0%nat)
              else match take_from i next with
                   | None => (Bad BPanic, 0%nat)
                   | Some i' =>
                       tick (chars next (frag i))
                       (then_ (escapable i') (fun x =>
                       match x with
                       | Ok i2 _ =>
                           if input_len i2 =? 0 then whole_steps input
                           else escaped0_loop_steps fuel' normal control_char escapable input i2 false
                       | Bad BPanic => (Bad BPanic, 0%nat)
                       | Bad BFuel => (Bad BFuel, 0%nat)
                       | Bad _ => (Bad (BError (from_error_kind i KEscaped)), 0%nat)
                       end))
                   end
            else
              match offset input i with
              | None => (Bad BPanic, 0%nat)
              | Some index => split_result_steps input index
              end)
        end in
      then_ (normal i) (fun x =>
      match x, consumed_nothing with
      | Ok i2 _, false =>
          if input_len i2 =? 0 then whole_steps input
          else escaped0_loop_steps fuel' normal control_char escapable input i2
                 (input_len i2 =? input_len i)
      | Ok _ _, true => escape
      | Bad (BError _), _ => escape
      | Bad b, _ => (Bad b, 0%nat)
      end)
  end).
(** src/combinator.rs:47-128. *)
Definition escaped0_steps {A B} (normal : counted_parser A) (control_char : char)
    (escapable : counted_parser B) : counted_parser span := fun input =>
  escaped0_loop_steps (2 * List.length (frag input))%nat normal control_char escapable input input
    false.

(** [Error::X(inp.take(n)).failure()]. As at src/parse.rs:164-170. *)
Definition fail_take_steps (e : span -> error span) (inp : span) (n : N) : counted bad :=
  (fail_take e inp n, chars n (frag inp)).

(** src/parse.rs:71-87; [slice_index(2)] looks at two characters. *)
Definition escaped_error_steps (e : bad) : counted bad := tick 1
  match e with
  | BError (Other sp KEscaped) =>
      let n := input_len sp in
      if n =? 1 then (BFailure (EscapedEndOfLine sp), 0%nat)
      else if 1 <? n then
        tick 2
        (fail_take_steps EscapedNonReservedCharacter sp
          (match slice_index sp 2 with Some k => k | None => 0 end))
      else (BFailure (EscapedNonReservedCharacter sp), 0%nat)
  | _ => (e, 0%nat)
  end.

(** src/parse.rs:61-88 [escaped_reserved_chars0]. *)
Definition escaped_reserved_chars0_steps (normal : counted_parser span) : counted_parser span :=
  map_err_steps (escaped0_steps normal (c_ "\") (one_of_steps reserved_chars)) escaped_error_steps.

(** [if let Ok((_, a)) = p { return k a } ...]. src/parse.rs:155-170,173-180,264-278,282-291. *)
Definition if_ok_steps {A} (x : counted (result A)) (yes : A -> counted bad) (no : counted bad)
  : counted bad :=
  then_ x (fun r =>
  match r with
  | Ok _ a => yes a
  | Bad BPanic => (BPanic, 0%nat)
  | Bad BFuel => (BFuel, 0%nat)
  | Bad _ => no
  end).

(** src/parse.rs:138-200 [parameter] and src/parse.rs:250-318 [optional]. *)
Fixpoint parameter_d_steps (depth : nat) (input : span) (indexer : N) {struct depth}
  : counted (result (parameter span) * N) :=
  match depth with
  | O => ((Bad BFuel, indexer), 0%nat)
  | S depth' =>
      let fail (inp opening_brace : span) : counted bad := tick 1
        match iter_elements inp with
        | c :: _ =>
            if c =? c_ "{" then
              if_ok_steps
                (bind_steps (let x := parameter_d_steps depth' inp 0 in (fst (fst x), snd x)) (fun i1 par =>
                 bind_steps (escaped_reserved_chars0_steps (take_while_steps is_name) i1) (fun i2 _ =>
                 bind_steps (tag_steps (s_ "}") i2) (fun i3 _ => (Ok i3 par, 0%nat)))))
                (fun par => fail_take_steps NestedParameter inp (input_len (par_input par) + 2))
                (fail_take_steps UnescapedReservedCharacter inp 1)
            else if c =? c_ "(" then
              if_ok_steps (peek_steps (optional_d_steps depth') inp)
                (fun opt => fail_take_steps OptionalInParameter inp (input_len (opt_input opt) + 2))
                (fail_take_steps UnescapedReservedCharacter inp 1)
            else if contains reserved_chars c then
              fail_take_steps UnescapedReservedCharacter inp 1
            else (BFailure (UnfinishedParameter opening_brace), 0%nat)
        | [] => (BFailure (UnfinishedParameter opening_brace), 0%nat)
        end in
      tick 1 (then_ (tag_steps (s_ "{") input) (fun x =>
      match x with
      | Bad b => ((Bad b, indexer), 0%nat)
      | Ok input1 opening_brace =>
          then_ (escaped_reserved_chars0_steps (take_while_steps is_name) input1) (fun y =>
          match y with
          | Bad b => ((Bad b, indexer), 0%nat)
          | Ok input2 par_name =>
              then_ (map_err_steps (tag_steps (s_ "}")) (fun _ => fail input2 opening_brace) input2)
              (fun z =>
              match z with
              | Bad b => ((Bad b, indexer), 0%nat)
              | Ok input3 _ =>
                  if usize_max <? indexer + 1 then ((Bad BPanic, indexer), 0%nat)
                  else ((Ok input3 (mkParameter par_name (indexer + 1 - 1)), indexer + 1), 0%nat)
              end)
          end)
      end))
  end
with optional_d_steps (depth : nat) (input : span) {struct depth}
  : counted (result (optional span)) :=
  match depth with
  | O => (Bad BFuel, 0%nat)
  | S depth' =>
      let fail (inp opening_brace : span) : counted bad := tick 1
        match iter_elements inp with
        | c :: _ =>
            if c =? c_ "(" then
              if_ok_steps
                (bind_steps (optional_d_steps depth' inp) (fun i1 opt =>
                 bind_steps (escaped_reserved_chars0_steps (take_while_steps is_in_optional) i1) (fun i2 _ =>
                 bind_steps (tag_steps (s_ ")") i2) (fun i3 _ => (Ok i3 opt, 0%nat)))))
                (fun opt => fail_take_steps NestedOptional inp (input_len (opt_input opt) + 2))
                (fail_take_steps UnescapedReservedCharacter inp 1)
            else if c =? c_ "{" then
              if_ok_steps (peek_steps (fun i => let x := parameter_d_steps depth' i 0 in
                                                (fst (fst x), snd x)) inp)
                (fun par => fail_take_steps ParameterInOptional inp (input_len (par_input par) + 2))
                (fail_take_steps UnescapedReservedCharacter inp 1)
            else if c =? c_ "/" then fail_take_steps AlternationInOptional inp 1
            else if contains reserved_chars c then
              fail_take_steps UnescapedReservedCharacter inp 1
            else (BFailure (UnfinishedOptional opening_brace), 0%nat)
        | [] => (BFailure (UnfinishedOptional opening_brace), 0%nat)
        end in
      tick 1 (then_ (tag_steps (s_ "(") input) (fun x =>
      match x with
      | Bad b => (Bad b, 0%nat)
      | Ok input1 opening_paren =>
          then_ (escaped_reserved_chars0_steps (take_while_steps is_in_optional) input1) (fun y =>
          match y with
          | Bad b => (Bad b, 0%nat)
          | Ok input2 opt =>
              then_ (map_err_steps (tag_steps (s_ ")")) (fun _ => fail input2 opening_paren) input2)
              (fun z =>
              match z with
              | Bad b => (Bad b, 0%nat)
              | Ok input3 _ =>
                  if input_len opt =? 0
                  then then_ (fail_take_steps EmptyOptional input 2) (fun b => (Bad b, 0%nat))
                  else (Ok input3 (mkOptional opt), 0%nat)
              end)
          end)
      end))
  end.

(** The public [parse::parameter] and [parse::optional]. src/parse.rs:138 and 250. *)
Definition parse_parameter_steps (input : span) (indexer : N)
  : counted (result (parameter span) * N) :=
  parameter_d_steps (S (List.length (frag input))) input indexer.
(** src/parse.rs:250 [optional]. *)
Definition parse_optional_steps : counted_parser (optional span) := fun input =>
  optional_d_steps (S (List.length (frag input))) input.

(** src/parse.rs:349-371 [alternative]. *)
Definition parse_alternative_steps : counted_parser (alternative span) := fun input =>
  let x := alt_steps
    [pure_steps (map_steps parse_optional_steps AltOptional);
     pure_steps (map_steps
       (verify_steps (escaped_reserved_chars0_steps (take_while_steps is_without_whitespace))
          (fun p => 0 <? input_len p))
       AltText)] input tt in
  (fst (fst x), snd x).

(** Alternatives in an alternation: what [contains_only_optional] and [span_len]
    (src/ast.rs:113-134) go through. *)
Definition alternatives (alt : alternation span) : nat := List.length (List.concat alt).

(** src/parse.rs:411-437: the list of [alternation], up to its check. *)
Definition alternation_list_steps : counted_parser (alternation span) := fun input =>
  then_ (separated_list1_steps (tag_steps (s_ "/")) (many1_steps parse_alternative_steps) input)
  (fun x =>
  match x with
  | Ok rest alt =>
      then_ (peek_steps (tag_steps (s_ "/")) rest) (fun y =>
      match y with
      | Ok _ slash => (Bad (BFailure (EmptyAlternation slash)), 0%nat)
      | Bad BPanic => (Bad BPanic, 0%nat)
      | Bad BFuel => (Bad BFuel, 0%nat)
      | Bad _ =>
          if Nat.eqb (List.length alt) 1 then (Bad (BError (Other rest KTag)), 0%nat)
          else (Ok rest alt, 0%nat)
      end)
  | Bad (BError (Other sp KMany1)) =>
      then_ (peek_steps (tag_steps (s_ "/")) sp) (fun y =>
      match y with
      | Ok _ _ => then_ (fail_take_steps EmptyAlternation sp 1) (fun b => (Bad b, 0%nat))
      | Bad BPanic => (Bad BPanic, 0%nat)
      | Bad BFuel => (Bad BFuel, 0%nat)
      | Bad _ => (Bad (BError (Other sp KMany1)), 0%nat)
      end)
  | Bad e => (Bad e, 0%nat)
  end).
(** src/parse.rs:410-448 [alternation]. *)
Definition parse_alternation_steps : counted_parser (alternation span) := fun input =>
  tick 1 (then_ (alternation_list_steps input) (fun x =>
  match x with
  | Bad b => (Bad b, 0%nat)
  | Ok rest alt =>
      tick (alternatives alt)
      (if contains_only_optional alt then
        tick (alternatives alt)
        match span_len input_len alt with
        | None => (Bad BPanic, 0%nat)
        | Some n => then_ (fail_take_steps OnlyOptionalInAlternation input n)
                      (fun b => (Bad b, 0%nat))
        end
      else (Ok rest alt, 0%nat))
  end)).

(** src/parse.rs:487-518 [single_expression]. *)
Definition parse_single_expression_steps (input : span) (indexer : N)
  : counted (result (single_expression span) * N) :=
  alt_steps
    [pure_steps (map_steps parse_alternation_steps ExAlternation);
     pure_steps (map_steps parse_optional_steps ExOptional);
     (fun i ix =>
        then_ (parse_parameter_steps i ix) (fun x =>
        match x with
        | (Ok r p, ix') => ((Ok r (ExParameter p), ix'), 1%nat)
        | (Bad b, ix') => ((Bad b, ix'), 1%nat)
        end));
     pure_steps (map_steps
       (verify_steps (escaped_reserved_chars0_steps (take_while_steps is_without_whitespace))
          (fun s => 0 <? input_len s))
       ExText);
     pure_steps (map_steps (take_while1_steps is_whitespace) ExWhitespaces)]
    input indexer.

(** src/parse.rs:547-557 [expression]. *)
Definition parse_expression_steps (input : span) : counted (result (expression span)) :=
  let x := many0_steps parse_single_expression_steps input 0 in (fst (fst x), snd x).

(** src/ast.rs:57-61 [Expression::parse]. *)
Definition expression_parse_steps (value : str)
  : counted (returned (expression span) (error span)) :=
  then_ (parse_expression_steps (span_new value)) (fun x =>
  (match x with
  | Bad (BError e) => RetErr e
  | Bad (BFailure e) => RetErr e
  | Bad BIncomplete => RetErr ENeeded
  | Bad BPanic => Panics
  | Bad BFuel => Diverges
  | Ok rest parsed =>
      if input_len rest =? 0 then RetOk parsed
      else RetErr (Other rest KVerify)
  end, 1%nat)).
