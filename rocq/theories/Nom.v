(** The nom 8.0 combinators the crate calls, all in [Complete] mode, on [Spanned] inputs with the
    crate's own error type (src/parse.rs:559-721). Library code except for the error type. *)
From Verif Require Export Span.

(** [nom::error::ErrorKind], the kinds that occur. Of these src/parse.rs:74,427,432 and src/ast.rs:47 name
    [Escaped], [Tag], [Many1] and [Verify]. *)
Inductive error_kind := KTag | KOneOf | KAlt | KMany0 | KMany1 | KSeparatedList | KTakeWhile1
                      | KVerify | KEscaped.

(** src/parse.rs:559-697 [Error]. *)
Inductive error (I : Type) :=
| NestedParameter (i : I)
| OptionalInParameter (i : I)
| UnfinishedParameter (i : I)
| NestedOptional (i : I)
| ParameterInOptional (i : I)
| EmptyOptional (i : I)
| AlternationInOptional (i : I)
| UnfinishedOptional (i : I)
| EmptyAlternation (i : I)
| OnlyOptionalInAlternation (i : I)
| UnescapedReservedCharacter (i : I)
| EscapedNonReservedCharacter (i : I)
| EscapedEndOfLine (i : I)
| Other (i : I) (k : error_kind)
| ENeeded.
Arguments NestedParameter {I}. Arguments OptionalInParameter {I}.
Arguments UnfinishedParameter {I}. Arguments NestedOptional {I}.
Arguments ParameterInOptional {I}. Arguments EmptyOptional {I}.
Arguments AlternationInOptional {I}. Arguments UnfinishedOptional {I}.
Arguments EmptyAlternation {I}. Arguments OnlyOptionalInAlternation {I}.
Arguments UnescapedReservedCharacter {I}. Arguments EscapedNonReservedCharacter {I}.
Arguments EscapedEndOfLine {I}. Arguments Other {I}. Arguments ENeeded {I}.

(** What is not [Ok]: [nom::Err], or a Rust panic, or a loop/recursion that exceeded the fuel the model gave
    it. [nom::Err] is imported at src/parse.rs:21. *)
Inductive bad :=
| BError (e : error span)      (* Err::Error: recoverable *)
| BFailure (e : error span)    (* Err::Failure: irrecoverable *)
| BIncomplete                  (* Err::Incomplete *)
| BPanic
| BFuel.

(** [IResult<Spanned, A, Error<Spanned>>]. The type of every parser of the crate, as at src/parse.rs:250. *)
Inductive result (A : Type) :=
| Ok (rest : span) (out : A)
| Bad (b : bad).
Arguments Ok {A}. Arguments Bad {A}.

(** src/parse.rs:709-712 [ParseError::from_error_kind]. *)
Definition from_error_kind (i : span) (k : error_kind) : error span := Other i k.
(** src/parse.rs:714-720 [ParseError::append]. *)
Definition append (i : span) (k : error_kind) (other : error span) : error span :=
  match other with
  | Other _ _ => from_error_kind i k
  | _ => other
  end.
(** [ParseError::or] (default method of nom): keeps the later error. Not overridden at src/parse.rs:709-721.
    *)
Definition or_error (e other : error span) : error span := other.

(** [Parser] as imported at src/parse.rs:21; simplified: a function, no associated types. *)
Definition parser (A : Type) := span -> result A.

(** [take_split] as the body of a parser: (rest, output). Used by the parsers of src/parse.rs:23-24. *)
Definition split_result (i : span) (n : N) : result span :=
  match take_split i n with
  | Some (suffix, prefix) => Ok suffix prefix
  | None => Bad BPanic
  end.

(** [nom::bytes::complete::tag]. Called at src/parse.rs:160,191,194,267,306,309,418,423,433. *)
Definition tag (t : str) : parser span := fun i =>
  if starts_with t (frag i) then split_result i (blen t)
  else Bad (BError (from_error_kind i KTag)).

(** [nom::character::complete::one_of]. Called at src/parse.rs:72. *)
Definition one_of (list : str) : parser char := fun i =>
  match iter_elements i with
  | c :: _ =>
      if contains list c then
        match take_from i (len_utf8 c) with
        | Some r => Ok r c
        | None => Bad BPanic
        end
      else Bad (BError (from_error_kind i KOneOf))
  | [] => Bad (BError (from_error_kind i KOneOf))
  end.

(** [nom::bytes::complete::take_while]. Called at src/parse.rs:159,193,266,308,364,510. *)
Definition take_while (cond : char -> bool) : parser span := fun i =>
  match find_bytes (fun c => negb (cond c)) (frag i) with
  | Some n => split_result i n
  | None => split_result i (input_len i)
  end.

(** [nom::bytes::complete::take_while1]. Called at src/parse.rs:515. *)
Definition take_while1 (cond : char -> bool) : parser span := fun i =>
  match find_bytes (fun c => negb (cond c)) (frag i) with
  | Some n => if n =? 0 then Bad (BError (from_error_kind i KTakeWhile1)) else split_result i n
  | None =>
      if input_len i =? 0 then Bad (BError (from_error_kind i KTakeWhile1))
      else split_result i (input_len i)
  end.

(** [nom::combinator::map]. Called at src/parse.rs:361-362,505-515,555. *)
Definition map_parser {A B} (p : parser A) (f : A -> B) : parser B := fun i =>
  match p i with
  | Ok r a => Ok r (f a)
  | Bad b => Bad b
  end.

(** [nom::combinator::verify]. Called at src/parse.rs:363,509. *)
Definition verify {A} (p : parser A) (ok : A -> bool) : parser A := fun i =>
  match p i with
  | Ok r a => if ok a then Ok r a else Bad (BError (from_error_kind i KVerify))
  | Bad b => Bad b
  end.

(** [nom::combinator::peek]. Called at src/parse.rs:155,173,264,283,423,433. *)
Definition peek {A} (p : parser A) : parser A := fun i =>
  match p i with
  | Ok _ a => Ok i a
  | Bad b => Bad b
  end.

(** Sequencing (nom's tuple parsers; Rust's [?]). As at src/parse.rs:155-161,191-196,264-268,306-311. *)
Definition bind {A B} (r : result A) (k : span -> A -> result B) : result B :=
  match r with
  | Ok i a => k i a
  | Bad b => Bad b
  end.

(** [nom::branch::alt] over a tuple of parsers, threading the state [S] that the closures capture by [&mut].
    [last] is the error of the previous branch. Called at src/parse.rs:360,504. *)
Fixpoint alt_from {S A} (ps : list (span -> S -> result A * S)) (last : error span)
    (i : span) (st : S) : result A * S :=
  match ps with
  | [] => (Bad (BError (append i KAlt last)), st)
  | p :: ps' =>
      match p i st with
      | (Bad (BError e), st') => alt_from ps' (or_error last e) i st'
      | r => r
      end
  end.
(** [nom::branch::alt] at its first branch, src/parse.rs:360,504. *)
Definition alt {S A} (ps : list (span -> S -> result A * S)) (i : span) (st : S) :=
  match ps with
  | [] => (Bad BPanic, st)      (* not expressible in nom *)
  | p :: ps' =>
      match p i st with
      | (Bad (BError e), st') => alt_from ps' e i st'
      | r => r
      end
  end.
(** A parser that does not touch the state. All but the one at src/parse.rs:507. *)
Definition pure {S A} (p : parser A) : span -> S -> result A * S := fun i st => (p i, st).

(** [nom::multi::many0], threading the state of the closure. The fuel bounds the iterations. Called at
    src/parse.rs:555. *)
Fixpoint many0_loop {S A} (fuel : nat) (p : span -> S -> result A * S) (acc : list A)
    (i : span) (st : S) : result (list A) * S :=
  match fuel with
  | O => (Bad BFuel, st)
  | Datatypes.S fuel' =>
      match p i st with
      | (Bad (BError _), st') => (Ok i (rev acc), st')
      | (Bad b, st') => (Bad b, st')
      | (Ok i1 o, st') =>
          if input_len i1 =? input_len i then (Bad (BError (from_error_kind i KMany0)), st')
          else many0_loop fuel' p (o :: acc) i1 st'
      end
  end.
(** [nom::multi::many0], src/parse.rs:555; an item more than there are chars cannot be read. *)
Definition many0 {S A} (p : span -> S -> result A * S) (i : span) (st : S) :=
  many0_loop (Datatypes.S (List.length (frag i))) p [] i st.

(** [nom::multi::many1]. Called at src/parse.rs:418. *)
Fixpoint many1_loop {A} (fuel : nat) (p : parser A) (acc : list A) (i : span) : result (list A) :=
  match fuel with
  | O => Bad BFuel
  | S fuel' =>
      match p i with
      | Bad (BError _) => Ok i (rev acc)
      | Bad b => Bad b
      | Ok i1 o =>
          if input_len i1 =? input_len i then Bad (BError (from_error_kind i KMany1))
          else many1_loop fuel' p (o :: acc) i1
      end
  end.
(** [nom::multi::many1], src/parse.rs:418: the first item, then the loop. *)
Definition many1 {A} (p : parser A) : parser (list A) := fun i =>
  match p i with
  | Bad (BError e) => Bad (BError (append i KMany1 e))
  | Bad b => Bad b
  | Ok i1 o => many1_loop (S (List.length (frag i1))) p [o] i1
  end.

(** [nom::multi::separated_list1]. Called at src/parse.rs:418. *)
Fixpoint separated_list1_loop {A B} (fuel : nat) (sep : parser B) (p : parser A) (acc : list A)
    (i : span) : result (list A) :=
  match fuel with
  | O => Bad BFuel
  | S fuel' =>
      match sep i with
      | Bad (BError _) => Ok i (rev acc)
      | Bad b => Bad b
      | Ok i1 _ =>
          match p i1 with
          | Bad (BError _) => Ok i (rev acc)
          | Bad b => Bad b
          | Ok i2 o =>
              if input_len i2 =? input_len i
              then Bad (BError (from_error_kind i KSeparatedList))
              else separated_list1_loop fuel' sep p (o :: acc) i2
          end
      end
  end.
(** [nom::multi::separated_list1], src/parse.rs:418: the first item, then the loop. *)
Definition separated_list1 {A B} (sep : parser B) (p : parser A) : parser (list A) := fun i =>
  match p i with
  | Bad b => Bad b
  | Ok i1 o => separated_list1_loop (S (List.length (frag i1))) sep p [o] i1
  end.
