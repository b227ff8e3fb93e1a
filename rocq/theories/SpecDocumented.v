(** The errors that the documentation of each parser lists. *)
From Verif Require Export SpecParse.

(** The kind of an error: the error without its input. *)
Definition kind_of {I} (e : error I) : error unit := map_error (fun _ => tt) e.
(** src/parse.rs:119-123 *)
Definition documented_parameter : list (error unit) :=
  [EscapedNonReservedCharacter tt; NestedParameter tt; OptionalInParameter tt; UnescapedReservedCharacter tt; UnfinishedParameter tt].
(** src/parse.rs:230-237 *)
Definition documented_optional : list (error unit) :=
  [AlternationInOptional tt; EmptyOptional tt; EscapedEndOfLine tt; EscapedNonReservedCharacter tt; NestedOptional tt;
   ParameterInOptional tt; UnescapedReservedCharacter tt; UnfinishedOptional tt].
(** src/parse.rs:345: those of [optional] *)
Definition documented_alternative : list (error unit) := documented_optional.
(** src/parse.rs:401-403 *)
Definition documented_alternation : list (error unit) :=
  documented_optional ++ [EmptyAlternation tt; OnlyOptionalInAlternation tt].
(** src/parse.rs:475, 546: those of [alternation], [optional], [parameter] *)
Definition documented_expression : list (error unit) := documented_alternation ++ documented_optional ++ documented_parameter.
