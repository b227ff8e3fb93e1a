(** Model of the derived [PartialEq] of src/ast.rs and of src/parse.rs's [Error], generic in that of [Input]. *)
From Verif Require Export Span Ast Nom.

(** [PartialEq] of [LocatedSpan] (nom_locate; not derived, it leaves out [extra]), the [Input] of src/ast.rs:26. *)
Definition span_eq (a b : span) : bool :=
  (line a =? line b) && (off a =? off b) && str_eqb (frag a) (frag b).

(** [PartialEq] of [Vec] (standard library), as in src/ast.rs:34, 102 and 111. *)
Fixpoint vec_eq {A} (eq : A -> A -> bool) (a b : list A) : bool :=
  match a, b with
  | [], [] => true
  | x :: a', y :: b' => eq x y && vec_eq eq a' b'
  | _, _ => false
  end.

(** src/ast.rs:159-160 [PartialEq] of [Optional]. *)
Definition optional_eq {I} (eq : I -> I -> bool) (a b : optional I) : bool := eq (opt_input a) (opt_input b).
(** src/ast.rs:168-178 [PartialEq] of [Parameter]. *)
Definition parameter_eq {I} (eq : I -> I -> bool) (a b : parameter I) : bool :=
  eq (par_input a) (par_input b) && (par_id a =? par_id b).
(** src/ast.rs:142-151 [PartialEq] of [Alternative]. *)
Definition alternative_eq {I} (eq : I -> I -> bool) (a b : alternative I) : bool :=
  match a, b with
  | AltOptional a, AltOptional b => optional_eq eq a b
  | AltText a, AltText b => eq a b
  | _, _ => false
  end.
(** src/ast.rs:110-111 [PartialEq] of [Alternation]. *)
Definition alternation_eq {I} (eq : I -> I -> bool) (a b : alternation I) : bool :=
  vec_eq (vec_eq (alternative_eq eq)) a b.
(** src/ast.rs:70-96 [PartialEq] of [SingleExpression]. *)
Definition single_expression_eq {I} (eq : I -> I -> bool) (a b : single_expression I) : bool :=
  match a, b with
  | ExAlternation a, ExAlternation b => alternation_eq eq a b
  | ExOptional a, ExOptional b => optional_eq eq a b
  | ExParameter a, ExParameter b => parameter_eq eq a b
  | ExText a, ExText b => eq a b
  | ExWhitespaces a, ExWhitespaces b => eq a b
  | _, _ => false
  end.
(** src/ast.rs:33-34 [PartialEq] of [Expression]. *)
Definition expression_eq {I} (eq : I -> I -> bool) (a b : expression I) : bool := vec_eq (single_expression_eq eq) a b.

(** [PartialEq] of nom's [ErrorKind], used at src/parse.rs:560 and 681; only the kinds of [error_kind]. *)
Definition error_kind_eq (a b : error_kind) : bool :=
  match a, b with
  | KTag, KTag | KOneOf, KOneOf | KAlt, KAlt | KMany0, KMany0 | KMany1, KMany1
  | KSeparatedList, KSeparatedList | KTakeWhile1, KTakeWhile1 | KVerify, KVerify | KEscaped, KEscaped => true
  | _, _ => false
  end.
(** src/parse.rs:559-697 [PartialEq] of [Error]. Simplified: what is [Needed] is left out, as in [error]. *)
Definition error_eq {I} (eq : I -> I -> bool) (a b : error I) : bool :=
  match a, b with
  | NestedParameter a, NestedParameter b | OptionalInParameter a, OptionalInParameter b
  | UnfinishedParameter a, UnfinishedParameter b | NestedOptional a, NestedOptional b
  | ParameterInOptional a, ParameterInOptional b | EmptyOptional a, EmptyOptional b
  | AlternationInOptional a, AlternationInOptional b | UnfinishedOptional a, UnfinishedOptional b
  | EmptyAlternation a, EmptyAlternation b | OnlyOptionalInAlternation a, OnlyOptionalInAlternation b
  | UnescapedReservedCharacter a, UnescapedReservedCharacter b
  | EscapedNonReservedCharacter a, EscapedNonReservedCharacter b
  | EscapedEndOfLine a, EscapedEndOfLine b => eq a b
  | Other a k, Other b k' => eq a b && error_kind_eq k k'
  | ENeeded, ENeeded => true
  | _, _ => false
  end.
