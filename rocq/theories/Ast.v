(** Model of src/ast.rs: the AST, generic in its [Input]. *)
From Verif Require Export Base.

(** src/ast.rs:159-160 [Optional]. *)
Record optional (I : Type) := mkOptional { opt_input : I }.
Arguments mkOptional {I}. Arguments opt_input {I}.

(** src/ast.rs:168-178 [Parameter]. *)
Record parameter (I : Type) := mkParameter { par_input : I; par_id : N }.
Arguments mkParameter {I}. Arguments par_input {I}. Arguments par_id {I}.

(** src/ast.rs:142-151 [Alternative]. *)
Inductive alternative (I : Type) :=
| AltOptional (o : optional I)
| AltText (t : I).
Arguments AltOptional {I}. Arguments AltText {I}.

(** src/ast.rs:102 [SingleAlternation]. *)
Definition single_alternation (I : Type) := list (alternative I).

(** src/ast.rs:110-111 [Alternation] (a newtype over the vector). *)
Definition alternation (I : Type) := list (single_alternation I).

(** src/ast.rs:70-96 [SingleExpression]. *)
Inductive single_expression (I : Type) :=
| ExAlternation (a : alternation I)
| ExOptional (o : optional I)
| ExParameter (p : parameter I)
| ExText (t : I)
| ExWhitespaces (w : I).
Arguments ExAlternation {I}. Arguments ExOptional {I}. Arguments ExParameter {I}.
Arguments ExText {I}. Arguments ExWhitespaces {I}.

(** src/ast.rs:33-34 [Expression] (a newtype over the vector). *)
Definition expression (I : Type) := list (single_expression I).

(** src/ast.rs:113-126 [Alternation::span_len]; [None] is the underflow panic of [- 1].
    Generic in [input_len]. *)
Definition alternative_len {I} (input_len : I -> N) (a : alternative I) : N :=
  match a with
  | AltText t => input_len t
  | AltOptional o => input_len (opt_input o) + 2
  end.
(** src/ast.rs:123 [sum::<usize>()]; simplified: no overflow, the lengths are those of parts of one string. *)
Definition sum (l : list N) : N := fold_right N.add 0 l.
(** src/ast.rs:113-126 [Alternation::span_len]. *)
Definition span_len {I} (input_len : I -> N) (a : alternation I) : option N :=
  let total := sum (map (alternative_len input_len) (List.concat a)) + N.of_nat (List.length a) in
  if total =? 0 then None else Some (total - 1).

(** src/ast.rs:128-134 [Alternation::contains_only_optional]. *)
Definition is_alt_optional {I} (a : alternative I) : bool :=
  match a with AltOptional _ => true | AltText _ => false end.
(** src/ast.rs:128-134 [Alternation::contains_only_optional]. *)
Definition contains_only_optional {I} (a : alternation I) : bool :=
  existsb (forallb is_alt_optional) a.
