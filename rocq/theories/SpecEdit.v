(** Specification: editing one node of an expression. Independent of the model's helpers. *)
From Verif Require Export SpecConcat.

(** The same variant of [SingleExpression]. *)
Definition same_kind {I J} (x : single_expression I) (y : single_expression J) : Prop :=
  match x, y with
  | ExAlternation _, ExAlternation _ | ExOptional _, ExOptional _ | ExParameter _, ExParameter _
  | ExText _, ExText _ | ExWhitespaces _, ExWhitespaces _ => True
  | _, _ => False
  end.
(** The nodes of three texts, one after the other. *)
Definition three (a m : str) (ea em eb : expression span) : expression span :=
  one_after_the_other a ea (one_after_the_other m em eb).
