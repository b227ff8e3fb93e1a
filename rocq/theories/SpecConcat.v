(** Specification: an expression followed by another one. Independent of the model's helpers. *)
From Verif Require Export SpecExpand SpecParse.

(** Next to each other, [x] and [y] become one alternation. *)
Definition touches {I} (x y : single_expression I) : Prop :=
  match x, y with
  | ExAlternation _, (ExAlternation _ | ExText _ | ExOptional _) => True
  | (ExText _ | ExOptional _), ExAlternation _ => True
  | _, _ => False
  end.
(** Next to each other, [x] and [y] become one text or one run of blanks. *)
Definition same_text {I} (x y : single_expression I) : Prop :=
  match x, y with ExText _, ExText _ | ExWhitespaces _, ExWhitespaces _ => True | _, _ => False end.
(** [R] holds where [a] and [b] meet. *)
Definition where_they_meet {I} (R : single_expression I -> single_expression I -> Prop) (a b : expression I) : Prop :=
  forall l x y r, a = l ++ [x] -> b = y :: r -> R x y.
(** The nodes of [a], then those of [b], where [a] is the source of the first. *)
Definition one_after_the_other (a : str) (ea eb : expression span) : expression span :=
  ea ++ add_ids (N.of_nat (List.length (ids ea))) (map_expression (shift_span (blen a) (newlines a)) eb).
