(** Specification: expressions by how much they match. Independent of the expansion and of the regex model. *)
From Verif Require Export SpecExpand.

(** Elements that may stand for nothing. *)
Definition may_vanish {I} (text : I -> str) (x : single_expression I) : Prop :=
  match x with
  | ExOptional _ => True
  | ExParameter p => text (par_input p) = []
  | _ => False
  end.
