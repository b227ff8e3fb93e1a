(** Specification: regexes without assertions. *)
From Verif Require Export Regex.

(** No assertion, and no repetition whose bounds exclude each other. *)
Fixpoint unconditional (r : re) : Prop :=
  match r with
  | RLook _ => False
  | RRep min max _ r => match max with Some m => min <= m | None => True end /\ unconditional r
  | RCap _ r => unconditional r
  | RCat a b | RAlt a b => unconditional a /\ unconditional b
  | _ => True
  end.
