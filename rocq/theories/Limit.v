(** Model of the size limit of [Regex::new] (src/expand/mod.rs:72,117): a regex whose automaton takes more memory than the limit (10 MB in
    the [regex] crate, [RegexBuilder::size_limit]) is an error. External crate; simplified: what the automaton takes is a parameter,
    [measure], of which the theorems assume no more than that it is between one unit and some constant number of units for each
    state of Automaton.v. *)
From Verif Require Export Nest Compiled Automaton.

Section Sized.
  Context (measure : re -> nat) (limit : nat) (digits spaces words : ranges).
  (** [Regex::new] with the limit, src/expand/mod.rs:72,117. *)
  Definition sized_new (t : str) : outcome re :=
    obind (regex_new t) (fun r => if Nat.leb (measure (compiled digits spaces words r)) limit then Done r else Invalid).
  (** src/expand/mod.rs:66-73 [Expression::regex]. *)
  Definition sized_regex (input : str) : expanded span := regex_by_new sized_new (expand_expression iter_elements) input.
  (** src/expand/mod.rs:103-130 [Expression::regex_with_parameters]; the parser of src/expand/parameters.rs:207 has no such limit. *)
  Definition sized_regex_with_parameters (to_string : hir -> str) (get : provider span) (input : str) : expanded span :=
    regex_by_new sized_new (expand_expression_custom iter_elements digits spaces words to_string get) input.
End Sized.
