(** Specification: how deep the groups of a regex are nested, by its text. *)
From Verif Require Export SpecSame.

(** The most groups open at once, [d] being open at the beginning; a backslash makes the next character literal.
    (Classes are not treated: no regex of an expression has a parenthesis in one.) *)
Fixpoint deepest (d : nat) (t : str) : nat :=
  match t with
  | [] => d
  | c :: t' =>
      if c =? c_ "\" then match t' with [] => d | _ :: t'' => deepest d t'' end
      else if c =? c_ "(" then deepest (S d) t'
      else if c =? c_ ")" then Nat.max d (deepest (d - 1) t')
      else deepest d t'
  end.
