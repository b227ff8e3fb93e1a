(** How many opening parentheses an input has, escaped or not. *)
From Verif Require Export SpecAst.

Definition parens (s : str) : nat := List.length (filter (fun c => c =? c_ "(") s).
