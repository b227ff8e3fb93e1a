(** Specification: text without its layout. *)
From Verif Require Export Base.

(** Outside of a string literal, within one, after a backslash within one. *)
Inductive place_in_text := Outside_string | In_string | After_backslash.
(** Where the next char is. *)
Definition next_place (m : place_in_text) (c : char) : place_in_text :=
  match m with
  | Outside_string => if c =? 34 then In_string else Outside_string
  | In_string => if c =? 34 then Outside_string else if c =? c_ "\" then After_backslash else In_string
  | After_backslash => In_string
  end.
(** Blanks, line breaks and commas outside of string literals left out. *)
Fixpoint bare (m : place_in_text) (t : str) : str :=
  match t with
  | [] => []
  | c :: t =>
      match m with
      | Outside_string => if contains [c_ " "; 10; c_ ","] c then [] else [c]
      | _ => [c]
      end ++ bare (next_place m c) t
  end.
