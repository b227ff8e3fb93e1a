(** Specification: the shortest spelling of an expression. *)
From Verif Require Export SpecSame.

(** A text in which exactly the characters that need it are escaped. *)
Definition spell_char (special : str) (c : char) : str :=
  if in_dec N.eq_dec c special then [backslash; c] else [c].
Definition spell_piece (x : piece) : str :=
  match x with
  | Char c => spell_char text_special c
  | Maybe t => s_ "(" ++ flat_map (spell_char optional_special) t ++ s_ ")"
  end.
(** Blanks need a backslash only in an alternation. *)
Definition spell_part (x : part) : str :=
  match x with
  | Piece (Char c) => spell_char (s_ "({/\") c
  | Piece (Maybe t) => spell_piece (Maybe t)
  | OneOf a => join (s_ "/") (map (flat_map spell_piece) a)
  | Param n => s_ "{" ++ n ++ s_ "}"
  end.
Definition spell (l : list part) : str := flat_map spell_part l.
