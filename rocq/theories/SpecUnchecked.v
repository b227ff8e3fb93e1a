(** Specification: what a matcher without an open parenthesis may be, given that it is put in parentheses and not looked
    at. *)
From Verif Require Export SpecParams.

Definition name_start : str := s_ "ABCDEFGHIJKLMNOPQRSTUVWXYZabcdefghijklmnopqrstuvwxyz_".
Definition name_more : str := name_start ++ s_ "0123456789.[]".
Inductive name_of_group : str -> Prop :=
| name_intro c n : In c name_start -> Forall (fun c => In c name_more) n -> name_of_group (c :: n).
(** What may follow an open parenthesis before the contents of the group. *)
Inductive opener : str -> Prop :=
| opener_capture : opener []
| opener_group : opener (s_ "?:")
| opener_named_p n : name_of_group n -> opener (s_ "?P<" ++ n ++ s_ ">")
| opener_named n : name_of_group n -> opener (s_ "?<" ++ n ++ s_ ">").

Definition is_regex (t : str) : Prop := exists r, regex_new t = Done r.
(** [closes u]: [u], being followed by a closing parenthesis, is a regex; or it closes the group itself and keeps the
    parenthesis that follows from closing one. *)
Definition closes (u : str) : Prop :=
  is_regex u \/
  exists x w, u = x ++ s_ ")" ++ w ++ s_ "\" /\ is_regex x /\ is_regex (s_ "x" ++ w ++ s_ "\)").
