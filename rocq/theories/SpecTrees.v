(** Trees that no text need have: built by hand, or changed after parsing. *)
From Verif Require Export SpecParams.

(** The ids of the [{string}] parameters, in order. *)
Definition string_ids {I} (text : I -> str) (e : expression I) : list N :=
  map par_id (filter (fun p => if list_eq_dec N.eq_dec (text (par_input p)) (s_ "string") then true else false) (parameters e)).
(** The named groups among some groups. *)
Definition names (l : list (option str)) : list str := flat_map (fun n => match n with Some n => [n] | None => [] end) l.
