(** Specification: replacing characters that are not reserved. Independent of the parser's model. *)
From Verif Require Export SpecParse.

(** [f] replaces characters that are not reserved by characters that are not reserved. *)
Definition replaces_plain (f : char -> char) : Prop :=
  (forall c, In c reserved -> f c = c) /\ (forall c, ~ In c reserved -> ~ In (f c) reserved).
(** Replacing in an error: in the text at fault and in everything before it. *)
Definition replace_error (f : char -> char) : error text_at -> error text_at :=
  map_error (fun x => (map f (fst x), map f (snd x))).
