(** Specification: strings of Rust chars. *)
From Verif Require Export SpecParams.

Definition rust_string (t : str) : Prop := Forall scalar t.
Definition ascii_char (c : char) : Prop := c < 128.
(** Unicode tables whose bounds are Rust chars. *)
Definition rust_tables (digits spaces words : ranges) : Prop :=
  Forall (fun k => Forall (fun x => scalar (fst x) /\ scalar (snd x)) k) [digits; spaces; words].
(** A piece of a text, if anything. *)
Definition piece_of (s : str) (o : option str) : Prop := match o with Some t => exists a b, s = a ++ t ++ b | None => True end.
