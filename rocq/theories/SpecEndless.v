(** Vocabulary for iterators that need not end. *)
From Verif Require Export SpecIter.

(** The state after [n] calls of [next]. *)
Fixpoint after {St A} (next : iter St A) (n : nat) (s : St) : St :=
  match n with
  | O => s
  | S n' => after next n' (snd (next s))
  end.
(** The first [length l] calls yield the items of [l]. *)
Definition yields {St A} (next : iter St A) (s : St) (l : list A) : Prop := outputs next (List.length l) s = map Some l.
(** Yields [f 0], [f 1], ... without end. *)
Definition endless {St A} (next : iter St A) (s : St) (f : nat -> A) : Prop := forall n, yields next s (map f (seq 0 n)).
(** No backslash at the end that would escape what follows. *)
Definition whole (l : str) : Prop := forall r, unescape (l ++ r) = unescape l ++ unescape r.
