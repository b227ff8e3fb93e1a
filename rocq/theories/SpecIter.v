(** Vocabulary for the iterators' properties. Independent of the iterators' definitions. *)
From Verif Require Export Iter.

(** The results of the first [n] calls of [next]. *)
Fixpoint outputs {St A} (next : iter St A) (n : nat) (s : St) : list (option A) :=
  match n with
  | O => []
  | S n' => let '(x, s') := next s in x :: outputs next n' s'
  end.
(** Yields the items of [l], then [None] forever. *)
Definition iterates {St A} (next : iter St A) (s : St) (l : list A) : Prop :=
  forall n, outputs next n s = firstn n (map Some l ++ repeat None n).
(** Yields the items of [l], then [None] once (it may start again after that). *)
Definition finishes {St A} (next : iter St A) (s : St) (l : list A) : Prop :=
  outputs next (S (List.length l)) s = map Some l ++ [None].

(** The chars that have a meaning in a regex. *)
Definition regex_special : str := s_ "^$[]()\{}.|?*+".
(** A regex for one char. *)
Definition quote (c : char) : str :=
  if in_dec N.eq_dec c regex_special then [c_ "\"; c] else [c].
(** A text without its backslash escapes; a backslash at the end stands for nothing. *)
Fixpoint unescape (s : str) : str :=
  match s with
  | [] => []
  | c :: s' =>
      if N.eq_dec c (c_ "\")
      then match s' with [] => [] | d :: s'' => d :: unescape s'' end
      else c :: unescape s'
  end.
