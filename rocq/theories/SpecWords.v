(** Specification: what two expressions, one after the other, stand for where they meet. Texts, optionals and
    alternations next to each other form a word; a slash anywhere in a word divides the whole word. Independent of
    the model's helpers. *)
From Verif Require Export SpecConcat.

(** The branches of a node that belongs to a word. *)
Definition node_branches {I} (x : single_expression I) : option (alternation I) :=
  match x with
  | ExText t => Some [[AltText t]]
  | ExOptional o => Some [[AltOptional o]]
  | ExAlternation a => Some a
  | ExParameter _ | ExWhitespaces _ => None
  end.
Definition of_word {I} (x : single_expression I) : Prop := node_branches x <> None.
(** Written one after the other: the last branch of the one goes on with the first branch of the other. *)
Fixpoint go_on {A} (a b : list (list A)) : list (list A) :=
  match a, b with
  | [], _ => b
  | [x], y :: b' => (x ++ y) :: b'
  | [x], [] => [x]
  | x :: a', _ => x :: go_on a' b
  end.
(** The branches of a word. *)
Definition word_branches {I} (l : expression I) : alternation I :=
  fold_right (fun x a => match node_branches x with Some b => go_on b a | None => a end) [[]] l.
(** [e] is [l], then a word that cannot be made longer, at the end. *)
Definition ends_in_word {I} (e l w : expression I) : Prop :=
  e = l ++ w /\ Forall of_word w /\ forall l' x, l = l' ++ [x] -> ~ of_word x.
Definition starts_with_word {I} (e w r : expression I) : Prop :=
  e = w ++ r /\ Forall of_word w /\ forall x r', r = x :: r' -> ~ of_word x.
