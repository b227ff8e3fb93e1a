(** How much of an expression is read again and again: the texts and optionals up to the end of their word. *)
From Verif Require Export SpecAst.

(** The chars of the texts and optionals at the start. *)
Fixpoint word_length (e : expression str) : nat :=
  match e with
  | ExText t :: e' => List.length t + word_length e'
  | ExOptional o :: e' => 2 + List.length (opt_input o) + word_length e'
  | _ => 0
  end%nat.
(** The same at every node, together. *)
Fixpoint rescanned (e : expression str) : nat :=
  match e with
  | [] => 0
  | x :: e' => word_length (x :: e') + rescanned e'
  end%nat.
(** No word is longer than [w] chars. *)
Definition words_within (w : nat) (e : expression str) : Prop := forall l r, e = l ++ r -> (word_length r <= w)%nat.
