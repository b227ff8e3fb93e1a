(** How many texts and optionals the words of an expression have. *)
From Verif Require Export SpecAst.

(** The texts and optionals at the start. *)
Fixpoint word_parts (e : expression str) : nat :=
  match e with
  | (ExText _ | ExOptional _) :: e' => S (word_parts e')
  | _ => 0
  end%nat.
(** No word has more than [k]. *)
Definition parts_within (k : nat) (e : expression str) : Prop := forall l r, e = l ++ r -> (word_parts r <= k)%nat.
