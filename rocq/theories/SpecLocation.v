(** Specification: where an expression goes wrong. Independent of the parser's model. *)
From Verif Require Export SpecPrefix.

(** [p] is the longest beginning of [s] that can be completed, and [c] the character that ruins it. *)
Definition ruined (accepted : str -> Prop) (s p : str) (c : char) : Prop :=
  exists q, s = p ++ c :: q /\ completable accepted p /\ ~ completable accepted (p ++ [c]).
(** In its last word [s] has a branch made of optionals only, followed by a slash. *)
Definition hidden (s : str) : Prop :=
  exists x a r, word_start x /\ Forall branch a /\ Exists (fun b => ~ Exists is_text b) a /\
    s = source x ++ slashed a ++ r.
