(** Specification of the lazy expansion. *)
From Verif Require Export Lazy SpecIter.

(** How many calls of [next] it takes to see the first error or, if there is none, the end. *)
Fixpoint calls {I} (l : list (item I)) : nat :=
  match l with
  | [] => 1
  | IErr _ :: _ => 1
  | IOk _ :: l' => S (calls l')
  end.
