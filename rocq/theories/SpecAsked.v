(** Specification side: expansion with a provider whose answers may change. *)
From Verif Require Export Asked SpecLazy.

Section Spec.
  Context {I : Type} (elements : I -> str).
  Context (digits spaces words : ranges) (to_string : hir -> str) (answer : history I -> I -> option str).

  (** What is done with the provider for one element: one clone, and one question if it is a parameter. *)
  Definition events (x : single_expression I) : history I :=
    match x with
    | ExParameter p => [Cloned; Asked (par_input p)]
    | _ => [Cloned]
    end.
  (** An element becomes what it becomes with a provider that always gives the answer given after all that was done for the
      elements before it, and after one more clone. *)
  Definition answered (before : expression I) (x : single_expression I) : list (item I) :=
    expand_single_custom elements digits spaces words to_string (answer (flat_map events before ++ [Cloned])) x.
  Definition answers (e : expression I) : list (item I) :=
    flat_map (fun n => match nth_error e n with Some x => answered (firstn n e) x | None => [] end) (seq 0 (List.length e)).
  (** Every char is there, no error. *)
  Definition fine (l : list (item I)) : Prop := Forall (fun x => match x with IOk _ => True | IErr _ => False end) l.
End Spec.

(** What the provider was asked for, in order. *)
Definition questions {I} (h : history I) : list I := flat_map (fun x => match x with Asked i => [i] | Cloned => [] end) h.
Definition clones {I} (h : history I) : nat := List.length (List.filter (fun x => match x with Cloned => true | Asked _ => false end) h).
(** The names of the parameters, in order. *)
Definition names {I} (e : expression I) : list I := flat_map (fun x => match x with ExParameter p => [par_input p] | _ => [] end) e.
