(** Specification: what is asked of a search by an automaton. *)
From Verif Require Export Automaton.

(** Loops without end are around something that does not match the empty string. *)
Fixpoint moving_loops (digit space word : char -> bool) (r : re) : Prop :=
  match r with
  | REmpty | RLit _ | RDot | RClass _ | RLook _ => True
  | RRep _ max _ r => moving_loops digit space word r /\ (max = None -> forall p q c, ~ rm digit space word r p [] q c)
  | RCap _ r => moving_loops digit space word r
  | RCat a b | RAlt a b => moving_loops digit space word a /\ moving_loops digit space word b
  end.
(** An answer to a search: the text of a match that starts as far to the left as any match does, followed by its
    groups; or that there is no match. *)
Definition leftmost_answer (digit space word : char -> bool) (r : re) (s : str) (x : option (list (option str))) : Prop :=
  match x with
  | None => forall pre mid post caps, s = pre ++ mid ++ post -> ~ rm digit space word r pre mid post caps
  | Some c => exists pre mid post caps, s = pre ++ mid ++ post /\ rm digit space word r pre mid post caps /\
      c = Some mid :: caps /\
      forall pre' mid' post' caps', s = pre' ++ mid' ++ post' -> rm digit space word r pre' mid' post' caps' ->
        (List.length pre <= List.length pre')%nat
  end.
(** A search with two turns for every state and place. *)
Definition automaton_runs (digit space word : char -> bool) (r : re) (s : str) : option (option (list (option str))) :=
  automaton_captures digit space word r s (2 * (S (List.length (program digit space word r)) * S (List.length s))).
