(** Specification: the runs of an automaton that do not come back, and their order. *)
From Verif Require Export Automaton.

Section Runs.
  Context (prog : list inst) (subject : str).
  (** A run from a state at a place to a match that is nowhere twice and nowhere it has been already: which way it goes
      where it can go two ways ([true]: the second), the slots at the end. *)
  Inductive steadily : list (nat * nat) -> nat -> nat -> slots -> list bool -> slots -> Prop :=
  | r_match been pc p sl : ~ In (pc, p) been -> nth_error prog pc = Some IMatch -> steadily been pc p sl [] sl
  | r_one been pc p sl ways f t n c : ~ In (pc, p) been -> nth_error prog pc = Some (IOne t n) -> nth_error subject p = Some c -> t c = true ->
      steadily ((pc, p) :: been) n (S p) sl ways f -> steadily been pc p sl ways f
  | r_look been pc p sl ways f h n : ~ In (pc, p) been -> nth_error prog pc = Some (ILook h n) -> h (firstn p subject) (skipn p subject) = true ->
      steadily ((pc, p) :: been) n p sl ways f -> steadily been pc p sl ways f
  | r_first been pc p sl ways f a b : ~ In (pc, p) been -> nth_error prog pc = Some (ISplit a b) ->
      steadily ((pc, p) :: been) a p sl ways f -> steadily been pc p sl (false :: ways) f
  | r_second been pc p sl ways f a b : ~ In (pc, p) been -> nth_error prog pc = Some (ISplit a b) ->
      steadily ((pc, p) :: been) b p sl ways f -> steadily been pc p sl (true :: ways) f
  | r_save been pc p sl ways f i n : ~ In (pc, p) been -> nth_error prog pc = Some (ISave i n) ->
      steadily ((pc, p) :: been) n p (set_slot i (Some p) sl) ways f -> steadily been pc p sl ways f.
End Runs.
(** One run is preferred to another: it goes the first way where the other goes the second. *)
Definition before (w w' : list bool) : Prop := exists u a b, w = u ++ false :: a /\ w' = u ++ true :: b.
(** An answer to a search: the groups of the run preferred to all others from the leftmost place where there is any. *)
Definition first_run (prog : list inst) (start : nat) (s : str) (g : nat) (x : option (list (option str))) : Prop :=
  let from q := steadily prog s [] start q (repeat None (2 * g)) in
  match x with
  | None => forall q w f, (q <= List.length s)%nat -> ~ from q w f
  | Some c => exists q w f, (q <= List.length s)%nat /\ from q w f /\ c = map (group_at s f) (seq 0 g) /\
      (forall w' f', from q w' f' -> w' = w \/ before w w') /\
      forall q' w' f', (q' < q)%nat -> ~ from q' w' f'
  end.
