(** Specification of [escaped0] for any parsers, any control character: in terms of what the parsers read. *)
From Verif Require Export SpecExact.

(** [P] reads what [g] says, wherever it stands, or gives a (recoverable) error. *)
Definition reads_as {A} (P : parser A) (g : str -> option (str * str)) : Prop :=
  forall o l p s,
  match g s with
  | Some (w, r) => s = w ++ r /\ exists a, P (span_at o l (p, s)) = Ok (span_at o l (p ++ w, r)) a
  | None => exists e, P (span_at o l (p, s)) = Bad (BError e)
  end.
(** The same; errors may be of any sort. *)
Definition tries_as {A} (P : parser A) (g : str -> option (str * str)) : Prop :=
  forall o l p s,
  match g s with
  | Some (w, r) => s = w ++ r /\ exists a, P (span_at o l (p, s)) = Ok (span_at o l (p ++ w, r)) a
  | None => (exists e, P (span_at o l (p, s)) = Bad (BError e)) \/ (exists e, P (span_at o l (p, s)) = Bad (BFailure e)) \/
            P (span_at o l (p, s)) = Bad BIncomplete
  end.

Section Escaped.
  Variables (normal escapable : str -> option (str * str)) (control : char).
  Definition no_normal (s : str) : Prop := forall w r, normal s = Some (w, r) -> w = [].
  (** [takes s t r]: of [s], the text [t] is taken, [r] is left. Normal text comes first. *)
  Inductive takes : str -> str -> str -> Prop :=
  | takes_nothing s : takes s [] s
  | takes_normal s w r t q : normal s = Some (w, r) -> w <> [] -> takes r t q -> takes s (w ++ t) q
  | takes_escaped s w r t q : no_normal (control :: s) -> s <> [] -> escapable s = Some (w, r) -> takes r t q ->
      takes (control :: s) (control :: w ++ t) q.

  Variables o l : N.
  Inductive escaped_gives (s : str) : result span -> Prop :=
  | escaped_text t r : takes s t r -> no_normal r -> ~ starts_with_in [control] r ->
      escaped_gives s (Ok (span_at o l (t, r)) (span_at o l ([], t)))
  | escaped_end t : takes s t [control] -> no_normal [control] ->
      escaped_gives s (recoverable (span_at o l ([], s)) KEscaped)
  | escaped_other t r : takes s t (control :: r) -> no_normal (control :: r) -> r <> [] -> escapable r = None ->
      escaped_gives s (recoverable (span_at o l (t, control :: r)) KEscaped).
End Escaped.

(** The usual parsers. *)
Fixpoint while (f : char -> bool) (s : str) : str * str :=
  match s with
  | c :: s' => if f c then let '(w, r) := while f s' in (c :: w, r) else ([], s)
  | [] => ([], [])
  end.
Definition longest0 (f : char -> bool) (s : str) : option (str * str) := Some (while f s).
Definition longest1 (f : char -> bool) (s : str) : option (str * str) :=
  match while f s with ([], _) => None | x => Some x end.
Definition any_of (cs : str) (s : str) : option (str * str) :=
  match s with c :: r => if in_dec N.eq_dec c cs then Some ([c], r) else None | [] => None end.

(** Characters of [f], and characters of [cs] behind the control character. The control character itself may be of [f]. *)
Inductive escaped_content (f : char -> bool) (control : char) (cs : str) : str -> Prop :=
| ec_nil : escaped_content f control cs []
| ec_plain c s : f c = true -> escaped_content f control cs s -> escaped_content f control cs (c :: s)
| ec_escaped c s : f control = false -> In c cs -> escaped_content f control cs s ->
    escaped_content f control cs (control :: c :: s).
