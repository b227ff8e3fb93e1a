(** Specification of nom's [escaped] for any parsers, any control character. *)
From Verif Require Export SpecEscaped Escaped.

Section NomEscaped.
  Context {B : Type}.
  Variables (normal escapable : str -> option (str * str)) (control : char) (E_ : parser B).
  (** As [takes], but what is escaped is looked for only where [normal] fails: not where it takes the empty text. *)
  Inductive nom_takes : str -> str -> str -> Prop :=
  | nom_takes_nothing s : nom_takes s [] s
  | nom_takes_normal s w r t q : normal s = Some (w, r) -> w <> [] -> nom_takes r t q -> nom_takes s (w ++ t) q
  | nom_takes_escaped s w r t q : normal (control :: s) = None -> s <> [] -> escapable s = Some (w, r) -> nom_takes r t q ->
      nom_takes (control :: s) (control :: w ++ t) q.

  Variables o l : N.
  Inductive nom_gives (s : str) : result span -> Prop :=
  | nom_all t : nom_takes s t [] -> nom_gives s (Ok (span_at o l (t, [])) (span_at o l ([], t)))
  | nom_empty t r q : nom_takes s t r -> r <> [] -> normal r = Some ([], q) ->
      nom_gives s (Ok (span_at o l (t, r)) (span_at o l ([], t)))
  | nom_text t r : nom_takes s t r -> t <> [] -> r <> [] -> normal r = None -> ~ starts_with_in [control] r ->
      nom_gives s (Ok (span_at o l (t, r)) (span_at o l ([], t)))
  | nom_nothing : s <> [] -> normal s = None -> ~ starts_with_in [control] s ->
      nom_gives s (recoverable (span_at o l ([], s)) KEscaped)
  | nom_end t : nom_takes s t [control] -> normal [control] = None ->
      nom_gives s (recoverable (span_at o l ([], s)) KEscaped)
  | nom_error t r b : nom_takes s t (control :: r) -> normal (control :: r) = None -> r <> [] ->
      escapable r = None -> E_ (span_at o l (t ++ [control], r)) = Bad b -> nom_gives s (Bad b).
End NomEscaped.
