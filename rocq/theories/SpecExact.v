(** Specification: exactly what each public parser gives. Independent of the parsers' model: only the types of
    results and errors, [SpecAst], [SpecErrors] and [SpecParse] are used. *)
From Verif Require Export SpecParse.

(** Errors that leave the choice to the caller keep nom's kind and the place where they arose. *)
Definition recoverable {A} (i : span) (k : error_kind) : result A := Bad (BError (Other i k)).
Definition failure {A} (o l : N) (e : error text_at) : result A := Bad (BFailure (locate_error o l e)).

Section At.
  (** The input starts at byte [o] of line [l]. *)
  Variables o l : N.
  Notation here := (span_at o l).

  Inductive parameter_gives : str -> N -> result (parameter span) * N -> Prop :=
  | parameter_read t r ix : content name_special t ->
      parameter_gives (s_ "{" ++ t ++ s_ "}" ++ r) ix
        (Ok (here (s_ "{" ++ t ++ s_ "}", r)) (mkParameter (here (s_ "{", t)) ix), ix + 1)
  | parameter_absent s ix : ~ starts_with_in (s_ "{") s ->
      parameter_gives s ix (recoverable (here ([], s)) KTag, ix)
  | parameter_broken s e ix : parameter_error s e ->
      parameter_gives s ix (failure o l e, ix).

  Inductive optional_gives : str -> result (optional span) -> Prop :=
  | optional_read t r : t <> [] -> content optional_special t ->
      optional_gives (s_ "(" ++ t ++ s_ ")" ++ r)
        (Ok (here (s_ "(" ++ t ++ s_ ")", r)) (mkOptional (here (s_ "(", t))))
  | optional_absent s : ~ starts_with_in (s_ "(") s ->
      optional_gives s (recoverable (here ([], s)) KTag)
  | optional_broken s e : optional_error s e ->
      optional_gives s (failure o l e).

  (** A text or an optional; texts are as long as possible. *)
  Inductive alternative_gives : str -> result (alternative span) -> Prop :=
  | alternative_text t r : t <> [] -> content text_special t -> r = [] \/ starts_with_in (s_ " ({/") r ->
      alternative_gives (t ++ r) (Ok (here (t, r)) (AltText (here ([], t))))
  | alternative_optional t r : t <> [] -> content optional_special t ->
      alternative_gives (s_ "(" ++ t ++ s_ ")" ++ r)
        (Ok (here (s_ "(" ++ t ++ s_ ")", r)) (AltOptional (mkOptional (here (s_ "(", t)))))
  | alternative_absent s : at_branch_end s ->
      alternative_gives s (recoverable (here ([], s)) KAlt)
  | alternative_broken s e : item_error s e ->
      alternative_gives s (failure o l e).

  (** Several branches up to the end of the word. *)
  Inductive alternation_gives : str -> result (alternation span) -> Prop :=
  | alternation_read a r : wf_single (ExAlternation a) -> at_word_end r ->
      alternation_gives (src_single (ExAlternation a) ++ r)
        (Ok (here (src_single (ExAlternation a), r)) (map_alternation here (place_alternation [] a)))
  | alternation_absent s : at_word_end s ->
      alternation_gives s (recoverable (here ([], s)) KMany1)
  | alternation_one_branch b r : branch b -> at_word_end r ->
      alternation_gives (src_branch b ++ r) (recoverable (here (src_branch b, r)) KTag)
  | alternation_broken s e : alternation_error s e ->
      alternation_gives s (failure o l e).

  (** What may come after a node: nothing that would make it longer, or a part of an alternation. *)
  Definition within_one_branch (s : str) : Prop :=
    exists b r, items b /\ s = src_branch b ++ r /\ at_word_end r.
  Definition may_precede (x : single_expression str) (r : str) : Prop :=
    match x with
    | ExAlternation _ => at_word_end r
    | ExOptional _ => within_one_branch r
    | ExParameter _ => True
    | ExText _ => (r = [] \/ starts_with_in (s_ " ({/") r) /\ within_one_branch r
    | ExWhitespaces _ => ~ starts_with_in (s_ " ") r
    end.
  Inductive single_gives : str -> N -> result (single_expression span) * N -> Prop :=
  | single_parameter p r : wf_single (ExParameter p) ->
      single_gives (src_single (ExParameter p) ++ r) (par_id p)
        (Ok (here (src_single (ExParameter p), r)) (map_single here (place_single [] (ExParameter p))), par_id p + 1)
  | single_other x r ix : wf_single x -> may_precede x r -> (forall p, x <> ExParameter p) ->
      single_gives (src_single x ++ r) ix (Ok (here (src_single x, r)) (map_single here (place_single [] x)), ix)
  | single_absent ix :
      single_gives [] ix (recoverable (here ([], [])) KAlt, ix)
  | single_broken s e ix : single_error s e ->
      single_gives s ix (failure o l e, ix).

  Inductive expression_gives : str -> result (expression span) -> Prop :=
  | expression_read e : wf e ->
      expression_gives (source e) (Ok (here (source e, [])) (locate o l e))
  | expression_fails s e : expression_error s e ->
      expression_gives s (failure o l e).
End At.
