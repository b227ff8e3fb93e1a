(** Specification of the errors' messages and of what it means to follow their advice. Independent of
    the messages' model: only error types, strings and spans are used. *)
From Verif Require Export SpecParse.

(** [u] stands in [t]. *)
Definition within_text (u t : str) : Prop := exists l r, t = l ++ u ++ r.
(** Two errors of the same kind. *)
Definition same_kind {I J} (e : error I) (e' : error J) : Prop :=
  match e, e' with
  | Other _ _, Other _ _ => True
  | _, _ => map_error (fun _ => tt) e = map_error (fun _ => tt) e'
  end.
(** The character that an error is about: the one the user should escape. *)
Definition culprit {I} (e : error I) : str :=
  match e with
  | NestedParameter _ | UnfinishedParameter _ | ParameterInOptional _ => s_ "{"
  | OptionalInParameter _ | NestedOptional _ | EmptyOptional _ | UnfinishedOptional _
  | OnlyOptionalInAlternation _ => s_ "("
  | AlternationInOptional _ | EmptyAlternation _ => s_ "/"
  | UnescapedReservedCharacter _ => reserved
  | EscapedNonReservedCharacter _ | EscapedEndOfLine _ => s_ "\"
  | Other _ _ | ENeeded => []
  end.

(** The constructs of the language, and those an error is about (none: it is about characters). *)
Inductive construct := AParameter | AnOptional | AnAlternation.
Definition concerns {I} (e : error I) : list construct :=
  match e with
  | NestedParameter _ | UnfinishedParameter _ => [AParameter]
  | OptionalInParameter _ | ParameterInOptional _ => [AParameter; AnOptional]
  | NestedOptional _ | EmptyOptional _ | UnfinishedOptional _ => [AnOptional]
  | AlternationInOptional _ | OnlyOptionalInAlternation _ => [AnOptional; AnAlternation]
  | EmptyAlternation _ => [AnAlternation]
  | UnescapedReservedCharacter _ | EscapedNonReservedCharacter _ | EscapedEndOfLine _ | Other _ _ | ENeeded => []
  end.
(** A line speaks of a construct: by its name or by the character it starts with. *)
Definition speaks_of (k : construct) (m : str) : Prop :=
  match k with
  | AParameter => within_text (s_ "parameter") m \/ within_text (s_ "{") m
  | AnOptional => within_text (s_ "optional") m \/ within_text (s_ "(") m
  | AnAlternation => within_text (s_ "alternation") m \/ within_text (s_ "/") m
  end.

(** [pre] ends in an even number of backslashes: what follows is not escaped. *)
Fixpoint backslashes (rev_pre : str) : nat :=
  match rev_pre with
  | c :: r => if c =? backslash then S (backslashes r) else 0
  | [] => 0
  end.
Definition unescaped_after (pre : str) : Prop := Nat.even (backslashes (rev pre)) = true.

(** [advice e s s']: in [s] the error [e] points at an unescaped culprit; [s'] has it escaped, and is
    otherwise [s]. *)
Definition advice (e : error span) (s s' : str) : Prop :=
  exists i pre c post,
    error_span e = Some i /\ In c (culprit e) /\
    s = pre ++ c :: post /\ s' = pre ++ backslash :: c :: post /\
    off i <= blen pre /\ blen pre < off i + blen (frag i) /\ unescaped_after pre.

(** The input ends in a backslash that escapes nothing. *)
Definition trailing_backslash (s : str) : Prop :=
  exists pre, s = pre ++ [backslash] /\ unescaped_after pre.
(** The characters that may be escaped. *)
Definition reserved_count (s : str) : nat :=
  List.length (filter (fun c => existsb (fun d => c =? d) reserved) s).

(** [follows rejects n s s']: [s'] is [s] after following the advice [n] times, where [rejects s e]
    says which error [s] has. *)
Inductive follows (rejects : str -> error span -> Prop) : nat -> str -> str -> Prop :=
| follows_none s : follows rejects 0 s s
| follows_step n s s1 s2 e :
    rejects s e -> advice e s s1 -> follows rejects n s1 s2 -> follows rejects (S n) s s2.
