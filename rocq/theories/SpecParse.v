(** Vocabulary of the parser's properties. Independent of the parser's model: only the result and
    error types, [SpecAst] and [SpecErrors] are used. *)
From Verif Require Export SpecErrors.

(** Every Rust [str] is at most [isize::MAX] bytes, hence at most that many characters. *)
Definition addressable (s : str) : Prop := N.of_nat (List.length s) <= usize_max.

(** A parser's outcome that is a [Result] of the crate's own making. *)
Definition returns {A} (r : result A) : Prop :=
  match r with
  | Ok _ _ | Bad (BError _) | Bad (BFailure _) => True
  | Bad BIncomplete | Bad BPanic | Bad BFuel => False
  end.

(** The span's text is really there in [s], when [s] itself starts at byte [o] of line [l]. *)
Definition occurs_at (o l : N) (s : str) (i : span) : Prop :=
  exists pre post, s = pre ++ frag i ++ post /\ off i = o + blen pre /\ line i = l + newlines pre.


(** The span in an error. *)
Definition error_span {I} (e : error I) : option I :=
  match e with
  | NestedParameter i | OptionalInParameter i | UnfinishedParameter i | NestedOptional i
  | ParameterInOptional i | EmptyOptional i | AlternationInOptional i | UnfinishedOptional i
  | EmptyAlternation i | OnlyOptionalInAlternation i | UnescapedReservedCharacter i
  | EscapedNonReservedCharacter i | EscapedEndOfLine i | Other i _ => Some i
  | ENeeded => None
  end.
(** One of the thirteen specific errors. *)
Definition specific {I} (e : error I) : Prop :=
  match e with Other _ _ | ENeeded => False | _ => True end.

(** Moving by [o] bytes and [l] lines. *)
Definition shift_span (o l : N) (i : span) : span := mkspan (o + off i) (l + line i) (frag i).
Definition shift_bad (o l : N) (b : bad) : bad :=
  match b with
  | BError e => BError (map_error (shift_span o l) e)
  | BFailure e => BFailure (map_error (shift_span o l) e)
  | b => b
  end.
Definition shift_result {A} (o l : N) (f : A -> A) (r : result A) : result A :=
  match r with
  | Ok rest a => Ok (shift_span o l rest) (f a)
  | Bad b => Bad (shift_bad o l b)
  end.

(** Adding [k] to all parameter ids. *)
Definition add_ids {I} (k : N) (e : expression I) : expression I :=
  map (fun x => match x with
                | ExParameter p => ExParameter (mkParameter (par_input p) (par_id p + k))
                | x => x
                end) e.

(** The end of a word (text, optionals, alternation): the end of the input, a blank or a parameter. *)
Definition at_word_end (r : str) : Prop := r = [] \/ starts_with_in (s_ " {") r.
(** The end of a branch. *)
Definition at_branch_end (r : str) : Prop := r = [] \/ starts_with_in (s_ " {/") r.

(** Complete nodes, as far as they can be told before something broken. *)
Definition nodes (x : expression str) : Prop :=
  Forall wf_single x /\ (forall l y z r, x = l ++ y :: z :: r -> may_follow y z).
Definition word_start (x : expression str) : Prop :=
  nodes x /\
  (forall l y, x = l ++ [y] -> match y with ExParameter _ | ExWhitespaces _ => True | _ => False end).

(** [text_start pre special]: after [pre] the parser starts to read a name, the contents of an
    optional or a text; [special] are the characters that end it. *)
Inductive text_start : str -> str -> Prop :=
| starts_name x :
    nodes x -> text_start (source x ++ s_ "{") name_special
| starts_optional x a b :
    word_start x -> Forall branch a -> items b ->
    text_start (source x ++ slashed a ++ src_branch b ++ s_ "(") optional_special
| starts_text x a b :
    word_start x -> Forall branch a -> items b -> ~ ends_in_text b ->
    text_start (source x ++ slashed a ++ src_branch b) text_special.

(** [nested n s]: [s] starts with [n] brackets, each opened in the contents of the one before. *)
Inductive nested : nat -> str -> Prop :=
| nested_none s : nested 0 s
| nested_brace n t s : content name_special t -> nested n s -> nested (S n) (s_ "{" ++ t ++ s)
| nested_paren n t s : content optional_special t -> nested n s -> nested (S n) (s_ "(" ++ t ++ s).
(** The number of opening brackets. *)
Definition openings (s : str) : nat :=
  List.length (filter (fun c => (c =? c_ "{") || (c =? c_ "(")) s).
