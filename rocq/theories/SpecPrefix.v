(** Specification: strings told apart by what may follow them, and a finite automaton. Independent of the
    parser's model. *)
From Verif Require Export SpecParse SpecGrammar.

(** ** The automaton: reads a string char by char, keeping one of sixteen states. *)
(** Where a word stands: nothing but optionals so far; nothing but optionals since the last slash; a text since
    the last slash (or in the word, if it has no slash). *)
Inductive word : Type := Fresh | Needs | Has.
Inductive state : Type :=
| Outside (w : word)
| Escape
| OptionalStart (w : word)
| Optional (w : word)
| OptionalEscape (w : word)
| Name
| NameEscape
| Dead.

Definition outside (w : word) (c : char) : state :=
  if c =? c_ " " then match w with Needs => Dead | _ => Outside Fresh end
  else if c =? c_ "{" then match w with Needs => Dead | _ => Name end
  else if c =? c_ "(" then OptionalStart w
  else if c =? c_ "/" then match w with Has => Outside Needs | _ => Dead end
  else if c =? c_ "\" then Escape
  else Outside Has.
Definition in_optional (w : word) (c : char) : state :=
  if existsb (N.eqb c) (s_ "({/") then Dead
  else if c =? c_ "\" then OptionalEscape w
  else Optional w.
Definition escaping (q : state) (c : char) : state :=
  if existsb (N.eqb c) (s_ "{}()\/ ") then q else Dead.
Definition step (q : state) (c : char) : state :=
  match q with
  | Outside w => outside w c
  | Escape => escaping (Outside Has) c
  | OptionalStart w => if c =? c_ ")" then Dead else in_optional w c
  | Optional w => if c =? c_ ")" then Outside w else in_optional w c
  | OptionalEscape w => escaping (Optional w) c
  | Name =>
      if c =? c_ "}" then Outside Fresh
      else if existsb (N.eqb c) (s_ "{(/") then Dead
      else if c =? c_ "\" then NameEscape
      else Name
  | NameEscape => escaping Name c
  | Dead => Dead
  end.
Definition accepting (q : state) : bool :=
  match q with Outside Fresh | Outside Has => true | _ => false end.
Definition reads_to (s : str) : state := fold_left step s (Outside Fresh).

(** ** Strings told apart by what may follow them. *)
(** [a] and [b] may be followed by the same. *)
Definition interchangeable (accepted : str -> Prop) (a b : str) : Prop :=
  forall t, addressable (a ++ t) -> addressable (b ++ t) -> accepted (a ++ t) <-> accepted (b ++ t).
(** [s] can be completed to something accepted, by at most [n] characters. *)
Definition completable (accepted : str -> Prop) (s : str) : Prop :=
  exists t, addressable (s ++ t) /\ accepted (s ++ t).
Definition completable_by (accepted : str -> Prop) (n : nat) (s : str) : Prop :=
  exists t, (List.length t <= n)%nat /\ accepted (s ++ t).

(** Errors after which no continuation helps, by their kind. *)
Definition beyond_repair {I} (e : error I) : Prop :=
  match e with
  | NestedParameter _ | OptionalInParameter _ | NestedOptional _ | ParameterInOptional _
  | EmptyOptional _ | AlternationInOptional _ | UnescapedReservedCharacter _ => True
  | _ => False
  end.
