(** Specification of well-formed ASTs, their source text and the places of their nodes.
    Independent of the parser's model: only the AST type, strings and spans are used. *)
From Verif Require Export Ast Span.

(** ** Characters *)
Definition backslash : char := c_ "\".
(** README, src/parse.rs:39: the characters that may be escaped. *)
Definition reserved : str := s_ "{}()\/ ".
(** Characters that need a backslash: in a parameter's name, in an optional, in text
    (README: name-to-escape, optional-to-escape, alternative-to-escape). *)
Definition name_special : str := s_ "{}(/\".
Definition optional_special : str := s_ "(){/\".
Definition text_special : str := s_ " ({/\".

(** [content special t]: [t] is a sequence of plain characters (none of [special]) and of escapes
    (a backslash followed by a reserved character). *)
Inductive content (special : str) : str -> Prop :=
| content_nil : content special []
| content_plain c t : ~ In c special -> content special t -> content special (c :: t)
| content_escape c t : In c reserved -> content special t -> content special (backslash :: c :: t).

(** ** Source text of an AST *)
Definition src_alternative (a : alternative str) : str :=
  match a with
  | AltText t => t
  | AltOptional o => s_ "(" ++ opt_input o ++ s_ ")"
  end.
Definition src_branch (b : single_alternation str) : str := List.concat (map src_alternative b).
Fixpoint join (sep : str) (l : list str) : str :=
  match l with
  | [] => []
  | [x] => x
  | x :: l' => x ++ sep ++ join sep l'
  end.
Definition src_single (x : single_expression str) : str :=
  match x with
  | ExAlternation a => join (s_ "/") (map src_branch a)
  | ExOptional o => s_ "(" ++ opt_input o ++ s_ ")"
  | ExParameter p => s_ "{" ++ par_input p ++ s_ "}"
  | ExText t => t
  | ExWhitespaces w => w
  end.
Definition source (e : expression str) : str := List.concat (map src_single e).

(** ** Well-formedness *)
Definition wf_text (t : str) : Prop := t <> [] /\ content text_special t.
Definition wf_optional (o : optional str) : Prop :=
  opt_input o <> [] /\ content optional_special (opt_input o).
Definition wf_parameter (p : parameter str) : Prop := content name_special (par_input p).
Definition wf_alternative (a : alternative str) : Prop :=
  match a with AltText t => wf_text t | AltOptional o => wf_optional o end.
Definition is_text (a : alternative str) : Prop :=
  match a with AltText _ => True | AltOptional _ => False end.
(** A branch of an alternation: texts are maximal, and there is at least one. *)
Definition wf_branch (b : single_alternation str) : Prop :=
  Forall wf_alternative b /\ Exists is_text b /\
  (forall l x y r, b = l ++ x :: y :: r -> ~ (is_text x /\ is_text y)).
Definition wf_single (x : single_expression str) : Prop :=
  match x with
  | ExAlternation a => (2 <= List.length a)%nat /\ Forall wf_branch a
  | ExOptional o => wf_optional o
  | ExParameter p => wf_parameter p
  | ExText t => wf_text t
  | ExWhitespaces w => w <> [] /\ Forall (fun c => c = c_ " ") w
  end.
(** Which nodes may stand next to each other: texts and whitespaces are maximal, and an alternation
    takes in all texts and optionals around it. *)
Definition may_follow (x y : single_expression str) : Prop :=
  match x, y with
  | ExText _, ExText _ => False
  | ExWhitespaces _, ExWhitespaces _ => False
  | ExAlternation _, (ExAlternation _ | ExText _ | ExOptional _) => False
  | (ExText _ | ExOptional _), ExAlternation _ => False
  | _, _ => True
  end.
(** The parameters' ids, left to right. *)
Definition ids {I} (e : expression I) : list N :=
  flat_map (fun x => match x with ExParameter p => [par_id p] | _ => [] end) e.
(** [count_from n k] = [n; n+1; ...] ([k] numbers). *)
Fixpoint count_from (n : N) (k : nat) : list N :=
  match k with O => [] | S k' => n :: count_from (n + 1) k' end.
Definition wf (e : expression str) : Prop :=
  Forall wf_single e /\
  (forall l x y r, e = l ++ x :: y :: r -> may_follow x y) /\
  ids e = count_from 0 (List.length (ids e)).

(** ** Places. [place pre x] attaches to every text the whole input before it, given that [x]
    itself starts after [pre]. *)
Definition text_at : Type := str * str.  (* (everything before, the text) *)
Definition place_alternative (pre : str) (a : alternative str) : alternative text_at :=
  match a with
  | AltText t => AltText (pre, t)
  | AltOptional o => AltOptional (mkOptional (pre ++ s_ "(", opt_input o))
  end.
Fixpoint place_branch (pre : str) (b : single_alternation str) : single_alternation text_at :=
  match b with
  | [] => []
  | a :: b' => place_alternative pre a :: place_branch (pre ++ src_alternative a) b'
  end.
Fixpoint place_alternation (pre : str) (a : alternation str) : alternation text_at :=
  match a with
  | [] => []
  | b :: a' => place_branch pre b :: place_alternation (pre ++ src_branch b ++ s_ "/") a'
  end.
Definition place_single (pre : str) (x : single_expression str) : single_expression text_at :=
  match x with
  | ExAlternation a => ExAlternation (place_alternation pre a)
  | ExOptional o => ExOptional (mkOptional (pre ++ s_ "(", opt_input o))
  | ExParameter p => ExParameter (mkParameter (pre ++ s_ "{", par_input p) (par_id p))
  | ExText t => ExText (pre, t)
  | ExWhitespaces w => ExWhitespaces (pre, w)
  end.
Fixpoint place (pre : str) (e : expression str) : expression text_at :=
  match e with
  | [] => []
  | x :: e' => place_single pre x :: place (pre ++ src_single x) e'
  end.

(** ** Mapping the inputs of an AST. *)
Section Map.
  Context {I J : Type} (f : I -> J).
  Definition map_optional (o : optional I) : optional J := mkOptional (f (opt_input o)).
  Definition map_parameter (p : parameter I) : parameter J :=
    mkParameter (f (par_input p)) (par_id p).
  Definition map_alternative (a : alternative I) : alternative J :=
    match a with
    | AltOptional o => AltOptional (map_optional o)
    | AltText t => AltText (f t)
    end.
  Definition map_alternation (a : alternation I) : alternation J := map (map map_alternative) a.
  Definition map_single (x : single_expression I) : single_expression J :=
    match x with
    | ExAlternation a => ExAlternation (map_alternation a)
    | ExOptional o => ExOptional (map_optional o)
    | ExParameter p => ExParameter (map_parameter p)
    | ExText t => ExText (f t)
    | ExWhitespaces w => ExWhitespaces (f w)
    end.
  Definition map_expression (e : expression I) : expression J := map map_single e.
End Map.

(** The span of a text in an input that itself starts at byte [o] of line [l]. *)
Definition span_at (o l : N) (x : text_at) : span :=
  mkspan (o + blen (fst x)) (l + newlines (fst x)) (snd x).

(** The AST, all of whose nodes carry the spans they have in an input starting at [o], [l]. *)
Definition locate (o l : N) (e : expression str) : expression span :=
  map_expression (span_at o l) (place [] e).

(** All inputs in an AST, left to right. *)
Definition alternative_input {I} (a : alternative I) : I :=
  match a with AltText t => t | AltOptional o => opt_input o end.
Definition inputs_single {I} (x : single_expression I) : list I :=
  match x with
  | ExAlternation a => map alternative_input (List.concat a)
  | ExOptional o => [opt_input o]
  | ExParameter p => [par_input p]
  | ExText t => [t]
  | ExWhitespaces w => [w]
  end.
Definition inputs {I} (e : expression I) : list I := flat_map inputs_single e.
