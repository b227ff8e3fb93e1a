(** Specification: which of the accepted expressions the README's grammar derives, told by their ASTs. *)
From Verif Require Export SpecGrammar.

(** Every backslash of [t] escapes, and escapes one of the characters [escaped]. *)
Inductive escapes_only (escaped : str) : str -> Prop :=
| only_nil : escapes_only escaped []
| only_plain c t : c <> backslash -> escapes_only escaped t -> escapes_only escaped (c :: t)
| only_escape c t : In c escaped -> escapes_only escaped t -> escapes_only escaped (backslash :: c :: t).

Definition readme_optional (o : optional str) : Prop :=
  escapes_only Readme.optional_to_escape (opt_input o).
Definition readme_alternative (a : alternative str) : Prop :=
  match a with
  | AltText t => escapes_only Readme.alternative_to_escape t
  | AltOptional o => readme_optional o
  end.
(** A single text of one character, maybe escaped, with optionals before and after. *)
Definition pinched (b : single_alternation str) : Prop :=
  exists l t r, b = l ++ AltText t :: r /\ l <> [] /\ r <> [] /\
    Forall (fun x => ~ is_text x) l /\ Forall (fun x => ~ is_text x) r /\
    (exists c, t = [c] \/ t = [backslash; c]).
(** The branches that are neither the first nor the last. *)
Definition inner_branches (a : alternation str) : alternation str := removelast (tl a).
Definition readme_single (x : single_expression str) : Prop :=
  match x with
  | ExAlternation a =>
      Forall (Forall readme_alternative) a /\ Forall (fun b => ~ pinched b) (inner_branches a)
  | ExOptional o => readme_optional o
  | ExParameter p => escapes_only Readme.name_to_escape (par_input p)
  | ExText t => escapes_only Readme.text_to_escape t
  | ExWhitespaces _ => True
  end.
Definition follows_readme (e : expression str) : Prop := Forall readme_single e.
