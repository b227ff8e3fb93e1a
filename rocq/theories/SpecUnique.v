(** When the values of an expression's parameters are determined by the subject. Independent of the
    expansion and of the regex model. *)
From Verif Require Export SpecExpand.

Section Lucid.
  Context {I : Type} (text : I -> str) (digit space : char -> bool).
  Let param := fun p => typed digit space (text (@par_input I p)).

  (** Elements that stand for one string only. *)
  Definition literal (x : single_expression I) (t : str) : Prop :=
    match x with
    | ExText u | ExWhitespaces u => t = unescape (text u)
    | _ => False
    end.
  (** Elements whose end may be in doubt: texts, optionals, alternations without any parameter, or one
      parameter. *)
  Definition unit_ (u : expression I) : Prop :=
    parameters u = [] \/ exists p, u = [ExParameter p].
  (** The end, or a literal that starts with a char that [u] cannot stand for. *)
  Definition delimited (u e : expression I) : Prop :=
    e = [] \/
    exists x e' d t, e = x :: e' /\ literal x (d :: t) /\
      forall l, pieces text param u l -> ~ In d (List.concat (map fst l)).
  Inductive lucid : expression I -> Prop :=
  | lucid_nil : lucid []
  | lucid_literal x t e : literal x t -> lucid e -> lucid (x :: e)
  | lucid_string p e : text (par_input p) = s_ "string" -> lucid e -> lucid (ExParameter p :: e)
  | lucid_delimited u e : unit_ u -> delimited u e -> lucid e -> lucid (u ++ e).
End Lucid.

(** A condition that can be seen at a glance: every parameter is one of int, float, word, string and
    stands between blanks, and the texts contain no blanks. *)
Section Spaced.
  Context {I : Type} (text : I -> str).
  Definition blank_free (i : I) : Prop := ~ In (c_ " ") (unescape (text i)).
  Definition blank_free_alternative (a : alternative I) : Prop :=
    match a with AltOptional o => blank_free (opt_input o) | AltText t => blank_free t end.
  Definition plain_element (x : single_expression I) : Prop :=
    match x with
    | ExText t => blank_free t
    | ExOptional o => blank_free (opt_input o)
    | ExAlternation a => Forall (Forall blank_free_alternative) a
    | ExParameter _ | ExWhitespaces _ => False
    end.
  Definition at_blank (e : expression I) : Prop :=
    e = [] \/ exists w e' t, e = ExWhitespaces w :: e' /\ unescape (text w) = c_ " " :: t.
  Inductive spaced : expression I -> Prop :=
  | spaced_nil : spaced []
  | spaced_blank w e : spaced e -> spaced (ExWhitespaces w :: e)
  | spaced_plain u e : Forall plain_element u -> at_blank e -> spaced e -> spaced (u ++ e)
  | spaced_parameter p e : In (text (par_input p)) [s_ "int"; s_ "float"; s_ "word"; s_ "string"] ->
      at_blank e -> spaced e -> spaced (ExParameter p :: e).
End Spaced.
