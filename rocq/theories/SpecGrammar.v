(** Specification: the grammar of the README (lines 45-70), read literally, and the grammar as
    implemented. Languages are predicates on strings, written with the operators of EBNF. *)
From Verif Require Export SpecAst.

Definition lang : Type := str -> Prop.
Definition lit (t : str) : lang := fun s => s = t.
(** One of the characters of [t]. *)
Definition one (t : str) : lang := fun s => exists c, In c t /\ s = [c].
(** EBNF [(- t)]: any one character but those of [t]. *)
Definition none (t : str) : lang := fun s => exists c, ~ In c t /\ s = [c].
Definition alt (a b : lang) : lang := fun s => a s \/ b s.
Definition seq (a b : lang) : lang := fun s => exists x y, a x /\ b y /\ s = x ++ y.
Inductive star (a : lang) : lang :=
| star_nil : star a []
| star_app x y : a x -> star a y -> star a (x ++ y).
Definition plus (a : lang) : lang := seq a (star a).

Declare Scope lang_scope.
Delimit Scope lang_scope with lang.
Bind Scope lang_scope with lang.
Infix "<|>" := alt (at level 60, right associativity) : lang_scope.
Infix ";;" := seq (at level 55, right associativity) : lang_scope.

Module Readme.
  Local Open Scope lang_scope.
  (** README.md:54 text-to-escape, :61 alternative-to-escape, :66 optional-to-escape, :70 name-to-escape,
      :62 whitespace *)
  Definition text_to_escape : str := s_ "({/\".
  Definition alternative_to_escape : str := s_ " ({/\".
  Definition optional_to_escape : str := s_ "(){/\".
  Definition name_to_escape : str := s_ "{}(/\".
  Definition whitespace : lang := lit (s_ " ").
  (** README.md:52 *)
  Definition text_without_whitespace : lang :=
    none (text_to_escape ++ s_ " ") <|> lit (s_ "\") ;; one text_to_escape.
  (** README.md:59 *)
  Definition text_in_alternative : lang :=
    none alternative_to_escape <|> lit (s_ "\") ;; one alternative_to_escape.
  (** README.md:64-66 *)
  Definition text_in_optional : lang :=
    none optional_to_escape <|> lit (s_ "\") ;; one optional_to_escape.
  Definition optional : lang := lit (s_ "(") ;; plus text_in_optional ;; lit (s_ ")").
  (** README.md:68-70 *)
  Definition name : lang := none name_to_escape <|> lit (s_ "\") ;; one name_to_escape.
  Definition parameter : lang := lit (s_ "{") ;; star name ;; lit (s_ "}").
  (** README.md:56-58 *)
  Definition single_alternation : lang :=
    plus (plus text_in_alternative ;; star optional <|> plus optional ;; plus text_in_alternative).
  Definition alternation : lang :=
    single_alternation ;; plus (lit (s_ "/") ;; single_alternation).
  (** README.md:45-51 *)
  Definition single_expression : lang :=
    alternation <|> optional <|> parameter <|> plus text_without_whitespace <|> plus whitespace.
  Definition expression : lang := star single_expression.
End Readme.

(** The grammar as implemented (C06): any reserved character may be escaped anywhere, and a single
    alternation is any sequence of texts and optionals with at least one text. *)
Module Corrected.
  Local Open Scope lang_scope.
  Definition escape : lang := lit (s_ "\") ;; one (s_ "{}()\/ ").
  Definition text : lang := none (s_ " ({/\") <|> escape.
  Definition text_in_optional : lang := none (s_ "(){/\") <|> escape.
  Definition name : lang := none (s_ "{}(/\") <|> escape.
  Definition optional : lang := lit (s_ "(") ;; plus text_in_optional ;; lit (s_ ")").
  Definition parameter : lang := lit (s_ "{") ;; star name ;; lit (s_ "}").
  Definition single_alternation : lang :=
    star (text <|> optional) ;; text ;; star (text <|> optional).
  Definition alternation : lang :=
    single_alternation ;; plus (lit (s_ "/") ;; single_alternation).
  Definition single_expression : lang :=
    alternation <|> optional <|> parameter <|> plus text <|> plus (lit (s_ " ")).
  Definition expression : lang := star single_expression.
End Corrected.
