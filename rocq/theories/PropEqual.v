(** Property C79 (derived equality). Statements only; every proof is a lemma of the proof layer. *)
From Verif Require Import ProofParse2 ProofEqual.

(** * C79: equality of expressions and errors is that of their texts, and of parsed expressions that of their sources. *)
Theorem C79_expression : forall I J (f : I -> J) eq, (forall a b, eq a b = true <-> f a = f b) ->
  forall a b, expression_eq eq a b = true <-> map_expression f a = map_expression f b.
Proof. exact (fun I J => @expression_eq_iff I J). Qed.
Theorem C79_error : forall I J (f : I -> J) eq, (forall a b, eq a b = true <-> f a = f b) ->
  forall a b, error_eq eq a b = true <-> map_error f a = map_error f b.
Proof. exact (fun I J => @error_eq_iff I J). Qed.
Theorem C79_spanned : forall a b, expression_eq span_eq a b = true <-> a = b.
Proof. exact expression_eq_spans. Qed.
Theorem C79_spanned_error : forall a b, error_eq span_eq a b = true <-> a = b.
Proof. exact error_eq_spans. Qed.
Print Assumptions C79_expression. Print Assumptions C79_error.
Print Assumptions C79_spanned. Print Assumptions C79_spanned_error.

(** Whatever [Eq] the inputs have, the derived one is an equivalence. *)
Theorem C79_lawful : forall I (eq : I -> I -> bool), Equivalence (fun a b => eq a b = true) ->
  Equivalence (fun a b => expression_eq eq a b = true).
Proof. exact (fun I => @expression_eq_lawful I). Qed.
Theorem C79_lawful_error : forall I (eq : I -> I -> bool), Equivalence (fun a b => eq a b = true) ->
  Equivalence (fun a b => error_eq eq a b = true).
Proof. exact (fun I => @error_eq_lawful I). Qed.
Print Assumptions C79_lawful. Print Assumptions C79_lawful_error.

Theorem C79_parsed : forall s1 s2 e1 e2, addressable s1 -> addressable s2 ->
  expression_parse s1 = RetOk e1 -> expression_parse s2 = RetOk e2 ->
  expression_eq span_eq e1 e2 = true <-> s1 = s2.
Proof. exact equal_parsed. Qed.
(** Even if only the texts of the nodes are compared. *)
Theorem C79_parsed_texts : forall s1 s2 e1 e2, addressable s1 -> addressable s2 ->
  expression_parse s1 = RetOk e1 -> expression_parse s2 = RetOk e2 ->
  expression_eq (fun a b => str_eqb (frag a) (frag b)) e1 e2 = true <-> s1 = s2.
Proof. exact equal_texts. Qed.
Print Assumptions C79_parsed. Print Assumptions C79_parsed_texts.

Definition parsed_equal (s1 s2 : str) : option bool :=
  match expression_parse s1, expression_parse s2 with
  | RetOk e1, RetOk e2 => Some (expression_eq span_eq e1 e2)
  | _, _ => None
  end.
Example C79_example :
  parsed_equal (s_ "a/b(c) {int}") (s_ "a/b(c) {int}") = Some true /\
  parsed_equal (s_ "a/b(c) {int}") (s_ "a/b\(c\) {int}") = Some false /\
  parsed_equal (s_ "a{b}") (s_ "a(b)") = Some false.
Proof. vm_compute. easy. Qed.
(** Expressions whose errors are equal can differ. *)
Example C79_example_errors :
  expression_parse (s_ "a(") = RetErr (UnfinishedOptional (mkspan 1 1 (s_ "("))) /\
  expression_parse (s_ "b(") = RetErr (UnfinishedOptional (mkspan 1 1 (s_ "("))).
Proof. vm_compute. easy. Qed.
