(** Property C65 (nesting of the regex). Statements only. *)
From Verif Require Import ProofNesting.

(** * C65: however long the expression, at most three groups of its regex are nested. *)
Theorem C65_nesting : forall s t r, addressable s -> expression_regex s = XOk t r -> (deepest 0 t <= 3)%nat.
Proof. exact regex_nesting. Qed.
Print Assumptions C65_nesting.
(** Three are reached; parentheses of the expression's text do not count. *)
Example C65_example :
  (exists t r, expression_regex (s_ "a(b)/c {float}") = XOk t r /\ deepest 0 t = 3%nat) /\
  (exists t r, expression_regex (s_ "\(\(\(\(a(b)/c") = XOk t r /\ deepest 0 t = 2%nat).
Proof. split; vm_compute; eauto. Qed.
