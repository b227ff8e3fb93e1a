(** Properties C72 (what can be read off by looking for unescaped characters) and C67 as to parameters. Statements only.
    [between open close s] are, as spans, the texts between an unescaped [open] and the next unescaped [close]. *)
From Verif Require Import ProofMarks.

(** * C72: unescaped braces, parentheses and slashes tell the parameters, optionals and branches. *)
Theorem C72_parameters : forall s e, addressable s -> expression_parse s = RetOk e ->
  map par_input (parameters e) = between (c_ "{") (c_ "}") s.
Proof. exact parsed_braces. Qed.
Theorem C72_optionals : forall s e, addressable s -> expression_parse s = RetOk e ->
  map opt_input (optionals e) = between (c_ "(") (c_ ")") s.
Proof. exact parsed_parens. Qed.
Theorem C72_branches : forall s e, addressable s -> expression_parse s = RetOk e ->
  later_branches e = map off (between (c_ "/") (c_ "/") s).
Proof. exact parsed_slashes. Qed.
Print Assumptions C72_parameters. Print Assumptions C72_optionals. Print Assumptions C72_branches.
(** Closing characters that close nothing, escaped ones, and optionals in alternations. *)
Example C72_example : exists e, expression_parse (s_ "a} \{b\} {x)\}y} c(d )/(\)})e) {}") = RetOk e /\
  map (fun p => frag (par_input p)) (parameters e) = [s_ "x)\}y"; []] /\
  map (fun o => frag (opt_input o)) (optionals e) = [s_ "d "; s_ "\)}"] /\ later_branches e = [23].
Proof. eexists. split; [vm_compute; reflexivity|]. vm_compute. auto. Qed.

(** * C67, as to parameters, optionals and groups: these never change where two expressions meet. *)
Theorem C67_parameters : forall a b ea eb ec, addressable (a ++ b) ->
  expression_parse a = RetOk ea -> expression_parse b = RetOk eb -> expression_parse (a ++ b) = RetOk ec ->
  parameters ec = parameters (one_after_the_other a ea eb).
Proof. exact concat_parameters. Qed.
Theorem C67_optionals : forall a b ea eb ec, addressable (a ++ b) ->
  expression_parse a = RetOk ea -> expression_parse b = RetOk eb -> expression_parse (a ++ b) = RetOk ec ->
  optionals ec = optionals (one_after_the_other a ea eb).
Proof. exact concat_optionals. Qed.
Theorem C67_compiles : forall a b, addressable (a ++ b) ->
  (exists e, expression_parse a = RetOk e) -> (exists e, expression_parse b = RetOk e) ->
  (exists t r, expression_regex (a ++ b) = XOk t r) <->
  (exists t r, expression_regex a = XOk t r) /\ (exists t r, expression_regex b = XOk t r).
Proof. exact concat_compiles. Qed.
Theorem C67_groups : forall a b ta tb tc ra rb rc, addressable (a ++ b) ->
  expression_regex a = XOk ta ra -> expression_regex b = XOk tb rb -> expression_regex (a ++ b) = XOk tc rc ->
  List.length (groups rc) = (List.length (groups ra) + List.length (groups rb))%nat.
Proof. exact concat_groups. Qed.
Print Assumptions C67_parameters. Print Assumptions C67_optionals. Print Assumptions C67_compiles. Print Assumptions C67_groups.
(** Two alternations with optionals become one; the parameters around them stay. *)
Example C67_example_parameters : exists ea eb ec,
  expression_parse (s_ "{string} a/b(c)") = RetOk ea /\ expression_parse (s_ "(d)e/f {int}") = RetOk eb /\
  expression_parse (s_ "{string} a/b(c)" ++ s_ "(d)e/f {int}") = RetOk ec /\
  List.length ec = 5%nat /\ List.length (one_after_the_other (s_ "{string} a/b(c)") ea eb) = 6%nat /\
  map par_id (parameters ec) = [0; 1] /\ List.length (optionals ec) = 2%nat.
Proof. do 3 eexists. do 3 (split; [vm_compute; reflexivity|]). vm_compute. auto. Qed.
