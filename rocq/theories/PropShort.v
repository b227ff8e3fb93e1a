(** Property C64 (the shortest spelling). Statements only. *)
From Verif Require Import ProofShort.

(** * C64: of the expressions that differ in spelling only, one is shorter than all others. *)
Theorem C64_shortest : forall s e, addressable s -> expression_parse s = RetOk e ->
  exists n e', expression_parse n = RetOk e' /\ unspelled (map_expression frag e') = unspelled (map_expression frag e) /\
  forall s' e'', addressable s' -> expression_parse s' = RetOk e'' ->
    unspelled (map_expression frag e'') = unspelled (map_expression frag e) -> (List.length n < List.length s')%nat \/ s' = n.
Proof. exact shortest_exists. Qed.
(** It escapes exactly what needs it: blanks only in alternations, ")" only in optionals, "}" only in names. *)
Theorem C64_spelling : forall s e, addressable s -> expression_parse s = RetOk e ->
  exists e', expression_parse (spell (unspelled (map_expression frag e))) = RetOk e' /\
  unspelled (map_expression frag e') = unspelled (map_expression frag e) /\
  ((List.length (spell (unspelled (map_expression frag e))) < List.length s)%nat \/ spell (unspelled (map_expression frag e)) = s).
Proof. exact spelling. Qed.
(** Likewise of the expressions with the same regex. *)
Theorem C64_regex : forall s t r, addressable s -> expression_regex s = XOk t r ->
  exists n, expression_regex n = XOk t r /\
  forall s' r', addressable s' -> expression_regex s' = XOk t r' -> (List.length n < List.length s')%nat \/ s' = n.
Proof. exact regex_shortest. Qed.
Print Assumptions C64_shortest. Print Assumptions C64_spelling. Print Assumptions C64_regex.

Definition respelled (s : str) : option str :=
  match expression_parse s with RetOk e => Some (spell (unspelled (map_expression frag e))) | _ => None end.
Example C64_example :
  respelled (s_ "a\)\ b(\}\)) {int}c\ d/\}e\\") = Some (s_ "a) b(}\)) {int}c\ d/}e\\") /\
  expression_regex (s_ "a\)\ b(\}\)) {int}c\ d/\}e\\") = expression_regex (s_ "a) b(}\)) {int}c\ d/}e\\") /\
  respelled (s_ "a) b(}\)) {int}c\ d/}e\\") = Some (s_ "a) b(}\)) {int}c\ d/}e\\").
Proof. vm_compute. auto. Qed.
