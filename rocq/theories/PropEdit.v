(** Property C73 (editing one node). Statements only. [three a m ea em eb] are the nodes [ea], then [em], then [eb], moved
    and renumbered, where [a] and [m] are the texts of the first two. *)
From Verif Require Import ProofEdit.

(** * C73: a node has a text of its own; replacing it by another one of its kind changes no other node. *)
Theorem C73_edit : forall s l x r m' x', addressable s -> expression_parse s = RetOk (l ++ x :: r) ->
  expression_parse m' = RetOk [x'] -> same_kind x x' ->
  exists a m b x0 eb, s = a ++ m ++ b /\ expression_parse a = RetOk l /\ expression_parse m = RetOk [x0] /\
    expression_parse b = RetOk eb /\ l ++ x :: r = three a m l [x0] eb /\
    (addressable (a ++ m' ++ b) -> expression_parse (a ++ m' ++ b) = RetOk (three a m' l [x'] eb)).
Proof. exact edit_node. Qed.
(** Any nodes of an accepted expression, in any order, as often as one likes, make an accepted expression. *)
Theorem C73_rearranged : forall s e e', addressable s -> expression_parse s = RetOk e ->
  (forall x, In x e' -> In x (map_expression frag e)) -> addressable (source e') ->
  exists e'', expression_parse (source e') = RetOk e''.
Proof. exact rearranged. Qed.
Print Assumptions C73_edit. Print Assumptions C73_rearranged.
(** An alternation in the middle is replaced by a longer one. *)
Example C73_example : exists l x r x',
  expression_parse (s_ "{int} a/b {word}") = RetOk (l ++ x :: r) /\ expression_parse (s_ "c(d)/e/f") = RetOk [x'] /\ same_kind x x' /\
  expression_parse (s_ "{int} c(d)/e/f {word}") = RetOk (three (s_ "{int} ") (s_ "c(d)/e/f") l [x']
    match expression_parse (s_ " {word}") with RetOk e => e | _ => [] end).
Proof.
  pose (e := match expression_parse (s_ "{int} a/b {word}") with RetOk e => e | _ => [] end).
  exists (firstn 2 e), (nth 2 e (ExText (mkspan 0 1 []))), (skipn 3 e). eexists.
  split; [vm_compute; reflexivity|]. split; [vm_compute; reflexivity|]. split; [exact I|]. vm_compute. reflexivity.
Qed.
Example C73_example_rearranged : let x := ExAlternation [[AltText (s_ "a")]; [AltText (s_ "b")]] in
  (exists e, expression_parse (s_ "a/b {int}") = RetOk e /\ In x (map_expression frag e)) /\ source [x; x] = s_ "a/ba/b" /\
  exists e, expression_parse (s_ "a/ba/b") = RetOk e.
Proof. cbv zeta. split; [|split; [reflexivity|]]; eexists; [split|]; vm_compute; [reflexivity|now left|reflexivity]. Qed.
