(** Property C60 (only reserved characters matter). Statements only. *)
From Verif Require Import ProofRename.

(** * C60: replacing characters that are not reserved by others changes nothing but the characters and, if the
    lengths of their encodings differ, the offsets (and, for newlines, the lines). *)
Theorem C60_accepted : forall f, replaces_plain f -> forall s out, addressable s ->
  expression_parse s = RetOk out ->
  expression_parse (map f s) = RetOk (locate 0 1 (map_expression (map f) (map_expression frag out))).
Proof. exact accepted_replaced. Qed.
Theorem C60_rejected : forall f, replaces_plain f -> forall s er, addressable s ->
  expression_parse s = RetErr er ->
  exists e, er = locate_error 0 1 e /\
    expression_parse (map f s) = RetErr (locate_error 0 1 (replace_error f e)).
Proof. exact rejected_replaced. Qed.
Theorem C60_same_outcome : forall f s, replaces_plain f -> addressable s ->
  (exists e, expression_parse (map f s) = RetOk e) <-> (exists e, expression_parse s = RetOk e).
Proof. exact accepted_iff_replaced. Qed.
Print Assumptions C60_accepted. Print Assumptions C60_rejected. Print Assumptions C60_same_outcome.
(** Upper case. *)
Example C60_example : replaces_plain upper /\ map upper (s_ "a/b (c{d})") = s_ "A/B (C{D})" /\
  expression_parse (s_ "a/b (c{d})") = RetErr (ParameterInOptional (mkspan 6 1 (s_ "{d}"))) /\
  expression_parse (s_ "A/B (C{D})") = RetErr (ParameterInOptional (mkspan 6 1 (s_ "{D}"))).
Proof. split; [exact upper_replaces|]. vm_compute. auto. Qed.
