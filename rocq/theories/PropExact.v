(** Property C62 (the public parsers, exactly). Statements only. *)
From Verif Require Import ProofExact.

(** * C62: what each public parser gives on every input: the result with its spans, the rest, the next id, or the
    error. As every parser is a function, the specifications leave nothing open. *)
Theorem C62_parameter : forall o l s ix out, ix < usize_max ->
  parse_parameter (mkspan o l s) ix = out <-> parameter_gives o l s ix out.
Proof. exact parameter_exact. Qed.
Theorem C62_optional : forall o l s out,
  parse_optional (mkspan o l s) = out <-> optional_gives o l s out.
Proof. exact optional_exact. Qed.
Theorem C62_alternative : forall o l s out,
  parse_alternative (mkspan o l s) = out <-> alternative_gives o l s out.
Proof. exact alternative_exact. Qed.
Theorem C62_alternation : forall o l s out,
  parse_alternation (mkspan o l s) = out <-> alternation_gives o l s out.
Proof. exact alternation_exact. Qed.
Theorem C62_single_expression : forall o l s ix out, ix < usize_max ->
  parse_single_expression (mkspan o l s) ix = out <-> single_gives o l s ix out.
Proof. exact single_exact. Qed.
Theorem C62_expression : forall o l s out, addressable s ->
  parse_expression (mkspan o l s) = out <-> expression_gives o l s out.
Proof. exact expression_exact. Qed.
Print Assumptions C62_parameter. Print Assumptions C62_optional. Print Assumptions C62_alternative.
Print Assumptions C62_alternation. Print Assumptions C62_single_expression. Print Assumptions C62_expression.
Example C62_example :
  parse_parameter (mkspan 3 1 (s_ "{a\}}b}")) 2
    = (Ok (mkspan 8 1 (s_ "b}")) (mkParameter (mkspan 4 1 (s_ "a\}")) 2), 3) /\
  parse_single_expression (mkspan 3 1 (s_ "a(b)c/d e")) 7
    = (Ok (mkspan 10 1 (s_ " e"))
         (ExAlternation [[AltText (mkspan 3 1 (s_ "a")); AltOptional (mkOptional (mkspan 5 1 (s_ "b"))); AltText (mkspan 7 1 (s_ "c"))];
                         [AltText (mkspan 9 1 (s_ "d"))]]), 7) /\
  parse_single_expression (mkspan 3 1 (s_ "a(b)c d/e")) 7 = (Ok (mkspan 4 1 (s_ "(b)c d/e")) (ExText (mkspan 3 1 (s_ "a"))), 7) /\
  parse_alternation (mkspan 0 1 (s_ "a(b) c")) = Bad (BError (Other (mkspan 4 1 (s_ " c")) KTag)).
Proof. vm_compute. auto. Qed.
