(** Property C76 (the documented errors). Statements only. [documented_...] are the lists in the documentation of the
    parsers; [kind_of e] is the error without its input. Failures are the errors that end parsing. *)
From Verif Require Import ProofDocumented.

(** * C76: each parser fails with the errors its documentation lists, with each of them, and with no other. *)
Theorem C76_optional : forall k,
  (exists o l s e, parse_optional (mkspan o l s) = Bad (BFailure e) /\ kind_of e = k) <-> In k documented_optional.
Proof. exact optional_kinds. Qed.
Theorem C76_alternative : forall k,
  (exists o l s e, parse_alternative (mkspan o l s) = Bad (BFailure e) /\ kind_of e = k) <-> In k documented_alternative.
Proof. exact alternative_kinds. Qed.
Theorem C76_alternation : forall k,
  (exists o l s e, parse_alternation (mkspan o l s) = Bad (BFailure e) /\ kind_of e = k) <-> In k documented_alternation.
Proof. exact alternation_kinds. Qed.
Theorem C76_single_expression : forall k,
  (exists o l s e ix, ix < usize_max /\ fst (parse_single_expression (mkspan o l s) ix) = Bad (BFailure e) /\ kind_of e = k) <->
  In k documented_expression.
Proof. exact single_kinds. Qed.
Theorem C76_expression : forall k,
  (exists o l s e, addressable s /\ parse_expression (mkspan o l s) = Bad (BFailure e) /\ kind_of e = k) <-> In k documented_expression.
Proof. exact expression_kinds. Qed.
Theorem C76_expression_parse : forall k,
  (exists s e, addressable s /\ expression_parse s = RetErr e /\ kind_of e = k) <-> In k documented_expression.
Proof. exact whole_kinds. Qed.
(** For [parameter] the full statement
      forall k, (exists o l s e ix, ix < usize_max /\ fst (parse_parameter (mkspan o l s) ix) = Bad (BFailure e) /\ kind_of e = k) <->
        In k documented_parameter
    is false: [EscapedEndOfLine] is missing from the list. It is the only one. *)
Theorem C76_parameter_refuted : exists o l s e ix, ix < usize_max /\
  fst (parse_parameter (mkspan o l s) ix) = Bad (BFailure e) /\ ~ In (kind_of e) documented_parameter.
Proof. exact undocumented. Qed.
Theorem C76_parameter_partial : forall k,
  (exists o l s e ix, ix < usize_max /\ fst (parse_parameter (mkspan o l s) ix) = Bad (BFailure e) /\ kind_of e = k) <->
  In k (EscapedEndOfLine tt :: documented_parameter).
Proof. exact parameter_kinds. Qed.
(** [alternation] is documented to leave the choice to the caller if there is no slash in the input. This is neither
    necessary nor sufficient; C18_alternation has the exact condition. *)
Theorem C76_slash_refuted :
  (exists s e, In (c_ "/") s /\ parse_alternation (mkspan 0 1 s) = Bad (BError e)) /\
  exists s e, ~ In (c_ "/") s /\ parse_alternation (mkspan 0 1 s) = Bad (BFailure e).
Proof. exact slash_undocumented. Qed.
Print Assumptions C76_optional. Print Assumptions C76_alternative. Print Assumptions C76_alternation.
Print Assumptions C76_single_expression. Print Assumptions C76_expression. Print Assumptions C76_expression_parse.
Print Assumptions C76_parameter_refuted. Print Assumptions C76_parameter_partial. Print Assumptions C76_slash_refuted.
(** [{a(b] and [{\]: an error from the list and the one that is not. *)
Example C76_example :
  fst (parse_parameter (mkspan 0 1 (s_ "{a(b")) 0) = Bad (BFailure (UnescapedReservedCharacter (mkspan 2 1 (s_ "(")))) /\
  In (kind_of (UnescapedReservedCharacter (mkspan 2 1 (s_ "(")))) documented_parameter /\
  fst (parse_parameter (mkspan 0 1 (s_ "{\")) 0) = Bad (BFailure (EscapedEndOfLine (mkspan 1 1 (s_ "\")))) /\
  (List.length (nodup (fun a b : error unit => ltac:(repeat decide equality)) documented_expression) = 13)%nat.
Proof. repeat split; vm_compute; auto 10. Qed.
