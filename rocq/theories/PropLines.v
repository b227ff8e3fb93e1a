(** Property C90 (the line counter of a location is a [u32]). Statements only; every proof is a lemma of the proof layer. *)
From Verif Require Import ProofLines.

(** Of a text whose lines can be counted by a [u32] [parse] makes what Parse.v says, with and without overflow checks. *)
Theorem C90_few : forall s, few_lines s ->
  expression_parse_by checked_ops s = expression_parse s /\ expression_parse_by wrapping_ops s = expression_parse s.
Proof. exact (fun s H => conj (few_lines_parse s H) (few_lines_wrapping s H)). Qed.
(** Without overflow checks: of any text, up to the number of a line being the remainder by 2^32. *)
Theorem C90_unchecked : forall s, expression_parse_by wrapping_ops s = map_returned wrapped (expression_parse s).
Proof. exact wrapping_parse. Qed.
(** The same of every public parser. *)
Theorem C90_unchecked_parsers :
  (forall i ix, parse_parameter_in wrapping_ops (wrapped i) ix =
     (map_result wrapped (map_parameter wrapped) (fst (parse_parameter i ix)), snd (parse_parameter i ix))) /\
  (forall i, parse_optional_in wrapping_ops (wrapped i) = map_result wrapped (map_optional wrapped) (parse_optional i)) /\
  (forall i, parse_alternative_in wrapping_ops (wrapped i) = map_result wrapped (map_alternative wrapped) (parse_alternative i)) /\
  (forall i, parse_alternation_in wrapping_ops (wrapped i) = map_result wrapped (map_alternation wrapped) (parse_alternation i)) /\
  (forall i ix, parse_single_expression_in wrapping_ops (wrapped i) ix =
     (map_result wrapped (map_single wrapped) (fst (parse_single_expression i ix)), snd (parse_single_expression i ix))) /\
  (forall i, parse_expression_in wrapping_ops (wrapped i) = map_result wrapped (map_expression wrapped) (parse_expression i)).
Proof. exact (any_view wrapping_ops wrapped hom_wrapping). Qed.
(** With overflow checks: of any text the same, or a panic... *)
Theorem C90_checked : forall s,
  expression_parse_by checked_ops s = Panics \/ expression_parse_by checked_ops s = expression_parse_by wrapping_ops s.
Proof. exact checked_parse. Qed.
(** ...and there is one, of a text of 4 GiB. *)
Theorem C90_overflow : exists s, addressable s /\ expression_parse_by checked_ops s = Panics.
Proof. exact many_lines. Qed.
Print Assumptions C90_few. Print Assumptions C90_unchecked. Print Assumptions C90_unchecked_parsers.
Print Assumptions C90_checked. Print Assumptions C90_overflow.
Example C90_example : let s := s_ "a" ++ [10; 10] ++ s_ " (b)" in few_lines s /\
  expression_parse_by checked_ops s = RetOk [ExText (mkspan 0 1 (s_ "a" ++ [10; 10])); ExWhitespaces (mkspan 3 3 (s_ " "));
    ExOptional (mkOptional (mkspan 5 3 (s_ "b")))] /\
  parse_optional_in wrapping_ops (mkspan 7 4294967295 (s_ "(" ++ [10] ++ s_ ")")) =
    GOk (mkspan 10 0 []) (mkOptional (mkspan 8 4294967295 [10])) /\
  parse_optional_in checked_ops (mkspan 7 4294967295 (s_ "(" ++ [10] ++ s_ ")")) = GBad GPanic /\
  parse_optional_in checked_ops (mkspan 7 4294967295 (s_ "(a)")) = GOk (mkspan 10 4294967295 []) (mkOptional (mkspan 8 4294967295 (s_ "a"))).
Proof. vm_compute. repeat split. Qed.
