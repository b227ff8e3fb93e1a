(** Properties C01-C05, C09-C20 (parser). Statements only; every proof is a lemma of the proof layer. *)
From Verif Require Import ProofParse2.

Definition ok_source (s : str) : bool :=
  match expression_parse s with RetOk _ => true | _ => false end.

(** * C01: [Expression::parse] always returns. *)
Theorem C01_parse_always_returns : forall s, addressable s ->
  (exists e, expression_parse s = RetOk e) \/ (exists er, expression_parse s = RetErr er).
Proof. exact parse_total. Qed.
Print Assumptions C01_parse_always_returns.
Example C01_example :
  addressable (s_ "a/b {int} (c){") /\ ok_source (s_ "a/b {int} (c){") = false /\
  ok_source (s_ "a/b {int} (c)") = true.
Proof. vm_compute. repeat split; easy. Qed.

(** * C02: every public parser always returns. *)
Theorem C02_parameter : forall i ix, ix < usize_max -> returns (fst (parse_parameter i ix)).
Proof. exact parameter_returns. Qed.
Theorem C02_optional : forall i, returns (parse_optional i).
Proof. exact optional_returns. Qed.
Theorem C02_alternative : forall i, returns (parse_alternative i).
Proof. exact alternative_returns. Qed.
Theorem C02_alternation : forall i, returns (parse_alternation i).
Proof. exact alternation_returns. Qed.
Theorem C02_single_expression : forall i ix, ix < usize_max ->
  returns (fst (parse_single_expression i ix)).
Proof. exact single_expression_returns. Qed.
Theorem C02_expression : forall i, addressable (frag i) -> returns (parse_expression i).
Proof. exact expression_returns. Qed.
Print Assumptions C02_parameter. Print Assumptions C02_optional.
Print Assumptions C02_alternative. Print Assumptions C02_alternation.
Print Assumptions C02_single_expression. Print Assumptions C02_expression.
Example C02_example : 3 < usize_max /\ addressable (frag (mkspan 7 2 (s_ "{a{b}c} d"))).
Proof. vm_compute. repeat split; easy. Qed.

(** * C03: parsing loses nothing. *)
Theorem C03_lossless : forall s e, addressable s ->
  expression_parse s = RetOk e -> source (map_expression frag e) = s.
Proof. exact lossless. Qed.
Print Assumptions C03_lossless.
Example C03_example : let s := s_ "I have {int} cucumber(s)/gherkin\(s in {}" in
  addressable s /\ exists e, expression_parse s = RetOk e /\ List.length e = 11%nat.
Proof. vm_compute. split; [easy|]. eexists. split; reflexivity. Qed.

(** * C04: spans are exact. *)
Theorem C04_spans_exact : forall s e, addressable s ->
  expression_parse s = RetOk e -> Forall (occurs_at 0 1 s) (inputs e).
Proof. exact spans_exact. Qed.
Print Assumptions C04_spans_exact.
(** Two lines, and characters of several bytes. *)
Example C04_example : let s := [233; 10; 120; 123; 8364; 125] in
  exists e, expression_parse s = RetOk e /\
    inputs e = [mkspan 0 1 [233; 10; 120]; mkspan 5 2 [8364]].
Proof. vm_compute. eexists. split; reflexivity. Qed.

(** * C05: round trip of canonical trees; the parser is a bijection between the accepted strings and
    the well-formed trees. *)
Theorem C05_round_trip : forall e, wf e -> addressable (source e) ->
  expression_parse (source e) = RetOk (locate 0 1 e).
Proof. exact round_trip. Qed.
Theorem C05_characterisation : forall s out, addressable s ->
  expression_parse s = RetOk out <-> exists e, wf e /\ source e = s /\ out = locate 0 1 e.
Proof. exact parse_ok_iff. Qed.
Theorem C05_unambiguous : forall e1 e2, wf e1 -> wf e2 -> source e1 = source e2 -> e1 = e2.
Proof. exact source_inj. Qed.
Print Assumptions C05_round_trip. Print Assumptions C05_characterisation.
Print Assumptions C05_unambiguous.
Example C05_example :
  let e := [ExAlternation [[AltText (s_ "a"); AltOptional (mkOptional (s_ "s"))]; [AltText (s_ "b")]];
            ExWhitespaces (s_ "  "); ExParameter (mkParameter (s_ "int") 0)] in
  wf e /\ source e = s_ "a(s)/b  {int}".
Proof. exact example_tree. Qed.

(** * C09: parameter ids count from zero in order. *)
Theorem C09_ids_in_order : forall s e, addressable s ->
  expression_parse s = RetOk e -> ids e = count_from 0 (List.length (ids e)).
Proof. exact ids_count. Qed.
Print Assumptions C09_ids_in_order.
Example C09_example : exists e, expression_parse (s_ "{a}{b} x {c}") = RetOk e /\ ids e = [0; 1; 2].
Proof. vm_compute. eexists. split; reflexivity. Qed.

(** * C10: the indexer moves only on success. *)
Theorem C10_parameter : forall i ix,
  match parse_parameter i ix with
  | (Ok _ p, ix') => par_id p = ix /\ ix' = ix + 1
  | (Bad _, ix') => ix' = ix
  end.
Proof. exact parameter_indexer. Qed.
Theorem C10_single_expression : forall i ix,
  match parse_single_expression i ix with
  | (Ok _ (ExParameter p), ix') => par_id p = ix /\ ix' = ix + 1
  | (_, ix') => ix' = ix
  end.
Proof. exact single_expression_indexer. Qed.
Print Assumptions C10_parameter. Print Assumptions C10_single_expression.
Example C10_example :
  snd (parse_parameter (span_new (s_ "{a}")) 5) = 6 /\ snd (parse_parameter (span_new (s_ "{a{b}}")) 5) = 5.
Proof. vm_compute. auto. Qed.

(** * C11: parse errors are always specific. *)
Theorem C11_errors_specific : forall s er, addressable s ->
  expression_parse s = RetErr er -> specific er.
Proof. exact errors_specific. Qed.
Print Assumptions C11_errors_specific.
Example C11_example : expression_parse (s_ "a (b{c})") =
  RetErr (ParameterInOptional (mkspan 4 1 (s_ "{c}"))).
Proof. vm_compute. reflexivity. Qed.

(** * C12: error spans point into the input. *)
Theorem C12_error_spans : forall s er, addressable s -> expression_parse s = RetErr er ->
  exists i, error_span er = Some i /\ frag i <> [] /\ occurs_at 0 1 s i.
Proof. exact error_occurs. Qed.
Print Assumptions C12_error_spans.
Example C12_example : expression_parse [233; 10; 40; 41] =
  RetErr (EmptyOptional (mkspan 3 2 (s_ "()"))).
Proof. vm_compute. reflexivity. Qed.

(** The exact rejections: who rejects what, with which error, where. *)
Theorem C12_errors_exact : forall s er, addressable s ->
  expression_parse s = RetErr er <-> exists e, expression_error s e /\ er = locate_error 0 1 e.
Proof. exact parse_err_iff. Qed.
Print Assumptions C12_errors_exact.

(** * C13: a trailing backslash that the parser reaches is reported as [EscapedEndOfLine].
    Full statement:
      forall pre special t, text_start pre special -> content special t ->
        expression_parse (pre ++ t ++ [backslash])
        = RetErr (EscapedEndOfLine (span_at 0 1 (pre ++ t, [backslash]))).
    False of the code: after some text the error is another one. *)
Theorem C13_refuted : exists pre special t,
  text_start pre special /\ content special t /\ addressable (pre ++ t ++ [backslash]) /\
  expression_parse (pre ++ t ++ [backslash])
  <> RetErr (EscapedEndOfLine (span_at 0 1 (pre ++ t, [backslash]))).
Proof. exact end_of_line_refuted. Qed.
(** What holds: it is reported exactly if nothing but the backslash stands where a name, an
    optional's contents or a text starts; then the span is right. *)
Theorem C13_end_of_line_partial : forall s i, addressable s ->
  expression_parse s = RetErr (EscapedEndOfLine i) <->
  exists pre special, text_start pre special /\ s = pre ++ [backslash] /\
    i = span_at 0 1 (pre, [backslash]).
Proof. exact end_of_line_iff. Qed.
Print Assumptions C13_refuted. Print Assumptions C13_end_of_line_partial.
Example C13_example : expression_parse (s_ "a \") = RetErr (EscapedEndOfLine (mkspan 2 1 (s_ "\"))) /\
  expression_parse (s_ "ab\") = RetErr (EscapedNonReservedCharacter (mkspan 0 1 (s_ "ab"))).
Proof. vm_compute. auto. Qed.

(** * C14: [EscapedNonReservedCharacter] points at a backslash and a non-reserved character.
    Full statement:
      forall s i, expression_parse s = RetErr (EscapedNonReservedCharacter i) ->
        exists pre c r, s = pre ++ [backslash; c] ++ r /\ ~ In c reserved /\
                        i = span_at 0 1 (pre, [backslash; c]).
    False of the code (trailing backslash after text). *)
Theorem C14_refuted : exists s i, addressable s /\
  expression_parse s = RetErr (EscapedNonReservedCharacter i) /\
  ~ (exists pre c r, s = pre ++ [backslash; c] ++ r /\ ~ In c reserved).
Proof. exact non_reserved_refuted. Qed.
Theorem C14_non_reserved_partial : forall s i, addressable s ->
  expression_parse s = RetErr (EscapedNonReservedCharacter i) <->
  (exists pre special t c r, text_start pre special /\ content special t /\
     s = pre ++ t ++ [backslash; c] ++ r /\ ~ In c reserved /\
     i = span_at 0 1 (pre ++ t, [backslash; c])) \/
  (exists pre special t, text_start pre special /\ content special t /\ t <> [] /\
     s = pre ++ t ++ [backslash] /\ i = span_at 0 1 (pre, firstn 2 (t ++ [backslash]))).
Proof. exact non_reserved_iff. Qed.
Print Assumptions C14_refuted. Print Assumptions C14_non_reserved_partial.
Example C14_example : expression_parse (s_ "b {i\nt}")
  = RetErr (EscapedNonReservedCharacter (mkspan 4 1 (s_ "\n"))).
Proof. vm_compute. reflexivity. Qed.

(** * C15: unfinished parameter or optional. *)
Theorem C15_unfinished_parameter : forall o l s ix ix', ix < usize_max -> forall i,
  parse_parameter (mkspan o l s) ix = (Bad (BFailure (UnfinishedParameter i)), ix') <->
  ix' = ix /\ exists t, content name_special t /\ s = s_ "{" ++ t /\ i = mkspan o l (s_ "{").
Proof. exact unfinished_parameter_iff. Qed.
Theorem C15_unfinished_optional : forall o l s i,
  parse_optional (mkspan o l s) = Bad (BFailure (UnfinishedOptional i)) <->
  exists t, content optional_special t /\ s = s_ "(" ++ t /\ i = mkspan o l (s_ "(").
Proof. exact unfinished_optional_iff. Qed.
Print Assumptions C15_unfinished_parameter. Print Assumptions C15_unfinished_optional.
Example C15_example :
  parse_parameter (mkspan 3 1 (s_ "{na me\}")) 2
  = (Bad (BFailure (UnfinishedParameter (mkspan 3 1 (s_ "{")))), 2).
Proof. vm_compute. reflexivity. Qed.

(** * C16: forbidden nesting is diagnosed. *)
Theorem C16_nested_parameter : forall o l s ix ix', ix < usize_max -> forall i,
  parse_parameter (mkspan o l s) ix = (Bad (BFailure (NestedParameter i)), ix') <->
  ix' = ix /\ exists t n t' r, content name_special t /\ content name_special n /\
    content name_special t' /\
    s = s_ "{" ++ t ++ s_ "{" ++ n ++ s_ "}" ++ t' ++ s_ "}" ++ r /\
    i = span_at o l (s_ "{" ++ t, s_ "{" ++ n ++ s_ "}").
Proof. exact nested_parameter_iff. Qed.
Theorem C16_optional_in_parameter : forall o l s ix ix', ix < usize_max -> forall i,
  parse_parameter (mkspan o l s) ix = (Bad (BFailure (OptionalInParameter i)), ix') <->
  ix' = ix /\ exists t n r, content name_special t /\ n <> [] /\ content optional_special n /\
    s = s_ "{" ++ t ++ s_ "(" ++ n ++ s_ ")" ++ r /\
    i = span_at o l (s_ "{" ++ t, s_ "(" ++ n ++ s_ ")").
Proof. exact optional_in_parameter_iff. Qed.
Theorem C16_unescaped_in_parameter : forall o l s ix ix', ix < usize_max -> forall i,
  parse_parameter (mkspan o l s) ix = (Bad (BFailure (UnescapedReservedCharacter i)), ix') <->
  ix' = ix /\ exists t c r, content name_special t /\ s = s_ "{" ++ t ++ [c] ++ r /\
    i = span_at o l (s_ "{" ++ t, [c]) /\
    (c = c_ "/" \/
     c = c_ "{" /\ ~ (exists n t' r', content name_special n /\ content name_special t' /\
                        r = n ++ s_ "}" ++ t' ++ s_ "}" ++ r') \/
     c = c_ "(" /\ ~ (exists n r', n <> [] /\ content optional_special n /\ r = n ++ s_ ")" ++ r')).
Proof. exact unescaped_in_parameter_iff. Qed.
Theorem C16_parameter_no_other_error : forall o l s ix ix', ix < usize_max -> forall e,
  parse_parameter (mkspan o l s) ix = (Bad (BFailure e), ix') ->
  match e with
  | UnfinishedParameter _ | NestedParameter _ | OptionalInParameter _ | UnescapedReservedCharacter _
  | EscapedNonReservedCharacter _ | EscapedEndOfLine _ => True
  | _ => False
  end.
Proof. exact parameter_errors. Qed.
Theorem C16_empty_optional : forall o l s i,
  parse_optional (mkspan o l s) = Bad (BFailure (EmptyOptional i)) <->
  exists r, s = s_ "()" ++ r /\ i = mkspan o l (s_ "()").
Proof. exact empty_optional_iff. Qed.
Theorem C16_nested_optional : forall o l s i,
  parse_optional (mkspan o l s) = Bad (BFailure (NestedOptional i)) <->
  exists t n t' r, content optional_special t /\ n <> [] /\ content optional_special n /\
    content optional_special t' /\
    s = s_ "(" ++ t ++ s_ "(" ++ n ++ s_ ")" ++ t' ++ s_ ")" ++ r /\
    i = span_at o l (s_ "(" ++ t, s_ "(" ++ n ++ s_ ")").
Proof. exact nested_optional_iff. Qed.
Theorem C16_parameter_in_optional : forall o l s i,
  parse_optional (mkspan o l s) = Bad (BFailure (ParameterInOptional i)) <->
  exists t n r, content optional_special t /\ content name_special n /\
    s = s_ "(" ++ t ++ s_ "{" ++ n ++ s_ "}" ++ r /\
    i = span_at o l (s_ "(" ++ t, s_ "{" ++ n ++ s_ "}").
Proof. exact parameter_in_optional_iff. Qed.
Theorem C16_alternation_in_optional : forall o l s i,
  parse_optional (mkspan o l s) = Bad (BFailure (AlternationInOptional i)) <->
  exists t r, content optional_special t /\ s = s_ "(" ++ t ++ s_ "/" ++ r /\
    i = span_at o l (s_ "(" ++ t, s_ "/").
Proof. exact alternation_in_optional_iff. Qed.
Theorem C16_unescaped_in_optional : forall o l s i,
  parse_optional (mkspan o l s) = Bad (BFailure (UnescapedReservedCharacter i)) <->
  exists t c r, content optional_special t /\ s = s_ "(" ++ t ++ [c] ++ r /\
    i = span_at o l (s_ "(" ++ t, [c]) /\
    (c = c_ "(" /\ ~ (exists n t' r', n <> [] /\ content optional_special n /\
                        content optional_special t' /\ r = n ++ s_ ")" ++ t' ++ s_ ")" ++ r') \/
     c = c_ "{" /\ ~ (exists n r', content name_special n /\ r = n ++ s_ "}" ++ r')).
Proof. exact unescaped_in_optional_iff. Qed.
Theorem C16_optional_no_other_error : forall o l s e,
  parse_optional (mkspan o l s) = Bad (BFailure e) ->
  match e with
  | UnfinishedOptional _ | EmptyOptional _ | NestedOptional _ | ParameterInOptional _
  | AlternationInOptional _ | UnescapedReservedCharacter _
  | EscapedNonReservedCharacter _ | EscapedEndOfLine _ => True
  | _ => False
  end.
Proof. exact optional_errors. Qed.
Print Assumptions C16_nested_parameter. Print Assumptions C16_optional_in_parameter.
Print Assumptions C16_unescaped_in_parameter. Print Assumptions C16_parameter_no_other_error.
Print Assumptions C16_empty_optional. Print Assumptions C16_nested_optional.
Print Assumptions C16_parameter_in_optional. Print Assumptions C16_alternation_in_optional.
Print Assumptions C16_unescaped_in_optional. Print Assumptions C16_optional_no_other_error.
Example C16_example :
  fst (parse_parameter (mkspan 0 1 (s_ "{a{b}c}")) 0) = Bad (BFailure (NestedParameter (mkspan 2 1 (s_ "{b}")))) /\
  fst (parse_parameter (mkspan 0 1 (s_ "{a(b)c}")) 0) = Bad (BFailure (OptionalInParameter (mkspan 2 1 (s_ "(b)")))) /\
  fst (parse_parameter (mkspan 0 1 (s_ "{a{b}c")) 0) = Bad (BFailure (UnescapedReservedCharacter (mkspan 2 1 (s_ "{")))) /\
  parse_optional (mkspan 0 1 (s_ "()b")) = Bad (BFailure (EmptyOptional (mkspan 0 1 (s_ "()")))) /\
  parse_optional (mkspan 0 1 (s_ "(a(b)c)")) = Bad (BFailure (NestedOptional (mkspan 2 1 (s_ "(b)")))) /\
  parse_optional (mkspan 0 1 (s_ "(a{b}c)")) = Bad (BFailure (ParameterInOptional (mkspan 2 1 (s_ "{b}")))) /\
  parse_optional (mkspan 0 1 (s_ "(a/c)")) = Bad (BFailure (AlternationInOptional (mkspan 2 1 (s_ "/")))) /\
  parse_optional (mkspan 0 1 (s_ "(a(b)")) = Bad (BFailure (UnescapedReservedCharacter (mkspan 2 1 (s_ "(")))).
Proof. vm_compute. auto 10. Qed.

(** * C17: bad alternations are diagnosed. *)
Theorem C17_empty_alternation : forall o l s i,
  parse_alternation (mkspan o l s) = Bad (BFailure (EmptyAlternation i)) <->
  (exists r, s = s_ "/" ++ r /\ i = mkspan o l (s_ "/")) \/
  (exists a r, a <> [] /\ Forall branch a /\ at_branch_end r /\
     s = join (s_ "/") (map src_branch a) ++ s_ "/" ++ r /\
     i = span_at o l (join (s_ "/") (map src_branch a), s_ "/")).
Proof. exact empty_alternation_iff. Qed.
Theorem C17_only_optional : forall o l s i,
  parse_alternation (mkspan o l s) = Bad (BFailure (OnlyOptionalInAlternation i)) <->
  (exists a r, (2 <= List.length a)%nat /\ Forall branch a /\
     Exists (fun b => ~ Exists is_text b) a /\ at_word_end r /\
     s = join (s_ "/") (map src_branch a) ++ r /\
     i = mkspan o l (join (s_ "/") (map src_branch a))).
Proof. exact only_optional_iff. Qed.
Print Assumptions C17_empty_alternation. Print Assumptions C17_only_optional.
Example C17_example :
  parse_alternation (mkspan 0 1 (s_ "/b")) = Bad (BFailure (EmptyAlternation (mkspan 0 1 (s_ "/")))) /\
  parse_alternation (mkspan 0 1 (s_ "a/b//c")) = Bad (BFailure (EmptyAlternation (mkspan 3 1 (s_ "/")))) /\
  parse_alternation (mkspan 0 1 (s_ "a/(b) c"))
    = Bad (BFailure (OnlyOptionalInAlternation (mkspan 0 1 (s_ "a/(b)")))).
Proof. vm_compute. auto. Qed.

(** * C18: recoverable errors only where documented. *)
Theorem C18_parameter : forall o l s ix, ix < usize_max ->
  (exists e ix', parse_parameter (mkspan o l s) ix = (Bad (BError e), ix'))
  <-> ~ (exists r, s = s_ "{" ++ r).
Proof. exact parameter_error_iff. Qed.
Theorem C18_optional : forall o l s,
  (exists e, parse_optional (mkspan o l s) = Bad (BError e)) <-> ~ (exists r, s = s_ "(" ++ r).
Proof. exact optional_error_iff. Qed.
Theorem C18_alternation : forall o l s,
  (exists e, parse_alternation (mkspan o l s) = Bad (BError e)) <->
  exists b r, items b /\ at_word_end r /\ s = src_branch b ++ r.
Proof. exact alternation_recoverable_iff. Qed.
Theorem C18_single_expression : forall o l s ix, ix < usize_max ->
  (exists e ix', parse_single_expression (mkspan o l s) ix = (Bad (BError e), ix')) <-> s = [].
Proof. exact single_error_iff. Qed.
Print Assumptions C18_parameter. Print Assumptions C18_optional.
Print Assumptions C18_alternation. Print Assumptions C18_single_expression.
Example C18_example :
  (exists e, parse_alternation (mkspan 0 1 (s_ "a(b) c/d")) = Bad (BError e)) /\
  (exists e, parse_optional (mkspan 0 1 (s_ "a(b)")) = Bad (BError e)).
Proof. vm_compute. eauto. Qed.

(** * C19: expressions compose at whitespace. *)
Theorem C19_compose : forall a b ea eb,
  addressable (a ++ s_ " " ++ b) ->
  (forall t, a <> t ++ s_ " ") -> (forall t, b <> s_ " " ++ t) ->
  expression_parse a = RetOk ea -> expression_parse b = RetOk eb ->
  expression_parse (a ++ s_ " " ++ b)
  = RetOk (ea ++ [ExWhitespaces (mkspan (blen a) (1 + newlines a) (s_ " "))] ++
           add_ids (N.of_nat (List.length (ids ea)))
             (map_expression (shift_span (blen a + 1) (newlines a)) eb)).
Proof. exact compose_whitespace. Qed.
Print Assumptions C19_compose.
Example C19_example : let a := s_ "x {int}" in let b := s_ "{word}/y"  in let b' := s_ "{word} y/z" in
  (forall t, a <> t ++ s_ " ") /\ (forall t, b' <> s_ " " ++ t) /\
  ok_source a = true /\ ok_source b = false /\ ok_source b' = true.
Proof.
  cbv zeta. split; [|split; [easy|vm_compute; auto]].
  intros t H. apply (f_equal (@rev N)) in H. rewrite rev_app_distr in H. now vm_compute in H.
Qed.

(** * C20: parsing is independent of the location. *)
Theorem C20_parameter : forall o l i ix, ix < usize_max ->
  parse_parameter (shift_span o l i) ix
  = let '(r, ix') := parse_parameter i ix in
    (shift_result o l (map_parameter (shift_span o l)) r, ix').
Proof. exact parameter_shift. Qed.
Theorem C20_optional : forall o l i,
  parse_optional (shift_span o l i)
  = shift_result o l (map_optional (shift_span o l)) (parse_optional i).
Proof. exact optional_shift. Qed.
Theorem C20_alternative : forall o l i,
  parse_alternative (shift_span o l i)
  = shift_result o l (map_alternative (shift_span o l)) (parse_alternative i).
Proof. exact alternative_shift. Qed.
Theorem C20_alternation : forall o l i,
  parse_alternation (shift_span o l i)
  = shift_result o l (map_alternation (shift_span o l)) (parse_alternation i).
Proof. exact alternation_shift. Qed.
Theorem C20_single_expression : forall o l i ix, ix < usize_max ->
  parse_single_expression (shift_span o l i) ix
  = let '(r, ix') := parse_single_expression i ix in
    (shift_result o l (map_single (shift_span o l)) r, ix').
Proof. exact single_expression_shift. Qed.
Theorem C20_expression : forall o l i, addressable (frag i) ->
  parse_expression (shift_span o l i)
  = shift_result o l (map_expression (shift_span o l)) (parse_expression i).
Proof. exact expression_shift. Qed.
Print Assumptions C20_parameter. Print Assumptions C20_optional. Print Assumptions C20_alternative.
Print Assumptions C20_alternation. Print Assumptions C20_single_expression.
Print Assumptions C20_expression.
Example C20_example :
  parse_optional (shift_span 7 2 (mkspan 1 1 (s_ "(a{b})")))
  = Bad (BFailure (ParameterInOptional (mkspan 10 3 (s_ "{b}")))).
Proof. vm_compute. reflexivity. Qed.
