(** Proofs about [Debug] and [PartialEq]. *)
From Verif Require Export ProofDebug2 ProofEqual.

Lemma debug_equal printable alternate a b : debug_text printable alternate (debug_expression debug_span a) = debug_text printable alternate (debug_expression debug_span b) <->
  expression_eq span_eq a b = true.
Proof.
  rewrite expression_eq_spans. split; [|now intros ->]. apply (expression_tells debug_span span_proper span_inj).
Qed.
Lemma debug_equal_error printable alternate a b : debug_text printable alternate (debug_parse_error debug_span a) = debug_text printable alternate (debug_parse_error debug_span b) <->
  error_eq span_eq a b = true.
Proof.
  rewrite error_eq_spans. split; [|now intros ->]. apply (parse_error_tells debug_span span_proper span_inj).
Qed.
Lemma debug_parsed printable alternate s1 s2 e1 e2 : addressable s1 -> addressable s2 -> expression_parse s1 = RetOk e1 -> expression_parse s2 = RetOk e2 ->
  debug_text printable alternate (debug_expression debug_span e1) = debug_text printable alternate (debug_expression debug_span e2) <-> s1 = s2.
Proof. intros. rewrite debug_equal. now apply equal_parsed. Qed.
Lemma error_tells_spans err printable alternate x y d d' : proper err = true -> debug_error debug_span err x = Some d -> debug_error debug_span err y = Some d' ->
  debug_text printable alternate d = debug_text printable alternate d' -> x = y.
Proof. apply (error_tells debug_span span_proper span_inj). Qed.
Lemma expression_line printable e : Forall (fun c => plainly printable c /\ c <> 10) (debug_text printable false (debug_expression debug_span e)).
Proof. apply compact_line, expression_proper, span_proper. Qed.
Lemma error_line printable e : Forall (fun c => plainly printable c /\ c <> 10) (debug_text printable false (debug_parse_error debug_span e)).
Proof. apply compact_line, parse_error_proper, span_proper. Qed.
