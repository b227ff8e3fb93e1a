(** Properties C58, C59 (beginnings of expressions). Statements only.
    [accepted s] abbreviates [exists e, expression_parse s = RetOk e]. *)
From Verif Require Import ProofPrefix.

(** * C58: the accepted expressions are a regular language. *)
Theorem C58_automaton : forall s, addressable s ->
  (exists e, expression_parse s = RetOk e) <-> accepting (reads_to s) = true.
Proof. exact accepted_iff_automaton. Qed.
(** Without the automaton: there are exactly sixteen kinds of beginnings, told apart by what may follow. *)
Theorem C58_sixteen_kinds : exists kinds, List.length kinds = 16%nat /\
  ForallOrdPairs (fun a b => ~ interchangeable accepted a b) kinds /\
  forall s, Exists (interchangeable accepted s) kinds.
Proof. exact sixteen_kinds. Qed.
Theorem C58_interchangeable : forall a b, addressable (a ++ s_ "abcd") -> addressable (b ++ s_ "abcd") ->
  interchangeable accepted a b <-> reads_to a = reads_to b.
Proof. exact interchangeable_iff. Qed.
Print Assumptions C58_automaton. Print Assumptions C58_sixteen_kinds. Print Assumptions C58_interchangeable.
(** A slash may follow the first but not the second, although both are accepted. *)
Example C58_example : reads_to (s_ "{int} a(b)") = Outside Has /\ reads_to (s_ "a {int}(b)") = Outside Fresh /\
  ~ interchangeable accepted (s_ "{int} a(b)") (s_ "a {int}(b)").
Proof.
  split; [reflexivity|]. split; [reflexivity|]. intros H.
  apply interchangeable_iff in H; [|easy|easy]. vm_compute in H. discriminate.
Qed.

(** * C59: which rejected expressions can be completed. *)
(** If at all, then by at most three characters; two are not enough. *)
Theorem C59_three_characters : forall s, addressable (s ++ s_ "abc") ->
  completable accepted s -> completable_by accepted 3 s.
Proof. exact completable_three. Qed.
Theorem C59_two_are_not_enough : exists s, addressable s /\
  completable accepted s /\ ~ completable_by accepted 2 s.
Proof. exact three_needed. Qed.
Theorem C59_decided : forall s, addressable (s ++ s_ "abc") ->
  completable accepted s <-> reads_to s <> Dead.
Proof. exact completable_iff. Qed.
(** Errors about nesting, empty optionals and unescaped characters stay, whatever follows. *)
Theorem C59_beyond_repair : forall s er, addressable s ->
  expression_parse s = RetErr er -> beyond_repair er -> ~ completable accepted s.
Proof. exact hopeless. Qed.
(** An unfinished parameter lacks nothing but the closing brace. *)
Theorem C59_unfinished_parameter : forall s i, addressable (s ++ s_ "}") ->
  expression_parse s = RetErr (UnfinishedParameter i) -> accepted (s ++ s_ "}").
Proof. exact unfinished_brace. Qed.
Print Assumptions C59_three_characters. Print Assumptions C59_two_are_not_enough. Print Assumptions C59_decided.
Print Assumptions C59_beyond_repair. Print Assumptions C59_unfinished_parameter.
Example C59_example : expression_parse (s_ "a (b{c}") = RetErr (ParameterInOptional (mkspan 4 1 (s_ "{c}"))) /\
  expression_parse (s_ "a/b {c") = RetErr (UnfinishedParameter (mkspan 4 1 (s_ "{"))).
Proof. vm_compute. auto. Qed.
(** The other five kinds of errors tell nothing: each has a rejected expression that can be completed and one
    that cannot. *)
Example C59_others :
  let can s := completable accepted s in
  (expression_parse (s_ "(a") = RetErr (UnfinishedOptional (mkspan 0 1 (s_ "("))) /\ can (s_ "(a")) /\
  (expression_parse (s_ "(a)/(b") = RetErr (UnfinishedOptional (mkspan 4 1 (s_ "("))) /\ ~ can (s_ "(a)/(b")) /\
  (expression_parse (s_ "a/") = RetErr (EmptyAlternation (mkspan 1 1 (s_ "/"))) /\ can (s_ "a/")) /\
  (expression_parse (s_ "a/ ") = RetErr (EmptyAlternation (mkspan 1 1 (s_ "/"))) /\ ~ can (s_ "a/ ")) /\
  (expression_parse (s_ "a/(b)") = RetErr (OnlyOptionalInAlternation (mkspan 0 1 (s_ "a/(b)"))) /\ can (s_ "a/(b)")) /\
  (expression_parse (s_ "(a)/b") = RetErr (OnlyOptionalInAlternation (mkspan 0 1 (s_ "(a)/b"))) /\ ~ can (s_ "(a)/b")) /\
  (expression_parse (s_ "a\") = RetErr (EscapedNonReservedCharacter (mkspan 0 1 (s_ "a\"))) /\ can (s_ "a\")) /\
  (expression_parse (s_ "a\b") = RetErr (EscapedNonReservedCharacter (mkspan 1 1 (s_ "\b"))) /\ ~ can (s_ "a\b")) /\
  (expression_parse (s_ "\") = RetErr (EscapedEndOfLine (mkspan 0 1 (s_ "\"))) /\ can (s_ "\")) /\
  (expression_parse (s_ "(a)/\") = RetErr (EscapedEndOfLine (mkspan 4 1 (s_ "\"))) /\ ~ can (s_ "(a)/\")).
Proof.
  cbv zeta. repeat (split; [split; [vm_compute; reflexivity|rewrite completable_iff by easy; easy || (intros H; now apply H)]|]).
  split; [vm_compute; reflexivity|rewrite completable_iff by easy; easy || (intros H; now apply H)].
Qed.
