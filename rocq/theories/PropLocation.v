(** Property C66 (where errors are reported). Statements only.
    [accepted s] abbreviates [exists e, expression_parse s = RetOk e]. *)
From Verif Require Import ProofLocation.

(** * C66: errors are reported where the expression goes wrong. Full statement: what stands before the text of an
    error can be completed, and the character that ruins the expression, if one does, is in that text or the next
    one after it. False for what stands before: in [(a)/(b] the unfinished optional is reported, although the branch
    of optionals only, [(a)/], already ruined the expression. *)
Theorem C66_refuted : exists s er i pre post, addressable (s ++ s_ "abc") /\
  expression_parse s = RetErr er /\ error_span er = Some i /\
  s = pre ++ frag i ++ post /\ off i = blen pre /\ ~ completable accepted pre.
Proof. exact location_refuted. Qed.
(** True but for such branches. *)
Theorem C66_location_partial : forall s er i, addressable (s ++ s_ "abc") ->
  expression_parse s = RetErr er -> error_span er = Some i ->
  exists pre post, s = pre ++ frag i ++ post /\ off i = blen pre /\
    (completable accepted pre \/ hidden pre) /\
    (completable accepted s \/
     exists p c, ruined accepted s p c /\ (List.length p <= List.length (pre ++ frag i))%nat).
Proof. exact error_location. Qed.
Theorem C66_hidden : forall s, addressable (s ++ s_ "abc") -> hidden s -> ~ completable accepted s.
Proof. exact hidden_stays. Qed.
Print Assumptions C66_refuted. Print Assumptions C66_location_partial. Print Assumptions C66_hidden.
(** The first is ruined inside the text of the error, the second just after it, the third not at all; in the last,
    before it. *)
Example C66_example :
  (expression_parse (s_ "a (b{c}d)") = RetErr (ParameterInOptional (mkspan 4 1 (s_ "{c}"))) /\
   ruined accepted (s_ "a (b{c}d)") (s_ "a (b") (c_ "{")) /\
  (expression_parse (s_ "a/(b) c") = RetErr (OnlyOptionalInAlternation (mkspan 0 1 (s_ "a/(b)"))) /\
   ruined accepted (s_ "a/(b) c") (s_ "a/(b)") (c_ " ")) /\
  (expression_parse (s_ "a {b") = RetErr (UnfinishedParameter (mkspan 2 1 (s_ "{"))) /\ completable accepted (s_ "a {b")) /\
  (expression_parse (s_ "a (b)/c()") = RetErr (EmptyOptional (mkspan 7 1 (s_ "()"))) /\ hidden (s_ "a (b)/c") /\
   ruined accepted (s_ "a (b)/c()") (s_ "a (b)") (c_ "/")).
Proof.
  assert (R : forall p c q, addressable ((p ++ [c]) ++ s_ "abc") -> addressable (p ++ s_ "abc") ->
    reads_to p <> Dead -> reads_to (p ++ [c]) = Dead -> ruined accepted (p ++ c :: q) p c).
  { intros p c q H1 H2 H3 H4. exists q. rewrite !completable_iff by assumption. rewrite H4. auto. }
  split; [split; [vm_compute; reflexivity|now apply (R (s_ "a (b") (c_ "{"))]|].
  split; [split; [vm_compute; reflexivity|now apply (R (s_ "a/(b)") (c_ " "))]|].
  split; [split; [vm_compute; reflexivity|now apply completable_iff]|].
  split; [vm_compute; reflexivity|]. split; [|now apply (R (s_ "a (b)") (c_ "/"))].
  exists [ExText (s_ "a"); ExWhitespaces (s_ " ")], [[AltOptional (mkOptional (s_ "b"))]], (s_ "c").
  split; [|split; [|split; [|reflexivity]]].
  - split; [split|].
    + repeat constructor; try easy; cbn; intuition discriminate.
    + intros [|x [|y [|]]] y' z r E; try discriminate. injection E as <- <- _. easy.
    + intros [|x [|y [|]]] y' E; try discriminate. injection E as <- <-. easy.
  - constructor; [|constructor]. split; [easy|]. split.
    + constructor; [|constructor]. split; [easy|]. constructor; [cbn; intuition discriminate|constructor].
    + intros [|x [|y l]] y' z r E; discriminate.
  - constructor. intros H. inversion_clear H as [? ? H'|? ? H']; [exact H'|inversion H'].
Qed.
