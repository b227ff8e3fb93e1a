(** Properties C06-C08 (grammar). Statements only. *)
From Verif Require Import ProofGrammar ProofReadme.

(** * C06: the accepted strings are exactly the (corrected) grammar. *)
Theorem C06_accepted_iff_grammar : forall s, addressable s ->
  (exists e, expression_parse s = RetOk e) <-> Corrected.expression s.
Proof. exact accepted_iff_grammar. Qed.
Print Assumptions C06_accepted_iff_grammar.
(** Accepted by the parser, hence in the grammar; rejected, hence not in it. *)
Example C06_example : Corrected.expression (s_ "(x)a(s)/b\} {int}") /\ ~ Corrected.expression (s_ "a/(b)").
Proof.
  split.
  - apply accepted_iff_grammar; [vm_compute; easy|]. eexists. vm_compute. reflexivity.
  - intros H. apply accepted_iff_grammar in H as [e H]; [|vm_compute; easy]. vm_compute in H. easy.
Qed.

(** * C07: everything in the README's grammar is accepted. *)
Theorem C07_readme_accepted : forall s, addressable s ->
  Readme.expression s -> exists e, expression_parse s = RetOk e.
Proof. exact readme_accepted. Qed.
Print Assumptions C07_readme_accepted.
Example C07_example : Readme.expression (s_ "{a} b").
Proof. exact readme_example. Qed.

(** * C08: nothing else is accepted. Full statement:
      forall s, (exists e, expression_parse s = RetOk e) -> Readme.expression s.
    False: [\}] is accepted. C06 is the exact description. *)
Theorem C08_refuted : exists s, addressable s /\
  (exists e, expression_parse s = RetOk e) /\ ~ Readme.expression s.
Proof. exact readme_refuted. Qed.
Print Assumptions C08_refuted.
(** Exactly which strings are in the README's grammar: those accepted, all of whose escapes are among the ones
    the README lists for their place, and no inner branch of whose alternations is a single character between
    optionals. *)
Theorem C08_exact_partial : forall s, addressable s ->
  Readme.expression s <->
  exists e, expression_parse s = RetOk e /\ follows_readme (map_expression frag e).
Proof. exact readme_iff. Qed.
Print Assumptions C08_exact_partial.
(** The optionals around the character of the first branch can be read as standing alone; those around an inner
    branch's cannot. Both are accepted. *)
Example C08_example : Readme.expression (s_ "(o)m(o)/x") /\
  ~ Readme.expression (s_ "x/(o)m(o)/y") /\ exists e, expression_parse (s_ "x/(o)m(o)/y") = RetOk e.
Proof.
  split; [|split].
  - apply readme_iff; [vm_compute; easy|]. eexists. split; [vm_compute; reflexivity|].
    repeat (first [apply Forall_nil | apply Forall_cons | split | apply only_nil | apply only_plain; [easy|]]).
  - intros H. apply readme_iff in H as (e & H & Hr); [|vm_compute; easy].
    vm_compute in H. injection H as <-. apply Forall_inv in Hr as [_ Hp].
    apply Forall_inv in Hp. apply Hp.
    exists [AltOptional (mkOptional (s_ "o"))], (s_ "m"), [AltOptional (mkOptional (s_ "o"))].
    repeat split; try easy; try (constructor; [cbn; tauto|constructor]). exists (c_ "m"). now left.
  - eexists. vm_compute. reflexivity.
Qed.
