(** Property C47: when captured values are unique. Statements only; every proof is a lemma of the
    proof layer. *)
From Verif Require Import SpecUnique ProofExpand4 ProofUnique.

(** * C47: captured values are unique, if everything whose length may vary, other than strings in
    quotes, is followed by the end or by a literal starting with a char it cannot contain. *)
Theorem C47_unique : forall s e t r, addressable s ->
  expression_parse s = RetOk e -> expression_regex s = XOk t r ->
  forall digit space word, lucid frag digit space e ->
  forall pre m post c pre' m' post' c', pre ++ m ++ post = pre' ++ m' ++ post' ->
    rm digit space word r pre m post c -> rm digit space word r pre' m' post' c' ->
    m = m' /\ c = c'.
Proof. exact captures_unique. Qed.
Print Assumptions C47_unique.
(** In particular if the parameters are ints, floats, words and strings between blanks. *)
Theorem C47_spaced : forall (I : Type) (text : I -> str) digit space,
  space (c_ " ") = true -> digit (c_ " ") = false ->
  forall e, spaced text e -> lucid text digit space e.
Proof. exact @spaced_lucid. Qed.
Print Assumptions C47_spaced.

(** The condition is met by an ordinary expression. *)
Example C47_example : forall e,
  expression_parse (s_ "I (still) have {int} cucumber(s) in a {string} box/bag {word}") = RetOk e ->
  spaced frag e.
Proof.
  intros e H. vm_compute in H. injection H as <-.
  repeat match goal with
  | |- spaced _ [] => constructor
  | |- spaced _ (ExWhitespaces _ :: _) => apply spaced_blank
  | |- spaced _ (ExParameter _ :: _) =>
      apply spaced_parameter; [vm_compute; tauto|first [now left|right; do 3 eexists; split; reflexivity]|]
  | |- spaced _ (?x :: ExWhitespaces ?w :: ?e) =>
      apply (spaced_plain frag [x] (ExWhitespaces w :: e));
        [repeat constructor; vm_compute; intuition discriminate|right; do 3 eexists; split; reflexivity|]
  | |- spaced _ (?x :: ?y :: ExWhitespaces ?w :: ?e) =>
      apply (spaced_plain frag [x; y] (ExWhitespaces w :: e));
        [repeat constructor; vm_compute; intuition discriminate|right; do 3 eexists; split; reflexivity|]
  end.
Qed.
(** It is not superfluous: [{int}{int}] reads [123] in two ways. *)
Example C47_ambiguous : forall e, expression_parse (s_ "{int}{int}") = RetOk e ->
  let means := means frag (fun p => typed (fun c => (48 <=? c) && (c <=? 57)) (fun c => c =? 32) (frag (par_input p))) in
  means e (s_ "123") [Some (s_ "1"); Some (s_ "23")] /\ means e (s_ "123") [Some (s_ "12"); Some (s_ "3")].
Proof.
  intros e H. vm_compute in H. injection H as <-.
  assert (Hint : forall p, p <> [] -> digits (fun c => (48 <=? c) && (c <=? 57)) p ->
    int_string (fun c => (48 <=? c) && (c <=? 57)) p).
  { intros p Hp Hd. exists [], p. repeat split; [now left|exact Hp|exact Hd]. }
  split.
  - exists [(s_ "1", [Some (s_ "1")]); (s_ "23", [Some (s_ "23")])].
    repeat split; repeat constructor; apply Hint; try discriminate; repeat constructor.
  - exists [(s_ "12", [Some (s_ "12")]); (s_ "3", [Some (s_ "3")])].
    repeat split; repeat constructor; apply Hint; try discriminate; repeat constructor.
Qed.
