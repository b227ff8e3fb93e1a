(** Property C84 (built-in parameters as custom ones). Statements only; every proof is a lemma of the proof layer. *)
From Verif Require Import ProofSpelled.

(** * C84: what a custom parameter is written like does not matter, only what it matches and in which order; in
    particular the built-in parameters could be custom ones. *)
(** Spelled out as custom parameters, [int], [float], [word] and the anonymous one give the same regex, or the same
    error. *)
Theorem C84_same : forall digits spaces words, tables_ok digits spaces words -> forall to_string get s, spells frag get ->
  (forall e p, expression_parse s = RetOk e -> In p (parameters e) -> get (par_input p) <> None -> frag (par_input p) <> s_ "string") ->
  regex_with_parameters digits spaces words to_string get s = expression_regex s.
Proof. exact spelled_same. Qed.
Print Assumptions C84_same.
(** [string] too, where the regex is written differently: the same groups with the same names, and the same
    captures. *)
Theorem C84_string : forall digits spaces words, tables_ok digits spaces words -> forall wrap get, spells frag get -> forall s, addressable s ->
  match expression_regex s with
  | XOk t r => exists t' r', regex_with_parameters digits spaces words (show wrap) get s = XOk t' r' /\ groups r' = groups r /\
      forall subject, Forall scalar subject -> hir_captures digits spaces words r' subject = hir_captures digits spaces words r subject
  | o => regex_with_parameters digits spaces words (show wrap) get s = o
  end.
Proof. exact spelled_captures. Qed.
Print Assumptions C84_string.
(** Providers of which a search tries the same pieces in the same order. The printers may differ too. *)
Theorem C84_alike : forall digits spaces words, tables_ok digits spaces words -> plain_digits (in_ranges digits) ->
  forall wrap wrap' get get' s e t r t' r', addressable s -> expression_parse s = RetOk e ->
    Forall (custom_valid frag get (exactly digits spaces words wrap)) (parameters e) ->
    Forall (custom_valid frag get' (exactly digits spaces words wrap')) (parameters e) ->
    Forall (alike digits spaces words frag get get') (parameters e) ->
    regex_with_parameters digits spaces words (show wrap) get s = XOk t r ->
    regex_with_parameters digits spaces words (show wrap') get' s = XOk t' r' ->
    forall subject, Forall scalar subject ->
      hir_captures digits spaces words r subject = hir_captures digits spaces words r' subject.
Proof. exact alike_captures. Qed.
Print Assumptions C84_alike.

Definition digits : ranges := [(48, 57)].
Definition blanks : ranges := [(9, 13); (32, 32)].
Definition letters : ranges := [(48, 57); (65, 90); (95, 95); (97, 122)].
Definition spelling (i : span) : option str := spelled (frag i).
Example C84_spells : spells frag spelling.
Proof. intros i. now right. Qed.
Example C84_texts :
  regex_with_parameters digits blanks letters (show true) spelling (s_ "{int} {float}{word}{} a/b") =
    expression_regex (s_ "{int} {float}{word}{} a/b") /\
  regex_with_parameters digits blanks letters (show true) spelling (s_ "{int} {foo}") =
    XExpansion (NotFound (mkspan 7 1 (s_ "foo"))).
Proof. vm_compute. easy. Qed.
Example C84_strings : exists t r t' r', expression_regex (s_ "{int}{string}") = XOk t r /\
  regex_with_parameters digits blanks letters (show true) spelling (s_ "{int}{string}") = XOk t' r' /\ t <> t' /\
  groups r = [None; Some (s_ "__1_0"); Some (s_ "__1_1")] /\
  hir_captures digits blanks letters r' (s_ "5'a\'b'") = Some [Some (s_ "5'a\'b'"); Some (s_ "5"); None; Some (s_ "a\'b")].
Proof.
  do 4 eexists. split; [vm_compute; reflexivity|]. split; [vm_compute; reflexivity|]. split; [vm_compute; discriminate|].
  split; vm_compute; reflexivity.
Qed.
(** [(a|b)c] and [([ab])c] are alike; [a|ab] and [ab|a] are not. *)
Example C84_class : forall p : parameter span,
  alike digits blanks letters frag (fun _ => Some (s_ "(a|b)c")) (fun _ => Some (s_ "([ab])c")) p /\
  ~ alike digits blanks letters frag (fun _ => Some (s_ "a|ab")) (fun _ => Some (s_ "ab|a")) p.
Proof.
  intros p. split.
  - assert (E : forall pre s, tries digits blanks letters (s_ "(a|b)c") pre s = tries digits blanks letters (s_ "([ab])c") pre s).
    { intros pre s. reflexivity. }
    split; intros; unfold tried, custom_prefers, custom; rewrite E; reflexivity.
  - intros [_ H]. specialize (H [] (s_ "ab") (s_ "a", [Some (s_ "a")]) (s_ "ab", [Some (s_ "ab")])).
    unfold custom_prefers, custom in H.
    assert (Hb : before (s_ "a", [Some (s_ "a")]) (s_ "ab", [Some (s_ "ab")]) (tries digits blanks letters (s_ "a|ab") [] (s_ "ab"))).
    { exists [], [(s_ "ab", [Some (s_ "ab")])]. split; [vm_compute; reflexivity|]. split; [easy|]. split; [discriminate|now left]. }
    apply H in Hb as (l1 & l2 & E & Hn & _ & Hi).
    assert (Et : tries digits blanks letters (s_ "ab|a") [] (s_ "ab") = [(s_ "ab", [Some (s_ "ab")]); (s_ "a", [Some (s_ "a")])]) by (vm_compute; reflexivity).
    rewrite Et in E. destruct l1 as [|y l1]; [discriminate E|]. injection E as <- _. apply Hn. now left.
Qed.
