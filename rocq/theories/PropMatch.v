(** Properties C48, C49: what [Regex::captures] returns on the regex of an expression. Statements only;
    every proof is a lemma of the proof layer. [captures] is the leftmost-first search of Match.v: the
    whole match, then the groups. *)
From Verif Require Import ProofMatch4.

(** * C48: a search succeeds iff the subject is what the expression stands for, and it returns the
    values of a reading. *)
(** For any regex, the search finds a match iff there is one. *)
Theorem C48_search : forall digit space word r s,
  matches digit space word r s = true <-> is_match digit space word r s.
Proof. exact matches_iff. Qed.
Print Assumptions C48_search.
Theorem C48_captures : forall s e t r, addressable s ->
  expression_parse s = RetOk e -> expression_regex s = XOk t r ->
  forall digit space word subject,
    (captures digit space word r subject = None <->
     ~ exists v, means frag (fun p => typed digit space (frag (par_input p))) e subject v) /\
    forall c, captures digit space word r subject = Some c ->
      exists v, c = Some subject :: v /\ means frag (fun p => typed digit space (frag (par_input p))) e subject v.
Proof. exact captures_reading. Qed.
Print Assumptions C48_captures.
(** If the readings are unique (C47), it is the reading. *)
Theorem C48_unique : forall s e t r, addressable s ->
  expression_parse s = RetOk e -> expression_regex s = XOk t r ->
  forall digit space word, lucid frag digit space e -> forall subject v,
    captures digit space word r subject = Some (Some subject :: v) <->
    means frag (fun p => typed digit space (frag (par_input p))) e subject v.
Proof. exact captures_lucid. Qed.
Print Assumptions C48_unique.
(** These regexes have no loop around something that matches the empty string (the one place where the
    search of Match.v is simplified). *)
Theorem C48_loops : forall s t r, addressable s -> expression_regex s = XOk t r ->
  forall digit space word, proper_loops digit space word r.
Proof. exact regex_loops. Qed.
Print Assumptions C48_loops.

Definition ascii (c : char) : bool := (48 <=? c) && (c <=? 57).
Definition blank (c : char) : bool := c =? 32.
Definition captured (e subject : str) : option (list (option str)) :=
  match expression_regex e with XOk _ r => captures ascii blank ascii r subject | _ => None end.
(** Empty iterations: the first one ends a loop, the later ones do not count; of a counted repetition each does. *)
Example C48_empty_iterations :
  let found t s := match regex_new t with Done r => captures ascii blank ascii r s | _ => None end in
  found (s_ "(|a)*") (s_ "aa") = Some [Some []; Some []] /\ found (s_ "(a|b*)*") (s_ "a") = Some [Some (s_ "a"); Some (s_ "a")] /\
  found (s_ "^(|a){2,3}$") (s_ "aa") = Some [Some (s_ "aa"); Some (s_ "a")] /\ found (s_ "(a|()){3}") (s_ "a") = Some [Some (s_ "a"); Some []; Some []] /\
  found (s_ "(a*)+") (s_ "aa") = Some [Some (s_ "aa"); Some (s_ "aa")].
Proof. vm_compute. auto. Qed.
Example C48_example :
  addressable (s_ "I have {int} cucumber(s) in a {string} box/bag") /\
  captured (s_ "I have {int} cucumber(s) in a {string} box/bag") (s_ "I have 42 cucumbers in a 'big' bag") =
    Some [Some (s_ "I have 42 cucumbers in a 'big' bag"); Some (s_ "42"); None; Some (s_ "big")] /\
  captured (s_ "I have {int} cucumber(s) in a {string} box/bag") (s_ "I have 42 cucumbers in a 'big' cup") = None.
Proof. vm_compute. easy. Qed.

(** * C49: of several readings the search takes the best one: at the first element read differently,
    its piece is preferred. *)
Theorem C49_best : forall s e t r, addressable s ->
  expression_parse s = RetOk e -> expression_regex s = XOk t r ->
  forall digit space word, plain_digits digit -> forall subject c,
    captures digit space word r subject = Some c <->
    exists l, best frag (fun p => typed digit space (frag (par_input p))) e subject l /\
      c = Some subject :: List.concat (map snd l).
Proof. exact regex_takes_best. Qed.
Print Assumptions C49_best.
(** There is at most one best reading. *)
Theorem C49_one : forall (I : Type) (text : I -> str) digit space e subject l l',
  best text (fun p => typed digit space (text (par_input p))) e subject l ->
  best text (fun p => typed digit space (text (par_input p))) e subject l' -> l = l'.
Proof. exact @best_unique. Qed.
Print Assumptions C49_one.
Example C49_example : plain_digits ascii /\ addressable (s_ "{int}{int}(s)") /\
  captured (s_ "{int}{int}(s)") (s_ "123s") = Some [Some (s_ "123s"); Some (s_ "12"); Some (s_ "3")].
Proof.
  split; [|vm_compute; easy]. intros c H. cbn in H. repeat (destruct H as [<-|H]; [reflexivity|]). easy.
Qed.
(** The longest piece is not always preferred: a float gives the point and what follows to a word. *)
Example C49_float : captured (s_ "{float}{word}") (s_ "1.5") = Some [Some (s_ "1.5"); Some (s_ "1"); Some (s_ ".5")] /\
  captured (s_ "{float}{word}") (s_ "1.5x") = Some [Some (s_ "1.5x"); Some (s_ "1"); Some (s_ ".5x")].
Proof. vm_compute. easy. Qed.
