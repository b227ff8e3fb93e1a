(** Property C50 (parsing time). Statements only. The functions of Steps.v are the parsers with a
    step counter; what counts as a step is said there. *)
From Verif Require Import ProofSteps5 ProofLeast ProofRescan ProofRescan2 SpecRescan SpecWordParts ProofWordParts ProofRescan4 SpecParens ProofParens.

(** Counting does not change what is computed. *)
Theorem C50_same : forall s, fst (expression_parse_steps s) = expression_parse s.
Proof. exact expression_parse_same. Qed.
Theorem C50_same_parsers : forall i ix,
  fst (parse_parameter_steps i ix) = parse_parameter i ix /\
  fst (parse_optional_steps i) = parse_optional i /\
  fst (parse_alternative_steps i) = parse_alternative i /\
  fst (parse_alternation_steps i) = parse_alternation i /\
  fst (parse_single_expression_steps i ix) = parse_single_expression i ix /\
  fst (parse_expression_steps i) = parse_expression i.
Proof.
  exact (fun i ix => conj (parse_parameter_same i ix) (conj (parse_optional_same i)
    (conj (parse_alternative_same i) (conj (parse_alternation_same i)
    (conj (parse_single_expression_same i ix) (parse_expression_same i)))))).
Qed.
(** Whatever the outcome, every parser but the last takes linear time, in spite of reparsing for
    the sake of error messages; [expression] takes at most quadratic time. *)
Theorem C50_parameter : forall i ix,
  (steps_of (parse_parameter_steps i ix) <= 48 * List.length (frag i) + 3)%nat.
Proof. exact parameter_costs. Qed.
Theorem C50_optional : forall i, (steps_of (parse_optional_steps i) <= 48 * List.length (frag i) + 3)%nat.
Proof. exact optional_costs. Qed.
Theorem C50_alternative : forall i,
  (steps_of (parse_alternative_steps i) <= 48 * List.length (frag i) + 24)%nat.
Proof. exact alternative_costs. Qed.
Theorem C50_alternation : forall i,
  (steps_of (parse_alternation_steps i) <= 95 * List.length (frag i) + 110)%nat.
Proof. exact alternation_costs. Qed.
Theorem C50_single_expression : forall i ix,
  (steps_of (parse_single_expression_steps i ix) <= 201 * List.length (frag i) + 143)%nat.
Proof. exact single_expression_costs. Qed.
Theorem C50_quadratic : forall s,
  (steps_of (expression_parse_steps s) <= 201 * ((List.length s + 1) * (List.length s + 1)))%nat.
Proof. exact expression_parse_costs. Qed.
(** No char is consumed for free. *)
Theorem C50_least : forall s e, expression_parse s = RetOk e -> (List.length s < steps_of (expression_parse_steps s))%nat.
Proof. exact parse_least. Qed.
Theorem C50_least_parsers : forall i ix r,
  (forall p ix', fst (parse_parameter_steps i ix) = (Ok r p, ix') -> (List.length (frag i) <= List.length (frag r) + steps_of (parse_parameter_steps i ix))%nat) /\
  (forall o, fst (parse_optional_steps i) = Ok r o -> (List.length (frag i) <= List.length (frag r) + steps_of (parse_optional_steps i))%nat) /\
  (forall a, fst (parse_alternative_steps i) = Ok r a -> (List.length (frag i) <= List.length (frag r) + steps_of (parse_alternative_steps i))%nat) /\
  (forall a, fst (parse_alternation_steps i) = Ok r a -> (List.length (frag i) <= List.length (frag r) + steps_of (parse_alternation_steps i))%nat) /\
  (forall x ix', fst (parse_single_expression_steps i ix) = (Ok r x, ix') ->
     (List.length (frag i) <= List.length (frag r) + steps_of (parse_single_expression_steps i ix))%nat) /\
  (forall e, fst (parse_expression_steps i) = Ok r e -> (List.length (frag i) <= List.length (frag r) + steps_of (parse_expression_steps i))%nat).
Proof. exact parsers_least. Qed.
Print Assumptions C50_least. Print Assumptions C50_least_parsers.
(** No better: a word of [m] texts and optionals takes [m(m+1)/2] steps at least, so that [a(b)]
    written [k] times takes [2k²]. *)
Theorem C50_word : forall b, Forall wf_alternative b ->
  (forall l x y r, b = l ++ x :: y :: r -> ~ (is_text x /\ is_text y)) ->
  (List.length b * (List.length b + 1) <= 2 * steps_of (expression_parse_steps (src_branch b)))%nat.
Proof. exact parse_words_least. Qed.
(** An accepted input: what exceeds a linear number of steps is due to words read again. *)
Theorem C50_words : forall s e, addressable s -> expression_parse s = RetOk e ->
  (steps_of (expression_parse_steps s) <= 300 * List.length s + 92 * rescanned (map_expression frag e) + 146)%nat.
Proof. exact parse_by_words. Qed.
(** Nor can these be saved. *)
Theorem C50_words_least : forall s e, addressable s -> expression_parse s = RetOk e ->
  (rescanned (map_expression frag e) <= steps_of (expression_parse_steps s))%nat.
Proof. exact parse_rescans. Qed.
Theorem C50_words_within : forall w s e, addressable s -> expression_parse s = RetOk e -> words_within w (map_expression frag e) ->
  (steps_of (expression_parse_steps s) <= 300 * List.length s + 92 * (w * List.length s) + 146)%nat.
Proof. exact parse_words_within. Qed.
(** Linear in the length, if the words are made of at most [k] texts and optionals, however long these are. *)
Theorem C50_word_parts : forall k s e, addressable s -> expression_parse s = RetOk e -> parts_within k (map_expression frag e) ->
  (steps_of (expression_parse_steps s) <= (300 + 92 * k) * List.length s + 146)%nat.
Proof. exact parse_parts_within. Qed.
Print Assumptions C50_word_parts.
(** A rejected input: the same, with the words of an accepted part before the error. *)
Theorem C50_rejected : forall s er, addressable s -> expression_parse s = RetErr er ->
  exists p r e, s = p ++ r /\ r <> [] /\ expression_parse p = RetOk e /\
    (steps_of (expression_parse_steps s) <= 300 * List.length s + 92 * rescanned (map_expression frag e) + 146)%nat /\
    (rescanned (map_expression frag e) <= steps_of (expression_parse_steps s))%nat.
Proof. exact rejected_rescans. Qed.
Print Assumptions C50_rejected.
(** Accepted or rejected, linear in the length if the input has a bounded number of opening parentheses. *)
Theorem C50_parens : forall s, addressable s ->
  (steps_of (expression_parse_steps s) <= (392 + 184 * parens s) * List.length s + 146)%nat.
Proof. exact time_by_parens. Qed.
Print Assumptions C50_parens.
Theorem C50_reached : forall k,
  (2 * (k * k) <= steps_of (expression_parse_steps (List.concat (repeat (s_ "a(b)") k))))%nat.
Proof. exact worst_least. Qed.
Print Assumptions C50_same. Print Assumptions C50_same_parsers. Print Assumptions C50_parameter.
Print Assumptions C50_optional. Print Assumptions C50_alternative. Print Assumptions C50_alternation.
Print Assumptions C50_single_expression. Print Assumptions C50_quadratic. Print Assumptions C50_word.
Print Assumptions C50_reached. Print Assumptions C50_words. Print Assumptions C50_words_within. Print Assumptions C50_words_least.
(** Counts: words with optionals are quadratic, blanks and nested brackets are not. *)
Example C50_counts :
  map (fun s => N.of_nat (steps_of (expression_parse_steps s)))
    (map (fun k => List.concat (repeat (s_ "a(b)") k)) [2; 4; 8; 16]%nat ++
     map (fun k => List.concat (repeat (s_ "a {b} ") k)) [2; 4; 8; 16]%nat ++
     map (fun k => List.concat (repeat (s_ "{(") k)) [2; 4; 8; 16]%nat)
  = [450; 1242; 3954; 13890;  469; 905; 1777; 3521;  95; 167; 311; 599].
Proof. vm_compute. reflexivity. Qed.
(** What is read again: nothing but the word itself if each word is one node, else more. *)
Example C50_read_again :
  map (fun s => match expression_parse s with
                | RetOk e => Some (rescanned (map_expression frag e), word_length (map_expression frag e))
                | _ => None end)
    [s_ "a b c d"; s_ "a(b)c d(e) {f}"; s_ "a/b c"; s_ "a(b)a(b)"]
  = [Some (4, 1); Some (17, 5); Some (1, 0); Some (22, 8)]%nat.
Proof. vm_compute. reflexivity. Qed.
Example C50_word_parts_case : let s := s_ "I have {int} (big )cucumber(s) in my belly/stomach" in addressable s /\
  exists e, expression_parse s = RetOk e /\ parts_within 3 (map_expression frag e) /\ ~ parts_within 2 (map_expression frag e).
Proof.
  split; [vm_compute; easy|]. eexists. split; [vm_compute; reflexivity|]. cbn [map_expression map map_single map_optional map_parameter map_alternation frag opt_input par_input par_id]. split.
  - intros l r E. repeat (destruct l as [|? l]; [cbn [app] in E; subst r; cbn; lia|injection E as <- E]). destruct l; [cbn [app] in E; subst r; cbn; lia|discriminate].
  - intros H. pose proof (H (firstn 6 _) (skipn 6 _) (eq_sym (firstn_skipn 6 _))) as H6. cbn in H6. lia.
Qed.
Example C50_parens_case : addressable (s_ "I have {int} cucumber(s) \(big)") /\ parens (s_ "I have {int} cucumber(s) \(big)") = 2%nat.
Proof. split; vm_compute; [easy|reflexivity]. Qed.
(** An error after a word: what is before it is read again. *)
Example C50_rejected_case : exists er p e, addressable (s_ "a(b)c {d") /\ expression_parse (s_ "a(b)c {d") = RetErr er /\
  s_ "a(b)c {d" = p ++ s_ "{d" /\ expression_parse p = RetOk e /\ rescanned (map_expression frag e) = 10%nat.
Proof. eexists _, (s_ "a(b)c "), _. split; [vm_compute; easy|]. repeat split; vm_compute; reflexivity. Qed.
