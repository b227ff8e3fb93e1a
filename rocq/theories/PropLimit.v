(** Property C88 (the size limit of regexes). Statements only. *)
From Verif Require Import ProofLimit.

(** * C88: with the limit a call returns what it returns without it, but for an error of [Regex::new] if the automaton is too
    large. *)
Theorem C88_exact : forall measure limit digits spaces words s, sized_regex measure limit digits spaces words s =
  under_limit measure limit digits spaces words (expression_regex s).
Proof. exact sized_exact. Qed.
Print Assumptions C88_exact.
Theorem C88_exact_custom : forall measure limit digits spaces words to_string get s,
  sized_regex_with_parameters measure limit digits spaces words to_string get s =
  under_limit measure limit digits spaces words (regex_with_parameters digits spaces words to_string get s).
Proof. exact sized_exact_custom. Qed.
Print Assumptions C88_exact_custom.
(** An expression over built-in parameters keeps a limit that is linear in its length. *)
Theorem C88_fits : forall measure limit digits spaces words, tables_ok digits spaces words ->
  forall k, counts_states digits spaces words k measure -> forall s, addressable s -> (k * (6 * List.length s + 5) <= limit)%nat ->
  sized_regex measure limit digits spaces words s = expression_regex s.
Proof. exact sized_fits. Qed.
Print Assumptions C88_fits.
(** The automaton of a literal text has a state for each char and five more; so a text as long as the limit exceeds it. *)
Theorem C88_literal : forall digits spaces words t, t <> [] -> addressable (escaped t) ->
  exists u r, expression_regex (escaped t) = XOk u r /\
  List.length (program (in_ranges digits) (in_ranges spaces) (in_ranges words) (compiled digits spaces words r)) = (List.length t + 5)%nat.
Proof. exact literal_states. Qed.
Print Assumptions C88_literal.
Theorem C88_too_long : forall measure limit digits spaces words k, counts_states digits spaces words k measure ->
  forall t, t <> [] -> addressable (escaped t) -> (limit < List.length t + 5)%nat ->
  sized_regex measure limit digits spaces words (escaped t) = XRegex.
Proof. exact literal_sized. Qed.
Print Assumptions C88_too_long.
(** Thus C27 (expansion always compiles) does not hold for expressions of any length. *)
Theorem C88_every_limit : forall measure limit digits spaces words k, counts_states digits spaces words k measure ->
  N.of_nat limit < usize_max ->
  exists s t r, addressable s /\ expression_regex s = XOk t r /\ sized_regex measure limit digits spaces words s = XRegex.
Proof. exact never_enough. Qed.
Print Assumptions C88_every_limit.

Definition digits : ranges := [(48, 57)].
Definition blanks : ranges := [(9, 13); (32, 32)].
Definition wordy : ranges := [(48, 57); (65, 90); (95, 95); (97, 122)].
Definition states (r : re) : nat := List.length (program (in_ranges digits) (in_ranges blanks) (in_ranges wordy) r).
Example C88_measure : counts_states digits blanks wordy 1 states.
Proof. intros r. cbv zeta. split; [apply le_n|]. change (states r <= states r + 0)%nat. rewrite <- plus_n_O. apply le_n. Qed.
Example C88_room : sized_regex states 200 digits blanks wordy (s_ "I have {int} cuke(s)") = expression_regex (s_ "I have {int} cuke(s)") /\
  sized_regex states 20 digits blanks wordy (s_ "I have {int} cuke(s)") = XRegex.
Proof. vm_compute. split; reflexivity. Qed.
(** Short matchers of custom parameters can be large. *)
Example C88_custom : exists t r, let get := fun _ => Some (s_ "(?:[a-z]{9}){9}") in
  regex_with_parameters digits blanks wordy (show false) get (s_ "{p}") = XOk t r /\ states (compiled digits blanks wordy r) = 88%nat /\
  sized_regex_with_parameters states 80 digits blanks wordy (show false) get (s_ "{p}") = XRegex.
Proof. eexists _, _. cbv zeta. split; [vm_compute; reflexivity|]. split; vm_compute; reflexivity. Qed.
