(** Property C86 (searches by an automaton take linear time). Statements only. *)
From Verif Require Import ProofAutomaton7 ProofRuns2 ProofSome SpecSome.

(** * C86: a search by the automaton of a regex ends after two turns at most for every state and place in the subject, and its answer
    is a leftmost match or that there is none. *)
Theorem C86_answers : forall digit space word r s, exists x,
  automaton_captures digit space word r s (2 * (S (List.length (program digit space word r)) * S (List.length s))) = Some x /\
  leftmost_answer digit space word r s x.
Proof. exact automaton_answers. Qed.
Print Assumptions C86_answers.
(** If no loop goes around nothing, it is the answer of [captures]. *)
Theorem C86_same : forall digit space word r s, moving_loops digit space word r ->
  automaton_captures digit space word r s (2 * (S (List.length (program digit space word r)) * S (List.length s))) =
  Some (captures digit space word r s).
Proof. exact automaton_finds. Qed.
Print Assumptions C86_same.
(** With loops around nothing it need not be. *)
Theorem C86_still : exists t r s n x, parse_syntax t = Done r /\
  automaton_captures (fun _ => false) (fun _ => false) (fun _ => false) r s n = Some x /\ x <> captures (fun _ => false) (fun _ => false) (fun _ => false) r s.
Proof. exact still_loops. Qed.
Print Assumptions C86_still.
(** Not even the whole match. *)
Theorem C86_still_whole : exists t r s c d, parse_syntax t = Done r /\
  automaton_runs (fun _ => false) (fun _ => false) (fun _ => false) r s = Some (Some c) /\
  captures (fun _ => false) (fun _ => false) (fun _ => false) r s = Some d /\ hd_error c <> hd_error d.
Proof. exact still_whole. Qed.
Print Assumptions C86_still_whole.
(** In any case it is the answer of the run, among those that are nowhere twice, that is preferred to all others from the
    leftmost place where there is any. *)
Theorem C86_first : forall digit space word r s x, automaton_runs digit space word r s = Some x <->
  first_run (program digit space word r) (entry digit space word r) s (S (List.length (groups r))) x.
Proof. exact automaton_first. Qed.
Print Assumptions C86_first.
(** So also for what [Regex::new] compiles. *)
Theorem C86_compiled : forall digits spaces words, tables_ok digits spaces words -> forall t r, parse_syntax t = Done r ->
  moving_loops (in_ranges digits) (in_ranges spaces) (in_ranges words) r -> forall s,
  exists n, automaton_captures (in_ranges digits) (in_ranges spaces) (in_ranges words) (compiled digits spaces words r) s n =
    Some (hir_captures digits spaces words r s).
Proof. exact compiled_finds. Qed.
Print Assumptions C86_compiled.
(** The regex of an expression: the number of turns is linear in the expression and in the subject. *)
Theorem C86_expression : forall s t r, addressable s -> expression_regex s = XOk t r -> forall digit space word subject,
  automaton_captures digit space word r subject (12 * S (List.length s) * S (List.length subject)) =
  Some (captures digit space word r subject).
Proof. exact expression_search. Qed.
Print Assumptions C86_expression.
Theorem C86_expression_compiled : forall digits spaces words, tables_ok digits spaces words -> forall s t r, addressable s ->
  expression_regex s = XOk t r -> forall subject,
  automaton_captures (in_ranges digits) (in_ranges spaces) (in_ranges words) (compiled digits spaces words r) subject
    (12 * S (List.length s) * S (List.length subject)) = Some (hir_captures digits spaces words r subject).
Proof. exact compiled_search. Qed.
Print Assumptions C86_expression_compiled.
(** With custom parameters, loops around nothing included: the values of a reading, or there is none. *)
Theorem C86_custom : forall digits spaces words to_string get, tables_ok digits spaces words -> prints_meaning to_string ->
  forall s e t r, expression_parse s = RetOk e ->
  Forall (custom_valid frag get (tame digits spaces words)) (parameters e) ->
  regex_with_parameters digits spaces words to_string get s = XOk t r -> forall subject, Forall scalar subject ->
  let run := automaton_runs (in_ranges digits) (in_ranges spaces) (in_ranges words) r subject in
  let readings := readings frag (custom_type digits spaces words frag get) e [] subject [] in
  (run = Some None /\ ~ exists vs, readings vs) \/
  exists vs, run = Some (Some (Some subject :: List.concat vs)) /\ readings vs.
Proof. exact automaton_custom. Qed.
Print Assumptions C86_custom.
(** As compiled, whatever the matchers. *)
Theorem C86_custom_compiled : forall digits spaces words to_string get, tables_ok digits spaces words -> prints_meaning to_string ->
  forall s e t r, expression_parse s = RetOk e ->
  Forall (custom_valid frag get (fun _ => True)) (parameters e) ->
  regex_with_parameters digits spaces words to_string get s = XOk t r -> forall subject, Forall scalar subject ->
  let run := automaton_runs (in_ranges digits) (in_ranges spaces) (in_ranges words) (compiled digits spaces words r) subject in
  let means := means_in frag (custom_type digits spaces words frag get) e [] subject [] in
  (run = Some None /\ ~ exists v, means v) \/
  exists c, run = Some (Some (Some subject :: c)) /\ exists v, means v.
Proof. exact automaton_any. Qed.
Print Assumptions C86_custom_compiled.
(** If no matcher has a loop around nothing: the reading that comes first in the order of C82. *)
Theorem C86_custom_order : forall digits spaces words, tables_ok digits spaces words ->
  forall wrap get s e t r, addressable s -> expression_parse s = RetOk e ->
    Forall (custom_valid frag get (fun m => exactly digits spaces words wrap m /\
      moving_loops (in_ranges digits) (in_ranges spaces) (in_ranges words) m)) (parameters e) ->
    regex_with_parameters digits spaces words (show wrap) get s = XOk t r ->
    plain_digits (in_ranges digits) -> forall subject c, Forall scalar subject ->
    automaton_runs (in_ranges digits) (in_ranges spaces) (in_ranges words) (compiled digits spaces words r) subject = Some (Some c) <->
    exists l, best_in frag (tried digits spaces words frag get) (custom_prefers digits spaces words frag get) e [] subject l /\
      c = Some subject :: List.concat (map snd l).
Proof. exact automaton_best. Qed.
Print Assumptions C86_custom_order.
(** How a star is compiled depends on whether its body can match nothing: where the compiler says no, it cannot; where it says
    yes, it can, but for assertions. *)
Theorem C86_some : forall digit space word r,
  (surely_some r = true -> forall p m q c, rm digit space word r p m q c -> m <> []) /\
  (unconditional r -> surely_some r = false -> forall p q, exists c, rm digit space word r p [] q c).
Proof. exact (fun d s w r => conj (some_char d s w r) (no_char d s w r)). Qed.
Print Assumptions C86_some.
(** The states are linear in the expression. *)
Theorem C86_states : forall digits spaces words, tables_ok digits spaces words -> forall s t r, addressable s -> expression_regex s = XOk t r ->
  (List.length (program (in_ranges digits) (in_ranges spaces) (in_ranges words) (compiled digits spaces words r)) <= 6 * List.length s + 5)%nat.
Proof. exact expression_states. Qed.
Print Assumptions C86_states.

Definition digits : ranges := [(48, 57)].
Definition blanks : ranges := [(9, 13); (32, 32)].
Definition wordy : ranges := [(48, 57); (65, 90); (95, 95); (97, 122)].
Notation run t s n := (automaton_captures (in_ranges digits) (in_ranges blanks) (in_ranges wordy) (ProofTypes.get (parse_syntax (s_ t))) (s_ s) n).
Example C86_groups : run "((a)|b)+(c)?x{2,3}?" "xabxxx" 600 = Some (Some [Some (s_ "abxx"); Some (s_ "b"); Some (s_ "a"); None]).
Proof. vm_compute. reflexivity. Qed.
(** A star around something that prefers nothing is left at once: it is compiled as a plus that may be skipped. *)
Example C86_star_first : run "(|a)*" "aaa" 600 = Some (Some [Some []; Some []]) /\
  captures (in_ranges digits) (in_ranges blanks) (in_ranges wordy) (ProofTypes.get (parse_syntax (s_ "(|a)*"))) (s_ "aaa") = Some [Some []; Some []].
Proof. split; vm_compute; reflexivity. Qed.
Example C86_some_cases : map (fun t => surely_some (ProofTypes.get (parse_syntax (s_ t)))) ["a|"; "a|bc*"; "a*b?"; "(?:a*b){0,2}"; "(?:a*b){2}"]%string =
  [false; true; false; false; true] /\ unconditional (ProofTypes.get (parse_syntax (s_ "(?:a*b){0,2}"))).
Proof. split; vm_compute; [reflexivity|]. repeat split; discriminate. Qed.
(** Where trying all ways would take two to the power of twenty-six of them. *)
Example C86_catastrophic : moving_loops (in_ranges digits) (in_ranges blanks) (in_ranges wordy) (ProofTypes.get (parse_syntax (s_ "(?:a+)+$"))) /\
  run "(?:a+)+$" "aaaaaaaaaaaaaaaaaaaaaaaaaab" 600 = Some None.
Proof.
  split; [|vm_compute; reflexivity]. apply proper_moving, loops_ok_sound. vm_compute. reflexivity.
Qed.
Example C86_steps : exists t r, expression_regex (s_ "I have {int} cuke(s)/cucumber(s) in my {string}") = XOk t r /\
  automaton_captures (in_ranges digits) (in_ranges blanks) (in_ranges wordy) (compiled digits blanks wordy r) (s_ "I have 42 cukes in my ""big belly""")
    (12 * 48 * 34) = Some (Some [Some (s_ "I have 42 cukes in my ""big belly"""); Some (s_ "42"); Some (s_ "big belly"); None]).
Proof. eexists _, _. split; [vm_compute; reflexivity|]. vm_compute. reflexivity. Qed.
(** A loop around nothing: [{p}] is [(?:(|a)(|b))+]. *)
Definition loopy (i : span) : option str := if str_eqb (frag i) (s_ "p") then Some (s_ "(?:(|a)(|b))+") else None.
Example C86_loopy : exists e t r, expression_parse (s_ "{p}c") = RetOk e /\
  Forall (custom_valid frag loopy (tame digits blanks wordy)) (parameters e) /\
  regex_with_parameters digits blanks wordy (show true) loopy (s_ "{p}c") = XOk t r /\
  automaton_runs (in_ranges digits) (in_ranges blanks) (in_ranges wordy) r (s_ "abc") =
    Some (Some [Some (s_ "abc"); Some (s_ "ab"); Some (s_ "a"); Some (s_ "b")]) /\
  automaton_runs (in_ranges digits) (in_ranges blanks) (in_ranges wordy) (compiled digits blanks wordy r) (s_ "bd") = Some None.
Proof.
  eexists _, _, _. split; [vm_compute; reflexivity|]. split; [|split; [vm_compute; reflexivity|split; vm_compute; reflexivity]].
  repeat constructor. eexists. split; [vm_compute; reflexivity|]. cbn. repeat split. right. split; [discriminate|].
  exists [], (s_ "a"), [], [Some (s_ "a"); Some []]. split; [discriminate|]. split; [constructor; [vm_compute; intuition discriminate|constructor]|].
  apply (rm_cat _ _ _ _ _ [] (s_ "a") [] [] [Some (s_ "a")] [Some []]).
  - apply rm_cap. apply (rm_right _ _ _ REmpty (RLit (c_ "a")) [] (s_ "a") [] []). apply rm_lit.
  - apply rm_cap. apply (rm_left _ _ _ REmpty (RLit (c_ "b")) (s_ "a") [] [] []). apply rm_empty.
Qed.
(** Another time around the loop, reading nothing, would come back to where the run has been. *)
Example C86_first_run : let r := ProofTypes.get (parse_syntax (s_ "(?:(|a)(|b))+c")) in
  first_run (program (in_ranges digits) (in_ranges blanks) (in_ranges wordy) r) (entry (in_ranges digits) (in_ranges blanks) (in_ranges wordy) r) (s_ "xabc") 3
    (Some [Some (s_ "abc"); Some (s_ "a"); Some (s_ "b")]).
Proof. intros r. apply C86_first. vm_compute. reflexivity. Qed.
Definition ordered (i : span) : option str :=
  if str_eqb (frag i) (s_ "p") then Some (s_ "(to|ton)|x(e)?") else if str_eqb (frag i) (s_ "q") then Some (s_ "a??[a-z]+") else None.
Example C86_ordered : exists e t r, expression_parse (s_ "{p}{q}{}") = RetOk e /\
  Forall (custom_valid frag ordered (fun m => exactly digits blanks wordy false m /\
      moving_loops (in_ranges digits) (in_ranges blanks) (in_ranges wordy) m)) (parameters e) /\
  regex_with_parameters digits blanks wordy (show false) ordered (s_ "{p}{q}{}") = XOk t r /\
  automaton_runs (in_ranges digits) (in_ranges blanks) (in_ranges wordy) (compiled digits blanks wordy r) (s_ "tons5") =
    Some (Some [Some (s_ "tons5"); Some (s_ "to"); None; Some (s_ "ns"); Some (s_ "5")]).
Proof.
  eexists _, _, _. split; [vm_compute; reflexivity|]. split; [|split; [vm_compute; reflexivity|vm_compute; reflexivity]]. constructor; [|constructor; [|constructor; [|constructor]]].
  - eexists. split; [vm_compute; reflexivity|]. split; [split|apply proper_moving, loops_ok_sound; vm_compute; reflexivity].
    { cbn. repeat split. right. split; [discriminate|]. exists [], (s_ "e"), [], [Some (s_ "e")].
      split; [discriminate|]. split; [repeat constructor; vm_compute; intuition discriminate|]. repeat constructor. }
    intros _. split; [vm_compute; reflexivity|right; vm_compute; reflexivity].
  - eexists. split; [vm_compute; reflexivity|]. split; [split; [cbn; repeat split; now left|discriminate]|].
    apply proper_moving, loops_ok_sound. vm_compute. reflexivity.
  - cbn. auto 7.
Qed.
