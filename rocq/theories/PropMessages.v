(** Properties C45 and C46: the errors' messages and their advice. Statements only; every proof is a
    lemma of the proof layer. [display_parsing] is the [Display] of [parse::Error], [display_error] that
    of [expand::Error] ([err]: the message of an error of the regex crates). *)
From Coq Require Import Lia.
From Verif Require Import ProofParams2 Messages SpecMessages ProofMessages ProofMessages2.

(** * C45: messages quote the input, determine the error and name the remedy. *)
(** The message starts with the text at fault, as it stands in the input, on lines of its own. *)
Theorem C45_quotes_input : forall s er, addressable s -> expression_parse s = RetErr er ->
  exists i m, error_span er = Some i /\ occurs_at 0 1 s i /\ display_parsing er = frag i ++ [10] ++ m.
Proof. exact display_starts. Qed.
Print Assumptions C45_quotes_input.
(** The kind of an error and the text it quotes can be read off the message. *)
Theorem C45_determines_error : forall e e' i i', error_span e = Some i -> error_span e' = Some i' ->
  display_parsing e = display_parsing e' -> same_kind e e' /\ frag i = frag i'.
Proof. exact display_kind. Qed.
Print Assumptions C45_determines_error.
(** The line below the quoted text speaks of exactly the constructs the error is about. *)
Theorem C45_names_constructs : forall e i k0, error_span e = Some i -> In k0 (concerns e) ->
  exists m advice, display_parsing e = frag i ++ [10] ++ m ++ [10] ++ advice /\ ~ In 10 m /\
    forall k, speaks_of k m <-> In k (concerns e).
Proof. exact message_speaks. Qed.
Print Assumptions C45_names_constructs.
(** The remedy: the escape of the character at fault. Full statement: the same without the exception
    for [EscapedEndOfLine]. False of the code: its message reads "You can use '\' to escape the the ''." *)
Theorem C45_names_remedy_partial : forall e i c, error_span e = Some i -> culprit e = [c] ->
  match e with EscapedEndOfLine _ => False | _ => True end ->
  exists m, display_parsing e = frag i ++ [10] ++ m /\ within_text (s_ "'\" ++ [c] ++ s_ "' to escape") m.
Proof. exact message_quotes. Qed.
Theorem C45_reserved_remedy : forall i, exists m,
  display_parsing (UnescapedReservedCharacter i) = frag i ++ [10] ++ m /\
  within_text (s_ "use an '\' to escape it") m.
Proof. exact message_reserved. Qed.
Theorem C45_refuted : exists s i, addressable s /\
  expression_parse s = RetErr (EscapedEndOfLine i) /\
  ~ within_text (s_ "'\\'") (display_parsing (EscapedEndOfLine i)).
Proof. exact message_end_of_line. Qed.
Print Assumptions C45_names_remedy_partial. Print Assumptions C45_reserved_remedy. Print Assumptions C45_refuted.
(** Errors of expansion: the message names the first parameter at fault (and its regex). *)
Theorem C45_expansion : forall err digits spaces words to_string get s e1 p e2,
  expression_parse s = RetOk (e1 ++ ExParameter p :: e2) ->
  Forall (custom_checked frag get) (parameters e1) ->
  (get (par_input p) = None -> ~ built_in (frag (par_input p)) ->
   display_error err (regex_with_parameters digits spaces words to_string get s) =
   Some (s_ "Failed to expand regex: Parameter `" ++ frag (par_input p) ++ s_ "` not found")) /\
  (forall v, get (par_input p) = Some v -> In (c_ "(") v -> regex_new v = Invalid ->
   display_error err (regex_with_parameters digits spaces words to_string get s) =
   Some (s_ "Failed to expand regex: Failed to rename capturing groups in regex `" ++ v ++
         s_ "` of parameter `" ++ frag (par_input p) ++ s_ "`: " ++ err)).
Proof. exact display_expansion. Qed.
(** The message begins with the stage that failed; there is one exactly if there is an error. *)
Theorem C45_stages : forall err digits spaces words to_string get s,
  (forall e, expression_parse s = RetErr e ->
   display_error err (regex_with_parameters digits spaces words to_string get s) = Some (s_ "Parsing failed: " ++ display_parsing e)) /\
  (regex_with_parameters digits spaces words to_string get s = XRegex ->
   display_error err (regex_with_parameters digits spaces words to_string get s) = Some (s_ "Regex creation failed: " ++ err)) /\
  (display_error err (regex_with_parameters digits spaces words to_string get s) = None <->
   match regex_with_parameters digits spaces words to_string get s with
   | XOk _ _ | XPanic | XDiverges | XUnsupported | XExpansion Unmodelled => True
   | _ => False
   end).
Proof. exact display_stages. Qed.
Print Assumptions C45_expansion. Print Assumptions C45_stages.
Example C45_example :
  match expression_parse (s_ "a (b/c)") with RetErr er => display_parsing er | _ => [] end =
  s_ "/" ++ [10] ++ s_ "An alternation can not be used inside an optional." ++ [10] ++
  s_ "You can use '\/' to escape the '/'.".
Proof. vm_compute. reflexivity. Qed.
Example C45_example_expansion :
  display_error [] (regex_with_parameters [] [] [] (show true) (fun _ => None) (s_ "{int} {foo}")) =
  Some (s_ "Failed to expand regex: Parameter `foo` not found").
Proof. vm_compute. reflexivity. Qed.
Example C45_example_stages :
  let whole := regex_with_parameters [] [] [] (show true) (hash_map_get frag [(s_ "r", s_ "a)|{")]) in
  whole (s_ "{r}") = XRegex /\
  display_error (s_ "...") (whole (s_ "{r}")) = Some (s_ "Regex creation failed: ...") /\
  display_error [] (whole (s_ "a ()")) =
  Some (s_ "Parsing failed: ()" ++ [10] ++ s_ "An optional must contain some text." ++ [10] ++
        s_ "If you did not mean to use an optional you can use '\(' to escape the '('.").
Proof. vm_compute. repeat split. Qed.

(** * C46: the advice works. Whoever escapes, again and again, an unescaped character the error points
    at and is about, in whatever order where there is a choice, ends with an accepted expression, after
    at most as many steps as there are reserved characters.
    Full statement: the two below for all [s]. False of the code if the input ends in a backslash that
    escapes nothing: the error may then not point at the backslash at all. *)
Theorem C46_advice_partial : forall n s s', N.of_nat (2 * List.length s) <= usize_max ->
  ~ trailing_backslash s ->
  follows (fun s er => expression_parse s = RetErr er) n s s' ->
  (n <= reserved_count s)%nat /\
  ((exists e, expression_parse s' = RetOk e) \/
   (exists s'', follows (fun s er => expression_parse s = RetErr er) 1 s' s'')).
Proof. exact advice_followed. Qed.
Theorem C46_accepted_partial : forall s, N.of_nat (2 * List.length s) <= usize_max ->
  ~ trailing_backslash s ->
  exists n s' e, follows (fun s er => expression_parse s = RetErr er) n s s' /\
    (n <= reserved_count s)%nat /\ expression_parse s' = RetOk e.
Proof. exact advice_leads_to_acceptance. Qed.
Theorem C46_refuted : exists s er, addressable s /\ expression_parse s = RetErr er /\
  forall s', ~ advice er s s'.
Proof. exact advice_useless. Qed.
Print Assumptions C46_advice_partial. Print Assumptions C46_accepted_partial. Print Assumptions C46_refuted.
(** [(a)/b(c] is mended in two steps, the second of which points to the left of the first. *)
Example C46_example :
  follows (fun s er => expression_parse s = RetErr er) 2 (s_ "(a)/b(c") (s_ "\(a)/b\(c") /\
  ~ trailing_backslash (s_ "(a)/b(c") /\ reserved_count (s_ "(a)/b(c") = 4%nat.
Proof.
  split; [|split; [|reflexivity]].
  - eapply follows_step with (s1 := s_ "(a)/b\(c"); [vm_compute; reflexivity| |].
    { exists (mkspan 5 1 (s_ "(")), (s_ "(a)/b"), (c_ "("), (s_ "c"). repeat split; [now left|vm_compute; discriminate]. }
    eapply follows_step with (s1 := s_ "\(a)/b\(c"); [vm_compute; reflexivity| |constructor].
    exists (mkspan 0 1 (s_ "(a)/b\(c")), [], (c_ "("), (s_ "a)/b\(c"). repeat split; [now left|vm_compute; discriminate].
  - intros (pre & H & _). apply (f_equal (@rev char)) in H. rewrite rev_app_distr in H. discriminate.
Qed.
