(** Proofs about the messages of expansion errors. *)
From Verif Require Import ProofParams2 Messages SpecMessages.

Lemma display_expansion err digits spaces words to_string get s e1 p e2 :
  expression_parse s = RetOk (e1 ++ ExParameter p :: e2) ->
  Forall (custom_checked frag get) (parameters e1) ->
  (get (par_input p) = None -> ~ built_in (frag (par_input p)) ->
   display_error err (regex_with_parameters digits spaces words to_string get s) =
   Some (s_ "Failed to expand regex: Parameter `" ++ frag (par_input p) ++ s_ "` not found")) /\
  (forall v, get (par_input p) = Some v -> In (c_ "(") v -> regex_new v = Invalid ->
   display_error err (regex_with_parameters digits spaces words to_string get s) =
   Some (s_ "Failed to expand regex: Failed to rename capturing groups in regex `" ++ v ++
         s_ "` of parameter `" ++ frag (par_input p) ++ s_ "`: " ++ err)).
Proof.
  intros Hs Hc. split.
  - intros Hg Hb.
    assert (E : regex_with_parameters digits spaces words to_string get s = XExpansion (NotFound (par_input p))).
    { apply whole_errors. exists e1, p, e2. rewrite Hg. auto. }
    rewrite E. reflexivity.
  - intros v Hg Hv Hi.
    assert (E : regex_with_parameters digits spaces words to_string get s = XExpansion (RenameRegexGroup (par_input p) v)).
    { apply whole_errors. exists e1, p, e2. rewrite Hg. auto. }
    rewrite E. cbn [display_error display_param]. reflexivity.
Qed.

(** The stage that failed. *)
Lemma display_stages err digits spaces words to_string get s :
  (forall e, expression_parse s = RetErr e ->
   display_error err (regex_with_parameters digits spaces words to_string get s) = Some (s_ "Parsing failed: " ++ display_parsing e)) /\
  (regex_with_parameters digits spaces words to_string get s = XRegex ->
   display_error err (regex_with_parameters digits spaces words to_string get s) = Some (s_ "Regex creation failed: " ++ err)) /\
  (display_error err (regex_with_parameters digits spaces words to_string get s) = None <->
   match regex_with_parameters digits spaces words to_string get s with
   | XOk _ _ | XPanic | XDiverges | XUnsupported | XExpansion Unmodelled => True
   | _ => False
   end).
Proof.
  split; [|split].
  - intros e H. unfold regex_with_parameters, regex_by. rewrite H. reflexivity.
  - intros ->. reflexivity.
  - destruct (regex_with_parameters digits spaces words to_string get s) as [| |[]| | | |]; cbn [display_error]; split; easy.
Qed.
