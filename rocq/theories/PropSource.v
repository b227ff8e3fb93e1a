(** Property C87 (errors as [std::error::Error]). Statements only. *)
From Verif Require Import ProofSource.

(** * C87: each error of [Expression::regex] has a source, the error of the stage that failed; the message is the stage and
    the message of the source. Only a parameter that was not found has a further source, its input. *)
Theorem C87_stages : forall err x e, any_of err x = Some e ->
  display_error err x = Some (message e) /\
  exists s, source_of e = Some s /\ (exists stage, message e = stage ++ message s) /\
    match x with
    | XParsing p => s = AnyParse p /\ source_of s = None
    | XExpansion (NotFound i) => s = AnyNotFound i /\ source_of s = Some (AnyInput i)
    | XExpansion (RenameRegexGroup i re) => s = AnyRename i re err /\ source_of s = None
    | XRegex => s = AnyRegex err /\ source_of s = None
    | _ => False
    end.
Proof. exact source_stages. Qed.
Print Assumptions C87_stages.
(** A message contains that of the source. *)
Theorem C87_quoted : forall e x, source_of e = Some x -> exists pre post, message e = pre ++ message x ++ post.
Proof. exact source_quoted. Qed.
Print Assumptions C87_quoted.
(** Following the sources ends after three errors. *)
Theorem C87_chain : forall err x e n, any_of err x = Some e -> (List.length (chain n e) <= 3)%nat.
Proof. exact chain_bounded. Qed.
Print Assumptions C87_chain.
(** The error of the regex parser that [RenameRegexGroup] holds, and quotes, is not its source. *)
Theorem C87_lost : forall i re err, source_of (AnyRename i re err) = None /\ exists pre, message (AnyRename i re err) = pre ++ err.
Proof. exact lost_cause. Qed.
Print Assumptions C87_lost.
(** [parse::Error<I>] implements [Error] if [I] can be shown, the errors of expansion only if [I] itself is an error and
    ['static]. *)
Theorem C87_implemented : forall i, shows i = true ->
  parse_error_is i = true /\ (param_error_is i = true <-> errs i = true /\ stays i = true) /\
  (expand_error_is i = true <-> errs i = true /\ stays i = true).
Proof. exact implemented. Qed.
Print Assumptions C87_implemented.
(** So what [Expression::regex] returns does not, even for a ['static] expression. *)
Theorem C87_spanned : forall static, parse_error_is (spanned static) = true /\ param_error_is (spanned static) = false /\
  expand_error_is (spanned static) = false.
Proof. exact spanned_errors. Qed.
Print Assumptions C87_spanned.

Definition broken (i : span) : option str := if str_eqb (frag i) (s_ "p") then Some (s_ "a(") else None.
Example C87_example : 
  map (fun s => match any_of (s_ "...") (regex_with_parameters [] [] [] (show true) broken (s_ s)) with
                | Some e => map message (chain 9 e)
                | None => []
                end) ["a {q}"; "{p}"; "x"]%string =
  [[s_ "Failed to expand regex: Parameter `q` not found"; s_ "Parameter `q` not found"; s_ "q"];
   [s_ "Failed to expand regex: Failed to rename capturing groups in regex `a(` of parameter `p`: ...";
    s_ "Failed to rename capturing groups in regex `a(` of parameter `p`: ..."]; []].
Proof. vm_compute. reflexivity. Qed.
Example C87_message : exists e x, expression_parse (s_ "(a") = RetErr x /\ any_of [] (expression_regex (s_ "(a")) = Some e /\
  chain 5 e = [e; AnyParse x] /\ expand_error_is (mkinput true true true) = true.
Proof. eexists _, _. split; [vm_compute; reflexivity|]. vm_compute. auto. Qed.
