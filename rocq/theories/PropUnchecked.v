(** Property C69 (matchers that are not looked at). Statements only.
    [is_regex t] abbreviates [exists r, regex_new t = Done r]. *)
From Verif Require Import ProofUnchecked.

(** * C69: a matcher without an open parenthesis is put in parentheses and not looked at. *)
(** With one parameter the outcome is a regex exactly if the matcher in parentheses is one. *)
Theorem C69_accepted : forall digits spaces words to_string get s e1 p e2 v,
  expression_parse s = RetOk (e1 ++ ExParameter p :: e2) -> parameters e1 = [] -> parameters e2 = [] ->
  get (par_input p) = Some v -> ~ In (c_ "(") v ->
  (exists t r, regex_with_parameters digits spaces words to_string get s = XOk t r) <-> is_regex (s_ "(" ++ v ++ s_ ")").
Proof. exact one_unchecked. Qed.
(** That is so of regexes, of what closes the group early and ends in a backslash, and of both behind [?:] or a name. *)
Theorem C69_exactly : forall v, ~ In (c_ "(") v ->
  is_regex (s_ "(" ++ v ++ s_ ")") <-> exists q u, v = q ++ u /\ opener q /\ closes u.
Proof. exact in_parens. Qed.
(** With two parameters neither matcher in parentheses need be a regex. *)
Theorem C69_two : exists get s v w t r, forall digits spaces words to_string,
  s = s_ "{p}{q}" /\ get (mkspan 1 1 (s_ "p")) = Some v /\ get (mkspan 4 1 (s_ "q")) = Some w /\
  ~ In (c_ "(") (v ++ w) /\ ~ is_regex (s_ "(" ++ v ++ s_ ")") /\ ~ is_regex (s_ "(" ++ w ++ s_ ")") /\
  regex_with_parameters digits spaces words to_string get s = XOk t r.
Proof. exact two_unchecked. Qed.
Print Assumptions C69_accepted. Print Assumptions C69_exactly. Print Assumptions C69_two.

Definition ex_get : provider span := hash_map_get frag [(s_ "p", s_ "?:a"); (s_ "q", s_ "?<n>a){2}|b\"); (s_ "r", s_ "a)|{")].
Definition ex_whole := regex_with_parameters [] [] [] (show true) ex_get.
(** Three matchers that are not regexes; the expressions with the first two give regexes. *)
Example C69_example :
  map regex_new [s_ "?:a"; s_ "?<n>a){2}|b\"; s_ "a)|{"] = [Invalid; Invalid; Invalid] /\
  (exists q u, s_ "?:a" = q ++ u /\ opener q /\ closes u) /\
  (exists q u, s_ "?<n>a){2}|b\" = q ++ u /\ opener q /\ closes u) /\
  match ex_whole (s_ "x {p}") with XOk t r => t = s_ "^x (?:a)$" /\ groups r = [] | _ => False end /\
  match ex_whole (s_ "{q}(y)") with XOk t r => t = s_ "^(?<n>a){2}|b\)(?:y)?$" /\ groups r = [Some (s_ "n")] | _ => False end /\
  ex_whole (s_ "{r}") = XRegex.
Proof.
  split; [vm_compute; reflexivity|]. split; [|split; [|vm_compute; easy]].
  - exists (s_ "?:"), (s_ "a"). split; [reflexivity|]. split; [constructor|]. left. eexists. vm_compute. reflexivity.
  - exists (s_ "?<" ++ s_ "n" ++ s_ ">"), (s_ "a){2}|b\"). split; [reflexivity|]. split.
    + apply opener_named. constructor; [|constructor]. apply contains_In. vm_compute. reflexivity.
    + right. exists (s_ "a"), (s_ "{2}|b"). split; [reflexivity|]. split; eexists; vm_compute; reflexivity.
Qed.
