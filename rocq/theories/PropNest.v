(** C78: the nesting limit of regexes ([limit]: 250 in regex and regex-syntax), and expressions. *)
From Verif Require Import ProofNest6.

(** The depth is that of the grammar, and a regex is accepted just if that is within the limit. *)
Theorem C78_depth t d : nest t = Some d <-> nests t d.
Proof. exact (nest_nested t d). Qed.
Print Assumptions C78_depth.
Theorem C78_accepted limit t r : limited_new limit t = Done r <-> regex_text t r /\ exists d, nests t d /\ (d <= limit)%nat.
Proof. exact (limited_iff limit t r). Qed.
Print Assumptions C78_accepted.
Example C78_depth_case : nests (s_ "\d") 0 /\ nests (s_ "[\d]") 1 /\ nests (s_ "[ab]") 2 /\ nests (s_ "(?:(?P<n>a|b*c+?)[^\)])|") 7 /\
  ~ nests (s_ "ab") 2.
Proof.
  repeat (split; [apply C78_depth; vm_compute; reflexivity|]). intros H. apply C78_depth in H. discriminate H.
Qed.

(** A regex has a depth, and is refused exactly by the limits below it. *)
Theorem C78_limit t r : regex_new t = Done r -> exists d, nest t = Some d /\
  forall limit, limited_new limit t = if Nat.leb d limit then Done r else Invalid.
Proof. exact (nest_bounded t r). Qed.
Print Assumptions C78_limit.
Example C78_limit_case : nest (s_ "(a|b*)c") = Some 4%nat /\ nest (s_ "abc") = Some 1%nat /\ nest (s_ "[ab]\d") = Some 3%nat /\ nest (s_ "[ab]\x41") = Some 3%nat /\ nest [] = Some 0%nat.
Proof. repeat split; vm_compute; reflexivity. Qed.

(** Groups add one to the depth of what they hold, and repetitions another. *)
Theorem C78_groups t r d : parse_syntax t = Done r -> nest t = Some d ->
  nest (s_ "(" ++ t ++ s_ ")") = Some (S d) /\ nest (s_ "(?:" ++ t ++ s_ ")") = Some (S d) /\ nest (s_ "(" ++ t ++ s_ ")?") = Some (S (S d)).
Proof. exact (nest_group t r d). Qed.
Print Assumptions C78_groups.

(** A regex is nested at most as deep as it is long, in chars. *)
Theorem C78_length t d : nest t = Some d -> (d <= List.length t)%nat.
Proof. exact (nest_length t d). Qed.
Print Assumptions C78_length.
Example C78_length_case : nest (s_ "|") = Some 1%nat /\ nest (s_ "((|))") = Some 3%nat.
Proof. split; vm_compute; reflexivity. Qed.

(** [Expression::regex] never runs into a limit of 12 or more, however long the expression. *)
Theorem C78_built_in limit s : addressable s -> (12 <= limit)%nat -> limited_regex limit s = expression_regex s.
Proof. exact (limited_builtin limit s). Qed.
Print Assumptions C78_built_in.
Example C78_built_in_case : exists t r, limited_regex 250 (s_ "a b(c)/d {float} {string}") = XOk t r.
Proof. do 2 eexists. vm_compute. reflexivity. Qed.
(** It would run into every smaller one. *)
Theorem C78_least limit : (limit < 12)%nat -> exists s t r, expression_regex s = XOk t r /\ limited_regex limit s = XRegex.
Proof. exact (limited_least limit). Qed.
Print Assumptions C78_least.

(** [Expression::regex_with_parameters], the matchers being regexes. It is as without the limit if each matcher has room in
    it for two more; else it is an error, of [Regex::new] or, from the first matcher with an open parenthesis which is
    itself too deep, [RenameRegexGroup]. *)
Theorem C78_custom limit digits spaces words to_string get s e : (12 <= limit)%nat -> expression_parse s = RetOk e ->
  Forall (regexes digits spaces words to_string get) (parameters e) ->
  let limited := limited_regex_with_parameters limit digits spaces words to_string get s in
  (Forall (fun p => ~ too_deep limit get p) (parameters e) -> Forall (room limit digits spaces words to_string get) (parameters e) ->
   limited = regex_with_parameters digits spaces words to_string get s) /\
  (Forall (fun p => ~ too_deep limit get p) (parameters e) -> ~ Forall (room limit digits spaces words to_string get) (parameters e) ->
   limited = XRegex) /\
  (forall e1 p e2 v, e = e1 ++ ExParameter p :: e2 -> Forall (fun p => ~ too_deep limit get p) (parameters e1) -> too_deep limit get p ->
   get (par_input p) = Some v -> limited = XExpansion (RenameRegexGroup (par_input p) v)).
Proof. exact (limited_custom limit digits spaces words to_string get s e). Qed.
Print Assumptions C78_custom.

(** So matchers of up to 248 chars, also once renamed, never run into it. *)
Theorem C78_short limit digits spaces words to_string get s e : (12 <= limit)%nat -> expression_parse s = RetOk e ->
  Forall (regexes digits spaces words to_string get) (parameters e) ->
  (forall p v r, In p (parameters e) -> get (par_input p) = Some v -> regex_new v = Done r ->
    (List.length v <= limit)%nat /\ (List.length (between digits spaces words to_string p v r) + 2 <= limit)%nat) ->
  limited_regex_with_parameters limit digits spaces words to_string get s = regex_with_parameters digits spaces words to_string get s.
Proof. exact (limited_short limit digits spaces words to_string get s e). Qed.
Print Assumptions C78_short.

(** And for every limit there is a regex within it which is none as a matcher. *)
Theorem C78_own_limit limit digits spaces words to_string : (12 <= limit)%nat -> exists v, ~ In (c_ "(") v /\
  (exists r, limited_new limit v = Done r) /\
  (exists t r, regex_with_parameters digits spaces words to_string (fun _ => Some v) (s_ "{a}") = XOk t r) /\
  limited_regex_with_parameters limit digits spaces words to_string (fun _ => Some v) (s_ "{a}") = XRegex.
Proof. exact (own_limit limit digits spaces words to_string). Qed.
Print Assumptions C78_own_limit.

(** Cases of [C78_custom] at 250: 248 deep has room, 249 has none, 251 with a parenthesis is refused before. *)
Example C78_custom_room : let get := fun _ : span => Some (stars 248) in
  limited_regex_with_parameters 250 [] [] [] (fun _ => []) get (s_ "x {a}") =
  regex_with_parameters [] [] [] (fun _ => []) get (s_ "x {a}") /\
  exists t r, regex_with_parameters [] [] [] (fun _ => []) get (s_ "x {a}") = XOk t r.
Proof. split; [vm_compute; reflexivity|]. do 2 eexists. vm_compute. reflexivity. Qed.
Example C78_custom_none : limited_regex_with_parameters 250 [] [] [] (fun _ => []) (fun _ : span => Some (stars 249)) (s_ "x {a}") = XRegex.
Proof. vm_compute. reflexivity. Qed.
Example C78_custom_deep : let v := s_ "(b)" ++ stars 250 in
  limited_regex_with_parameters 250 [] [] [] (fun _ => []) (fun _ : span => Some v) (s_ "x {a}") =
  XExpansion (RenameRegexGroup (mkspan 3 1 (s_ "a")) v).
Proof. vm_compute. reflexivity. Qed.
