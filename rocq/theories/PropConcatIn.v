(** Property C85 (expressions with custom parameters one after the other). Statements only. *)
From Verif Require Import ProofConcatIn ProofPrint.

(** * C85: C67 holds with custom parameters too, if the provider looks at names only; each part is then read in view
    of what surrounds it. *)
Theorem C85_words : forall digits spaces words get, by_name get -> forall a b ea eb ec la wa wb rb, addressable (a ++ b) ->
  expression_parse a = RetOk ea -> expression_parse b = RetOk eb -> expression_parse (a ++ b) = RetOk ec ->
  ends_in_word ea la wa -> starts_with_word eb wb rb -> forall pre subject post v,
  let means := means_in frag (custom_type digits spaces words frag get) in
  means ec pre subject post v <->
  exists s1 s2 s3 v1 v3, subject = s1 ++ s2 ++ s3 /\ v = v1 ++ v3 /\ means la pre s1 (s2 ++ s3 ++ post) v1 /\
    (exists branch, In branch (word_branches (wa ++ wb)) /\ branch_means frag branch s2) /\
    means rb (pre ++ s1 ++ s2) s3 post v3.
Proof. exact custom_words. Qed.
Print Assumptions C85_words.
Theorem C85_meaning : forall digits spaces words get, by_name get -> forall a b ea eb ec, addressable (a ++ b) ->
  expression_parse a = RetOk ea -> expression_parse b = RetOk eb -> expression_parse (a ++ b) = RetOk ec ->
  where_they_meet (fun x y => ~ touches x y) ea eb -> forall pre subject post v,
  let means := means_in frag (custom_type digits spaces words frag get) in
  means ec pre subject post v <->
  exists s1 s2 v1 v2, subject = s1 ++ s2 /\ v = v1 ++ v2 /\ means ea pre s1 (s2 ++ post) v1 /\ means eb (pre ++ s1) s2 post v2.
Proof. exact custom_concat. Qed.
Print Assumptions C85_meaning.
(** If no matcher looks around, the regex of [a ++ b] matches what the regexes of [a] and [b] match, one after the
    other. *)
Theorem C85_regex : forall digits spaces words, tables_ok digits spaces words -> forall to_string, prints_meaning to_string ->
  forall get, by_name get ->
  (forall i t, get i = Some t -> exists r, regex_new t = Done r /\ tame digits spaces words r /\ blind r) ->
  let regex := regex_with_parameters digits spaces words to_string get in
  let is_match := is_match (in_ranges digits) (in_ranges spaces) (in_ranges words) in
  forall a b ea eb ta tb tc ra rb rc, addressable (a ++ b) ->
  expression_parse a = RetOk ea -> expression_parse b = RetOk eb -> where_they_meet (fun x y => ~ touches x y) ea eb ->
  regex a = XOk ta ra -> regex b = XOk tb rb -> regex (a ++ b) = XOk tc rc -> forall subject, Forall scalar subject ->
  is_match rc subject <-> exists s1 s2, subject = s1 ++ s2 /\ is_match ra s1 /\ is_match rb s2.
Proof. exact blind_concat. Qed.
Print Assumptions C85_regex.
(** With a matcher that looks around it is not so: [{x}] with the matcher [a$], followed by [b]. *)
Theorem C85_looking : forall digits spaces words, exists get a b ea eb ta tb tc ra rb rc subject,
  by_name get /\ (forall i t, get i = Some t -> exists r, regex_new t = Done r /\ tame digits spaces words r) /\ addressable (a ++ b) /\
  expression_parse a = RetOk ea /\ expression_parse b = RetOk eb /\ where_they_meet (fun x y => ~ touches x y) ea eb /\
  regex_with_parameters digits spaces words (show true) get a = XOk ta ra /\
  regex_with_parameters digits spaces words (show true) get b = XOk tb rb /\
  regex_with_parameters digits spaces words (show true) get (a ++ b) = XOk tc rc /\ Forall scalar subject /\
  let is_match := is_match (in_ranges digits) (in_ranges spaces) (in_ranges words) in
  ~ is_match rc subject /\ exists s1 s2, subject = s1 ++ s2 /\ is_match ra s1 /\ is_match rb s2.
Proof. exact looking_concat. Qed.
Print Assumptions C85_looking.

Definition digits : ranges := [(48, 57)].
Definition blanks : ranges := [(9, 13); (32, 32)].
Definition wordy : ranges := [(48, 57); (65, 90); (95, 95); (97, 122)].
(** [{color}] is [red|(b)lue]. *)
Definition color (i : span) : option str := if str_eqb (frag i) (s_ "color") then Some (s_ "red|(b)lue") else None.
Definition parsed (s : str) : expression span := match expression_parse s with RetOk e => e | _ => [] end.
Example C85_example :
  let a := s_ "{color} b" in let b := s_ "ox(es) {color}" in
  let regex := regex_with_parameters digits blanks wordy (show true) color in
  let is_match := is_match (in_ranges digits) (in_ranges blanks) (in_ranges wordy) in
  tables_ok digits blanks wordy /\ by_name color /\
  (forall i t, color i = Some t -> exists r, regex_new t = Done r /\ tame digits blanks wordy r /\ blind r) /\
  (exists ea eb, expression_parse a = RetOk ea /\ expression_parse b = RetOk eb /\ where_they_meet (fun x y => ~ touches x y) ea eb) /\
  exists ta tb tc ra rb rc, regex a = XOk ta ra /\ regex b = XOk tb rb /\ regex (a ++ b) = XOk tc rc /\
    is_match rc (s_ "red boxes blue") /\ ~ is_match rc (s_ "red boxe blue").
Proof.
  cbv zeta. split.
  { repeat split; try discriminate; try (repeat constructor; discriminate);
      (apply Forall_forall; intros x Hx; vm_compute in Hx; intuition (subst x; vm_compute; intuition discriminate)). }
  split; [intros i j E; unfold color; now rewrite E|]. split.
  { intros i t. unfold color. destruct (str_eqb _ _); [|discriminate]. intros E. assert (t = s_ "red|(b)lue") as -> by congruence.
    eexists. split; [vm_compute; reflexivity|]. split; cbn; tauto. }
  split.
  { exists (parsed (s_ "{color} b")), (parsed (s_ "ox(es) {color}")). split; [vm_compute; reflexivity|]. split; [vm_compute; reflexivity|].
    intros l x y r E1 E2. apply (f_equal (fun e => last e (ExText (mkspan 0 1 [])))) in E1. rewrite last_last in E1.
    subst x. apply (f_equal (hd (ExText (mkspan 0 1 [])))) in E2. cbn [hd] in E2. subst y. vm_compute. auto. }
  do 6 eexists. split; [vm_compute; reflexivity|]. split; [vm_compute; reflexivity|]. split; [vm_compute; reflexivity|].
  split; [apply matches_iff|rewrite <- matches_iff]; vm_compute; [reflexivity|discriminate].
Qed.
