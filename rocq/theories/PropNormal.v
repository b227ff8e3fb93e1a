(** Property C81 (the text a matcher with groups is replaced by). Statements only; every proof is a lemma of
    the proof layer. [translate] is what the crate reads a regex as, [rename_capture_groups] the renaming of
    src/expand/parameters.rs:324-376, [show] the text it is printed as. *)
From Verif Require Import ProofRelabel.

(** * C81: what a matcher with groups is replaced by is that matcher, but for the names of its groups. *)
(** Renaming changes nothing but names, for any matcher: the constructors it calls simplify nothing further. *)
Theorem C81_names : forall digits spaces words, tables_ok digits spaces words ->
  forall t r id, regex_new t = Done r ->
    nameless (rename_capture_groups (translate digits spaces words r) id) = nameless (translate digits spaces words r).
Proof. exact rename_nameless. Qed.
Print Assumptions C81_names.
(** What is printed is read as what was printed, renamed or not. [tame]: no group is dropped. [counted]: no
    count such as [{2}?] is lazy. Either printer of C35. *)
Theorem C81_read_again : forall digits spaces words, tables_ok digits spaces words ->
  forall wrap t r, regex_new t = Done r -> tame digits spaces words r ->
    counted (translate digits spaces words r) = true ->
    wrap = true \/ no_nested (translate digits spaces words r) = true ->
    (exists r', parse_syntax (show wrap (translate digits spaces words r)) = Done r' /\
      translate digits spaces words r' = translate digits spaces words r) /\
    forall id, exists r', parse_syntax (show wrap (rename_capture_groups (translate digits spaces words r) id)) = Done r' /\
      translate digits spaces words r' = rename_capture_groups (translate digits spaces words r) id.
Proof. exact reread_display. Qed.
Print Assumptions C81_read_again.
(** Without [counted] it is not: of [(a{2}?b|a{2}c)], the printed regex is simplified further. *)
Theorem C81_lazy_count : forall digits spaces words, exists t r r',
  regex_new t = Done r /\ tame digits spaces words r /\
  parse_syntax (show true (translate digits spaces words r)) = Done r' /\
  translate digits spaces words r' <> translate digits spaces words r.
Proof.
  intros. exists (s_ "(a{2}?b|a{2}c)").
  eexists. eexists. split; [reflexivity|]. split; [cbn; repeat split; now left|]. split; [vm_compute; reflexivity|]. vm_compute. discriminate.
Qed.
Print Assumptions C81_lazy_count.

Definition digits : ranges := [(48, 57)].
Definition blanks : ranges := [(9, 13); (32, 32)].
Definition letters : ranges := [(48, 57); (65, 90); (95, 95); (97, 122)].
(** A matcher that is simplified, its [Hir], and what it is replaced by as the parameter with id 3. *)
Definition matcher : str := s_ "([a-cb-f]|x)(?P<n>to|ton?)(\d{1,3})".
Example C81_example : match regex_new matcher with
  | Done r =>
      let h := translate digits blanks letters r in
      h = HCat [HCap 1 None (HAlt [HClass [(97, 102)]; HLit [120]]);
        HCap 2 (Some (s_ "n")) (HAlt [HLit (s_ "to"); HCat [HLit (s_ "to"); HRep 0 (Some 1) true (HLit (s_ "n"))]]);
        HCap 3 None (HRep 1 (Some 3) true (HClass [(48, 57)]))] /\
      counted h = true /\ no_nested h = true /\
      show false (rename_capture_groups h 3) =
        s_ "(?:(?P<__3_0>(?:[a-f]|x))(?P<__3_1>(?:(?:to)|(?:(?:to)n?)))(?P<__3_2>[0-9]{1,3}))"
  | _ => False
  end.
Proof. vm_compute. repeat split. Qed.
Example C81_tame : tables_ok digits blanks letters /\ exists r, regex_new matcher = Done r /\ tame digits blanks letters r.
Proof.
  split; [repeat (apply Forall_cons || apply Forall_nil); vm_compute; discriminate|].
  eexists. split; [vm_compute; reflexivity|]. cbn. repeat split; now left.
Qed.
