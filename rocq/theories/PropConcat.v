(** Property C67 (expressions one after the other). Statements only.
    [accepted s] abbreviates [exists e, expression_parse s = RetOk e]. *)
From Verif Require Import ProofConcat ProofWords.

(** * C67: expressions can be put one after the other, and cut between nodes. *)
Theorem C67_accepted : forall a b, addressable (a ++ b) -> accepted a -> accepted b -> accepted (a ++ b).
Proof. exact concat_accepted. Qed.
(** The nodes stay the same exactly if nothing merges where the two meet. *)
Theorem C67_nodes : forall a b ea eb, addressable (a ++ b) -> expression_parse a = RetOk ea -> expression_parse b = RetOk eb ->
  expression_parse (a ++ b) = RetOk (one_after_the_other a ea eb) <->
  where_they_meet (fun x y => ~ touches x y /\ ~ same_text x y) ea eb.
Proof. exact concat_nodes. Qed.
Theorem C67_cut : forall s x y, addressable s -> expression_parse s = RetOk (x ++ y) ->
  exists a b y', s = a ++ b /\ expression_parse a = RetOk x /\ expression_parse b = RetOk y' /\
    x ++ y = one_after_the_other a x y'.
Proof. exact cut_nodes. Qed.
(** Full statement: what [a ++ b] stands for is what [a] stands for, followed by what [b] stands for. False: with
    [x] and [y/z] it is [xy] or [z]. *)
Theorem C67_refuted : exists a b ta tb tc ra rb rc subject, addressable (a ++ b) /\
  expression_regex a = XOk ta ra /\ expression_regex b = XOk tb rb /\ expression_regex (a ++ b) = XOk tc rc /\
  forall digit space word, is_match digit space word rc subject /\
    ~ exists s1 s2, subject = s1 ++ s2 /\ is_match digit space word ra s1 /\ is_match digit space word rb s2.
Proof. exact concat_refuted. Qed.
(** True unless an alternation of the one touches a text, an optional or an alternation of the other; also for the
    captured values. *)
Theorem C67_meaning_partial : forall a b ea eb ec, addressable (a ++ b) ->
  expression_parse a = RetOk ea -> expression_parse b = RetOk eb -> expression_parse (a ++ b) = RetOk ec ->
  where_they_meet (fun x y => ~ touches x y) ea eb -> forall digit space subject v,
  let means := means frag (fun p => typed digit space (frag (par_input p))) in
  means ec subject v <->
  exists s1 s2 v1 v2, subject = s1 ++ s2 /\ v = v1 ++ v2 /\ means ea s1 v1 /\ means eb s2 v2.
Proof. exact concat_meaning. Qed.
Theorem C67_regex_partial : forall a b ea eb ta tb tc ra rb rc, addressable (a ++ b) ->
  expression_parse a = RetOk ea -> expression_parse b = RetOk eb -> where_they_meet (fun x y => ~ touches x y) ea eb ->
  expression_regex a = XOk ta ra -> expression_regex b = XOk tb rb -> expression_regex (a ++ b) = XOk tc rc ->
  forall digit space word subject, is_match digit space word rc subject <->
  exists s1 s2, subject = s1 ++ s2 /\ is_match digit space word ra s1 /\ is_match digit space word rb s2.
Proof. exact concat_regex. Qed.
(** What it stands for in every case: what the first stands for but for its last word, then a branch of the two words
    written together, then what the second stands for but for its first word. *)
Theorem C67_words : forall a b ea eb ec la wa wb rb, addressable (a ++ b) ->
  expression_parse a = RetOk ea -> expression_parse b = RetOk eb -> expression_parse (a ++ b) = RetOk ec ->
  ends_in_word ea la wa -> starts_with_word eb wb rb -> forall digit space subject v,
  let means := means frag (fun p => typed digit space (frag (par_input p))) in
  means ec subject v <->
  exists s1 s2 s3 v1 v3, subject = s1 ++ s2 ++ s3 /\ v = v1 ++ v3 /\ means la s1 v1 /\
    (exists branch, In branch (word_branches (wa ++ wb)) /\ branch_means frag branch s2) /\ means rb s3 v3.
Proof. exact concat_words. Qed.
Theorem C67_words_exist : forall e : expression span,
  (exists l w, ends_in_word e l w) /\ (exists w r, starts_with_word e w r).
Proof. exact words_exist. Qed.
Print Assumptions C67_words. Print Assumptions C67_words_exist.
Print Assumptions C67_accepted. Print Assumptions C67_nodes. Print Assumptions C67_cut. Print Assumptions C67_refuted.
Print Assumptions C67_meaning_partial. Print Assumptions C67_regex_partial.

Definition parsed (s : str) : expression span := match expression_parse s with RetOk e => e | _ => [] end.
(** Two texts that become one; an optional and a text that do not; an alternation and a text that become one. *)
Example C67_example :
  let a := s_ "{int} (a)b" in let b := s_ "c(d) {int} e/f" in let c := s_ "g(h)" in
  List.length (parsed a) = 4%nat /\ List.length (parsed b) = 6%nat /\ List.length (parsed c) = 2%nat /\
  where_they_meet (fun x y => ~ touches x y) (parsed a) (parsed b) /\ List.length (parsed (a ++ b)) = 9%nat /\
  parsed (c ++ a) = one_after_the_other c (parsed c) (parsed a) /\
  (exists x y, last (parsed b) (ExText (mkspan 0 1 [])) = x /\ hd (ExText (mkspan 0 1 [])) (parsed c) = y /\ touches x y) /\
  List.length (parsed (b ++ c)) = 6%nat.
Proof.
  cbv zeta. repeat (split; [vm_compute; reflexivity|]). split.
  - intros l x y r E1 E2. apply (f_equal (fun e => last e (ExText (mkspan 0 1 [])))) in E1. rewrite last_last in E1.
    subst x. apply (f_equal (hd (ExText (mkspan 0 1 [])))) in E2. cbn [hd] in E2. subst y. vm_compute. auto.
  - repeat (split; [vm_compute; reflexivity|]). split; [|vm_compute; reflexivity].
    eexists _, _. split; [reflexivity|]. split; [reflexivity|]. vm_compute. exact I.
Qed.
(** [{int} a/b(c)] and [(d)e/f {}]: the branches are [a], [b(c)(d)e] and [f]. *)
Example C67_example_words :
  let a := s_ "{int} a/b(c)" in let b := s_ "(d)e/f {}" in
  exists la wa wb rb, ends_in_word (parsed a) la wa /\ starts_with_word (parsed b) wb rb /\
    List.length la = 2%nat /\ List.length rb = 2%nat /\
    map (fun br => src_branch (map (map_alternative frag) br)) (word_branches (wa ++ wb)) = [s_ "a"; s_ "b(c)(d)e"; s_ "f"].
Proof.
  cbv zeta. exists (firstn 2 (parsed (s_ "{int} a/b(c)"))), (skipn 2 (parsed (s_ "{int} a/b(c)"))),
    (firstn 1 (parsed (s_ "(d)e/f {}"))), (skipn 1 (parsed (s_ "(d)e/f {}"))). repeat split.
  - vm_compute. repeat constructor; discriminate.
  - intros l' x E. apply (f_equal (fun e => last e (ExText (mkspan 0 1 [])))) in E. rewrite last_last in E. subst x. vm_compute. auto.
  - vm_compute. repeat constructor; discriminate.
  - intros x r' E. apply (f_equal (hd (ExText (mkspan 0 1 [])))) in E. cbn [hd] in E. subst x. vm_compute. auto.
Qed.
