(** Property C68 (how much an expression matches). Statements only. *)
From Verif Require Import ProofSize.

(** * C68: something, nothing, finitely many. *)
(** There is no expression that cannot match (provided that some character is a digit and some is no whitespace). *)
Theorem C68_something : forall s e t r, addressable s -> expression_parse s = RetOk e -> expression_regex s = XOk t r ->
  forall digit space word, (exists d, digit d = true) -> (exists c, space c = false) ->
  exists subject, is_match digit space word r subject.
Proof. exact matches_something. Qed.
Theorem C68_nothing : forall s e t r, addressable s -> expression_parse s = RetOk e -> expression_regex s = XOk t r ->
  forall digit space word, is_match digit space word r [] <-> Forall (may_vanish frag) e.
Proof. exact matches_nothing. Qed.
(** Without parameters an expression stands for a finite list of subjects, none longer than the expression; with one,
    for arbitrarily long subjects. *)
Theorem C68_finite : forall s e t r, addressable s -> expression_parse s = RetOk e -> expression_regex s = XOk t r ->
  forall digit space word, parameters e = [] ->
  exists l, (forall subject, is_match digit space word r subject <-> In subject l) /\
    Forall (fun x => (List.length x <= List.length s)%nat) l.
Proof. exact finitely_many. Qed.
Theorem C68_infinite : forall s e t r, addressable s -> expression_parse s = RetOk e -> expression_regex s = XOk t r ->
  forall digit space word, (exists d, digit d = true) -> (exists c, space c = false) -> parameters e <> [] ->
  forall k, exists subject, is_match digit space word r subject /\ (k <= List.length subject)%nat.
Proof. exact arbitrarily_long. Qed.
Print Assumptions C68_something. Print Assumptions C68_nothing. Print Assumptions C68_finite. Print Assumptions C68_infinite.

Definition parsed (s : str) : expression span := match expression_parse s with RetOk e => e | _ => [] end.
Definition built (s : str) : bool := match expression_regex s with XOk _ _ => true | _ => false end.
(** An expression for the empty subject, one with parameters that is not, and one without parameters. *)
Example C68_example :
  let a := s_ "(a)(b){}" in let c := s_ "a cat(s)/dog b" in
  built a = true /\ Forall (may_vanish frag) (parsed a) /\ parameters (parsed a) <> [] /\
  built (s_ "{int} cat(s)") = true /\ ~ Forall (may_vanish frag) (parsed (s_ "{int} cat(s)")) /\
  built c = true /\ parsed c <> [] /\ parameters (parsed c) = [] /\
  let digit c := (48 <=? c) && (c <=? 57) in let space c := c =? 32 in
  (exists d, digit d = true) /\ exists c, space c = false.
Proof.
  cbv zeta. split; [vm_compute; reflexivity|]. split; [vm_compute; repeat constructor|]. split; [vm_compute; discriminate|].
  split; [vm_compute; reflexivity|]. split.
  - intros H. change (parsed (s_ "{int} cat(s)")) with (hd (ExText (mkspan 0 1 [])) (parsed (s_ "{int} cat(s)")) :: tl (parsed (s_ "{int} cat(s)"))) in H.
    apply Forall_inv in H. vm_compute in H. discriminate.
  - split; [vm_compute; reflexivity|]. split; [vm_compute; discriminate|]. split; [vm_compute; reflexivity|].
    split; [now exists 48|now exists 65].
Qed.
