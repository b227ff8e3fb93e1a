(** Property C43 (recursion depth). Statements only. [parameter_d d] and [optional_d d] are the
    parsers with at most [d] nested calls allowed; [BFuel] says that this was not enough. *)
From Verif Require Import ProofDepth.

(** Exactly when [d] nested calls are not enough. *)
Theorem C43_parameter_depth : forall d o l s ix, ix < usize_max ->
  fst (parameter_d d (mkspan o l s) ix) = Bad BFuel <->
  d = 0%nat \/ (exists r, s = s_ "{" ++ r) /\ nested (S d) s.
Proof. exact parameter_depth. Qed.
Theorem C43_optional_depth : forall d o l s,
  optional_d d (mkspan o l s) = Bad BFuel <->
  d = 0%nat \/ (exists r, s = s_ "(" ++ r) /\ nested (S d) s.
Proof. exact optional_depth. Qed.
(** Hence one more than the number of opening brackets is enough. *)
Theorem C43_parameter_bound : forall i ix d, ix < usize_max -> (1 + openings (frag i) <= d)%nat ->
  parameter_d d i ix = parse_parameter i ix.
Proof. exact parameter_bound. Qed.
Theorem C43_optional_bound : forall i d, (1 + openings (frag i) <= d)%nat ->
  optional_d d i = parse_optional i.
Proof. exact optional_bound. Qed.
(** No constant is: [n+1] braces need [n+1] nested calls. *)
Theorem C43_unbounded : forall n o l ix, ix < usize_max ->
  fst (parameter_d n (mkspan o l (repeat (c_ "{") (S n))) ix) = Bad BFuel /\
  fst (parameter_d (S n) (mkspan o l (repeat (c_ "{") (S n))) ix)
    = Bad (BFailure (if Nat.eqb n 0 then UnfinishedParameter (mkspan o l (s_ "{"))
                     else UnescapedReservedCharacter (mkspan (o + 1) l (s_ "{")))).
Proof. exact unbounded_depth. Qed.
Print Assumptions C43_parameter_depth. Print Assumptions C43_optional_depth.
Print Assumptions C43_parameter_bound. Print Assumptions C43_optional_bound.
Print Assumptions C43_unbounded.
Example C43_example : nested 3 (s_ "{a(b\({ c}") /\ openings (s_ "{a(b\({ c}") = 4%nat /\
  fst (parameter_d 2 (mkspan 0 1 (s_ "{a(b\({ c}")) 0) = Bad BFuel /\
  fst (parameter_d 3 (mkspan 0 1 (s_ "{a(b\({ c}")) 0) <> Bad BFuel.
Proof.
  split; [|vm_compute; easy]. apply (nested_brace 2 (s_ "a") (s_ "(b\({ c}")).
  { repeat constructor; cbn; intuition easy. }
  apply (nested_paren 1 (s_ "b\(") (s_ "{ c}")).
  { apply content_plain; [cbn; intuition easy|]. apply (content_escape _ (c_ "(") []); [cbn; tauto|constructor]. }
  apply (nested_brace 0 [] (s_ " c}")); constructor.
Qed.
