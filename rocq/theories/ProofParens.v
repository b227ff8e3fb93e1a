(** Parsing time by the number of parentheses. *)
From Coq Require Import PeanoNat.
From Verif Require Import ProofExpand3 SpecRescan SpecWordParts SpecParens ProofSteps5 ProofRescan ProofRescan4 ProofWordParts ProofParse.

Lemma parens_app a b : parens (a ++ b) = (parens a + parens b)%nat.
Proof. unfold parens. now rewrite filter_app, app_length. Qed.
(** (proof device) the expression starts with a text. *)
Definition begins_text (e : expression str) : Prop := match e with ExText _ :: _ => True | _ => False end.
Lemma parts_by_parens : forall e, linked may_follow e ->
  (word_parts e <= 2 * parens (source e) + 1)%nat /\ (~ begins_text e -> word_parts e <= 2 * parens (source e))%nat.
Proof.
  induction e as [|x e IH]; intros L; [cbn; lia|]. destruct L as [Lx Le]. destruct (IH Le) as [I1 I2].
  rewrite source_cons, parens_app. destruct x as [a|[o]|p|t|t]; cbn [word_parts begins_text src_single]; try lia.
  - rewrite !parens_app. cbn [opt_input]. change (parens (s_ "(")) with 1%nat. lia.
  - assert (N : ~ begins_text e) by (destruct e as [|[] ?]; cbn; try easy). specialize (I2 N). split; [lia|]. intros C. now elim C.
Qed.
Lemma wf_parts e : wf e -> parts_within (2 * parens (source e) + 1) e.
Proof.
  intros (_ & L & _) l r ->.
  assert (Lr : linked may_follow r).
  { apply linked_iff. intros l' x y r' ->. apply (L (l ++ l') x y r'). now rewrite <- app_assoc. }
  destruct (parts_by_parens r Lr) as [H _]. unfold source in *. rewrite map_app, concat_app, parens_app. lia.
Qed.
Lemma rescanned_parens e : wf e -> (rescanned e <= (2 * parens (source e) + 1) * List.length (source e))%nat.
Proof.
  intros W. pose proof (wf_parts e W) as P. pose proof (rescanned_parts _ e 0 P (P [] e eq_refl)). lia.
Qed.
Lemma time_by_parens s : addressable s ->
  (steps_of (expression_parse_steps s) <= (392 + 184 * parens s) * List.length s + 146)%nat.
Proof.
  intros Hs. destruct (parse_total s Hs) as [[e E]|[er E]].
  - pose proof (parse_by_words s e Hs E) as H. destruct (parsed_wf s e Hs E) as [W S]. pose proof (rescanned_parens _ W) as R. rewrite S in R. nia.
  - destruct (rejected_rescans s er Hs E) as (p & r & e & -> & _ & P & H & _).
    assert (Hp : addressable p) by (unfold addressable in *; rewrite app_length in Hs; lia).
    destruct (parsed_wf p e Hp P) as [W S]. pose proof (rescanned_parens _ W) as R. rewrite S in R.
    rewrite parens_app, app_length in *. nia.
Qed.
