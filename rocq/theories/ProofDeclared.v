(** [Debug] of the errors against the declarations of their types. *)
From Verif Require Import SpecDeclared.

Ltac this_variant n := exists (nth n parse_error_type (mkvariant [] [])); split; [cbn; tauto|].
Ltac fields := cbn; split; [reflexivity|]; repeat constructor; cbn; eauto.
Lemma parse_error_declared {I} (input : I -> dbg) err e : prints_one_of input err parse_error_type (debug_parse_error input e).
Proof.
  unfold prints_one_of. destruct e; [this_variant 0%nat|this_variant 1%nat|this_variant 2%nat|this_variant 3%nat|this_variant 4%nat|this_variant 5%nat
    |this_variant 6%nat|this_variant 7%nat|this_variant 8%nat|this_variant 9%nat|this_variant 10%nat|this_variant 11%nat|this_variant 12%nat|this_variant 13%nat|this_variant 14%nat]; fields.
Qed.
Lemma param_error_declared {I} (input : I -> dbg) err e d : debug_param_error input err e = Some d -> prints_one_of input err param_error_type d.
Proof.
  destruct e; intros [= <-]; [exists (nth 0 param_error_type (mkvariant [] []))|exists (nth 1 param_error_type (mkvariant [] []))]; (split; [cbn; tauto|]); fields.
Qed.
Lemma error_declared {I} (input : I -> dbg) err x d : debug_error input err x = Some d -> prints_one_of input err expand_error_type d.
Proof.
  destruct x as [|e|e| | | |]; try discriminate; cbn [debug_error].
  - intros [= <-]. exists (nth 0 expand_error_type (mkvariant [] [])). split; [cbn; tauto|]. fields.
  - destruct (debug_param_error input err e) as [d0|] eqn:E; [|discriminate]. intros [= <-].
    exists (nth 1 expand_error_type (mkvariant [] [])). split; [cbn; tauto|]. fields.
Qed.
Lemma all_declared {I} (input : I -> dbg) err (i : I) :
  (forall v, In v parse_error_type -> exists e, prints_variant input err v (debug_parse_error input e)) /\
  (forall v, In v param_error_type -> exists e d, debug_param_error input err e = Some d /\ prints_variant input err v d) /\
  (forall v, In v expand_error_type -> vr_name v = s_ "Regex" \/ exists x d, debug_error input err x = Some d /\ prints_variant input err v d).
Proof.
  split; [|split].
  - intros v H. cbn in H. repeat (destruct H as [<-|H]); [..|easy];
      [exists (NestedParameter i)|exists (OptionalInParameter i)|exists (UnfinishedParameter i)|exists (NestedOptional i)|exists (ParameterInOptional i)
      |exists (EmptyOptional i)|exists (AlternationInOptional i)|exists (UnfinishedOptional i)|exists (EmptyAlternation i)|exists (OnlyOptionalInAlternation i)
      |exists (UnescapedReservedCharacter i)|exists (EscapedNonReservedCharacter i)|exists (EscapedEndOfLine i)|exists (Other i KTag)|exists ENeeded]; fields.
  - intros v H. cbn in H. destruct H as [<-|[<-|[]]]; [exists (NotFound i)|exists (RenameRegexGroup i [])]; (eexists; split; [reflexivity|]); fields.
  - intros v H. cbn in H. destruct H as [<-|[<-|[<-|[]]]]; [right; exists (XParsing ENeeded)|right; exists (XExpansion (NotFound i))|now left];
      (eexists; split; [reflexivity|]); fields.
    + exists ENeeded. reflexivity.
    + exists (NotFound i). reflexivity.
Qed.
Lemma declared_once : NoDup (map vr_name parse_error_type) /\ NoDup (map vr_name param_error_type) /\ NoDup (map vr_name expand_error_type).
Proof.
  split; [|split]; cbn [map vr_name parse_error_type param_error_type expand_error_type]; repeat constructor;
    cbn [In]; intros H; repeat (destruct H as [H|H]); try discriminate; exact H.
Qed.
Lemma variant_printed e : exists l, debug_parse_error debug_span e = DTuple (fst (variant_of e)) l /\
  match snd (variant_of e) with Some i => hd_error l = Some (debug_span i) | None => forall i, ~ In (debug_span i) l end.
Proof.
  destruct e; cbn; eexists; (split; [reflexivity|]); try reflexivity. intros i [H|[]]. discriminate.
Qed.
