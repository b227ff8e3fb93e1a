(** Sources of errors. *)
From Verif Require Export Source Params.

Lemma no_parse_source e : source_of (AnyParse e) = None.
Proof. destruct e; vm_compute; reflexivity. Qed.
Lemma source_quoted e x : source_of e = Some x -> exists pre post, message e = pre ++ message x ++ post.
Proof.
  destruct e as [n e|e|i|i re err|err|i]; intros H; try discriminate.
  - assert (x = e) as -> by (destruct n as [|[|n]]; vm_compute in H; congruence).
    cbn [message]. eexists _, []. now rewrite app_nil_r.
  - now rewrite no_parse_source in H.
  - vm_compute in H. injection H as <-. cbn [message display_param]. now eexists _, _.
Qed.
Lemma source_stages err x e : any_of err x = Some e ->
  display_error err x = Some (message e) /\
  exists s, source_of e = Some s /\ (exists stage, message e = stage ++ message s) /\
    match x with
    | XParsing p => s = AnyParse p /\ source_of s = None
    | XExpansion (NotFound i) => s = AnyNotFound i /\ source_of s = Some (AnyInput i)
    | XExpansion (RenameRegexGroup i re) => s = AnyRename i re err /\ source_of s = None
    | XRegex => s = AnyRegex err /\ source_of s = None
    | _ => False
    end.
Proof.
  destruct x as [t r|p|[i|i re|]| | | | ]; cbn [any_of]; intros H; try discriminate; injection H as <-; (split; [reflexivity|]); eexists;
    (split; [vm_compute; reflexivity|]); (split; [cbn [message]; eexists; reflexivity|]); split; try reflexivity.
  apply no_parse_source.
Qed.
Lemma chain_short e n x : source_of e = Some x -> (forall m y, x <> AnyExpand m y) -> (List.length (chain n e) <= 3)%nat.
Proof.
  intros H Hx. destruct n as [|[|[|[|n]]]]; cbn [chain List.length]; rewrite ?H; cbn [List.length]; try lia.
  - destruct (source_of x); cbn; lia.
  - destruct (source_of x); cbn [List.length]; [destruct (source_of a)|]; cbn; lia.
  - destruct x as [m y|y|i|i re err|err|i]; [now destruct (Hx m y)|rewrite no_parse_source|..]; cbn; lia.
Qed.
Lemma chain_bounded err x e n : any_of err x = Some e -> (List.length (chain n e) <= 3)%nat.
Proof.
  intros H. destruct (source_stages err x e H) as (_ & s & Hs & _ & Hc). apply (chain_short e n s Hs). intros m y ->.
  destruct x as [t r|p|[i|i re|]| | | | ]; try contradiction; destruct Hc; discriminate.
Qed.
Lemma lost_cause i re err : source_of (AnyRename i re err) = None /\ exists pre, message (AnyRename i re err) = pre ++ err.
Proof.
  split; [vm_compute; reflexivity|]. cbn [message display_param].
  exists (s_ "Failed to rename capturing groups in regex `" ++ re ++ s_ "` of parameter `" ++ frag i ++ s_ "`: "). now rewrite <- !app_assoc.
Qed.
Lemma implemented i : shows i = true ->
  parse_error_is i = true /\ (param_error_is i = true <-> errs i = true /\ stays i = true) /\
  (expand_error_is i = true <-> errs i = true /\ stays i = true).
Proof. destruct i as [[] [] []]; intros H; try discriminate; vm_compute; intuition congruence. Qed.
Lemma not_shown i : shows i = false -> parse_error_is i = false /\ param_error_is i = false /\ expand_error_is i = false.
Proof. destruct i as [[] [] []]; intros H; try discriminate; vm_compute; auto. Qed.
Lemma spanned_errors static : parse_error_is (spanned static) = true /\ param_error_is (spanned static) = false /\
  expand_error_is (spanned static) = false.
Proof. destruct static; vm_compute; auto. Qed.
