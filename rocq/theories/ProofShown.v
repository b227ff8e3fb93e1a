(** The printed tree of a parsed expression shows it. *)
From Verif Require Import SpecShown ProofParse ProofExpand3.

Lemma fragment_span i : shows_fragment (frag i) (debug_span i).
Proof. constructor. Qed.
Lemma optional_prints o : shows_optional (debug_optional debug_span o) (s_ "(" ++ frag (opt_input o) ++ s_ ")").
Proof. constructor. apply fragment_span. Qed.
Lemma alternative_prints a : wf_alternative (map_alternative frag a) -> shows_alternative (debug_alternative debug_span a) (src_alternative (map_alternative frag a)).
Proof.
  destruct a as [o|i]; intros W; cbn.
  - apply alternative_shown, optional_prints.
  - apply text_shown; [apply fragment_span|apply W].
Qed.
Lemma branch_prints b : Forall wf_alternative (map (map_alternative frag) b) ->
  shows_branch (DList (map (debug_alternative debug_span) b)) (src_branch (map (map_alternative frag) b)).
Proof.
  intros W. constructor. induction b as [|a b IH]; cbn [map] in *; [constructor|]. inversion_clear W.
  constructor; [now apply alternative_prints|auto].
Qed.
Lemma single_prints n x : wf_single (map_single frag x) -> match x with ExParameter p => par_id p = n | _ => True end ->
  shows_single n (debug_single_expression debug_span x) (src_single (map_single frag x)) (match x with ExParameter p => n + 1 | _ => n end).
Proof.
  destruct x as [a|o|p|i|i]; cbn [map_single wf_single debug_single_expression src_single].
  - intros [_ W] _. constructor. induction a as [|b a IH]; cbn [map_alternation map] in *; [constructor|]. inversion_clear W.
    constructor; [apply branch_prints; apply H|auto].
  - intros _ _. constructor. apply optional_prints.
  - intros _ <-. constructor. apply fragment_span.
  - intros [_ W] _. constructor; [apply fragment_span|exact W].
  - intros [_ W] _. constructor; [apply fragment_span|exact W].
Qed.
Lemma nodes_print : forall e n, Forall wf_single (map_expression frag e) -> ids e = count_from n (List.length (ids e)) ->
  shows_all n (map (debug_single_expression debug_span) e) (source (map_expression frag e)).
Proof.
  induction e as [|x e IH]; intros n W E; cbn [map map_expression]; [constructor|]. inversion_clear W.
  unfold source. cbn [map List.concat]. destruct x as [a|o|p|i|i]; cbn in E.
  1, 2, 4, 5: eapply shows_more; [now apply single_prints|]; now apply IH.
  injection E as E1 E. eapply shows_more; [now apply single_prints|]. now apply IH.
Qed.
Lemma ids_frag (e : expression span) : ids (map_expression frag e) = ids e.
Proof.
  induction e as [|x e IH]; [reflexivity|]. unfold ids in *. cbn [map_expression map flat_map]. f_equal; [|exact IH]. now destruct x.
Qed.
Lemma parsed_shows s e : addressable s -> expression_parse s = RetOk e -> shows (debug_expression debug_span e) s.
Proof.
  intros A P. destruct (parsed_wf s e A P) as ((W & _ & N) & S). rewrite <- S. constructor.
  apply nodes_print; [exact W|]. now rewrite <- ids_frag.
Qed.
