(** Expressions that differ in spelling only, with custom parameters. *)
From Verif Require Export ProofSame ProofParams2.

(** Outcomes without locations. *)
Definition forget_item (x : item span) : item str :=
  match x with
  | IOk c => IOk c
  | IErr (NotFound i) => IErr (NotFound (frag i))
  | IErr (RenameRegexGroup i t) => IErr (RenameRegexGroup (frag i) t)
  | IErr Unmodelled => IErr Unmodelled
  end.
Section Custom.
  Context (digits spaces words : ranges) (to_string : hir -> str) (get : provider span).
  Hypothesis Hget : blind get.
  Notation expand := (expand_custom frag digits spaces words to_string get).
  Definition get_text (n : str) : option str := get (mkspan 0 1 n).
  Definition expand_name (n : str) (k : N) : list (item str) :=
    expand_custom (fun t => t) digits spaces words to_string get_text (mkParameter n k).
  Fixpoint parts_items (k : N) (l : list part) : list (item str) :=
    match l with
    | [] => []
    | Piece x :: l' => ok (piece_text x) ++ parts_items k l'
    | OneOf a :: l' =>
        ok (s_ "(?:" ++ removelast (flat_map (fun b => flat_map piece_text b ++ s_ "|") a) ++ s_ ")") ++ parts_items k l'
    | Param n :: l' => expand_name n k ++ parts_items (k + 1) l'
    end.
  Lemma forget_ok t : map forget_item (ok t) = ok t.
  Proof. unfold ok. now rewrite map_map. Qed.
  Lemma forget_parameter p : map forget_item (expand p) = expand_name (frag (par_input p)) (par_id p).
  Proof.
    unfold expand_name, expand_custom. cbn [par_input par_id]. unfold get_text.
    rewrite (Hget (par_input p) (mkspan 0 1 (frag (par_input p))) eq_refl).
    destruct (get (mkspan 0 1 (frag (par_input p)))) as [v|].
    - destruct (contains v (c_ "(")); [|apply forget_ok]. destruct (regex_new v); [|reflexivity|reflexivity].
      destruct (has_capture_groups _); apply forget_ok.
    - unfold expand_parameter. cbn [par_input par_id]. repeat (destruct (chars_eq _ _); [apply forget_ok|]). reflexivity.
  Qed.
  Lemma text_items k t l : parts_items k (map (fun c => Piece (Char c)) t ++ l) = ok (flat_map quote t) ++ parts_items k l.
  Proof.
    induction t as [|c t IH]; [reflexivity|]. cbn [map app parts_items flat_map piece_text]. rewrite IH, ok_app, app_assoc. reflexivity.
  Qed.
  Lemma forget_expression e : forall k, ids e = count_from k (List.length (ids e)) ->
    map forget_item (flat_map (expand_single_custom frag digits spaces words to_string get) e) = parts_items k (unspelled (map_expression frag e)).
  Proof.
    unfold unspelled. induction e as [|x e IH]; intros k H; [reflexivity|].
    cbn [flat_map map_expression map]. rewrite map_app. change (map (map_single frag) e) with (map_expression frag e).
    destruct x as [a|o|p|t|w]; cbn [expand_single_custom expand_single map_single parts];
      try (change (ids (_ :: e)) with (ids e) in H).
    - cbn [app parts_items]. rewrite <- (IH k) by assumption. f_equal. rewrite expand_alternation_ok, forget_ok. f_equal.
      unfold alternation_text, map_alternation. rewrite map_map, flat_map_map. do 3 f_equal. apply flat_map_ext_in. intros b _. now rewrite branch_parts.
    - cbn [app parts_items]. rewrite <- (IH k) by assumption. f_equal. unfold expand_optional. rewrite forget_ok. cbn [piece_text].
      now rewrite escape_for_regex_eq.
    - change (ids (ExParameter p :: e)) with (par_id p :: ids e) in H. cbn [List.length count_from] in H.
      injection H as H1 H2. cbn [app parts_items]. rewrite <- (IH (k + 1)) by assumption. f_equal.
      rewrite forget_parameter. cbn [map_parameter par_input]. now rewrite H1.
    - rewrite text_items, <- (IH k) by assumption. f_equal. rewrite forget_ok. now rewrite escape_for_regex_eq.
    - rewrite text_items, <- (IH k) by assumption. f_equal. rewrite forget_ok. now rewrite escape_for_regex_eq.
  Qed.
  Definition forget_error (e : param_error span) : param_error str :=
    match e with NotFound i => NotFound (frag i) | RenameRegexGroup i t => RenameRegexGroup (frag i) t | Unmodelled => Unmodelled end.
  Lemma collect_forget l : collect_result (map forget_item l) =
    match collect_result l with inl t => inl t | inr e => inr (forget_error e) end.
  Proof.
    induction l as [|[c|e] l IH]; [reflexivity|..]; cbn [map forget_item collect_result].
    - rewrite IH. now destruct (collect_result l).
    - now destruct e.
  Qed.
  Lemma same_outcome s1 s2 e1 e2 : addressable s1 -> addressable s2 ->
    expression_parse s1 = RetOk e1 -> expression_parse s2 = RetOk e2 ->
    unspelled (map_expression frag e1) = unspelled (map_expression frag e2) ->
    let x1 := regex_with_parameters digits spaces words to_string get s1 in
    let x2 := regex_with_parameters digits spaces words to_string get s2 in
    match x1 with
    | XExpansion (NotFound i) => exists j, x2 = XExpansion (NotFound j) /\ frag j = frag i
    | XExpansion (RenameRegexGroup i t) => exists j, x2 = XExpansion (RenameRegexGroup j t) /\ frag j = frag i
    | _ => x2 = x1
    end.
  Proof.
    intros A1 A2 P1 P2 U x1 x2. subst x1 x2. unfold regex_with_parameters, regex_by. rewrite P1, P2.
    assert (C : forall s e, addressable s -> expression_parse s = RetOk e ->
      map forget_item (expand_expression_custom frag digits spaces words to_string get e)
      = ok (s_ "^") ++ parts_items 0 (unspelled (map_expression frag e)) ++ ok (s_ "$")).
    { intros s e A P. unfold expand_expression_custom. rewrite !map_app, !forget_ok.
      now rewrite (forget_expression e 0) by exact (ids_count _ _ A P). }
    pose proof (C _ _ A1 P1) as C1. pose proof (C _ _ A2 P2) as C2. rewrite U, <- C2 in C1. clear C C2.
    change iter_elements with frag.
    apply (f_equal collect_result) in C1. rewrite !collect_forget in C1.
    destruct (collect_result (expand_expression_custom frag digits spaces words to_string get e1)) as [t1|er1];
      destruct (collect_result (expand_expression_custom frag digits spaces words to_string get e2)) as [t2|er2]; try discriminate.
    - injection C1 as ->. now destruct (regex_new t2).
    - injection C1 as C1. destruct er1 as [i|i t|], er2 as [j|j t'|]; try discriminate; cbn in C1.
      + injection C1 as C1. eauto.
      + injection C1 as C1 ->. eauto.
      + reflexivity.
  Qed.
End Custom.
