(** Searches through the [Hir]. *)
From Verif Require Export Compiled ProofMatch4 ProofParams ProofOrder3.

Section Search.
  Context (digits spaces words : ranges) (Htab : tables_ok digits spaces words).
  Notation is_match := (Regex.is_match (in_ranges digits) (in_ranges spaces) (in_ranges words)).
  Lemma equiv_is_match a b s : equiv digits spaces words a b -> Forall scalar s -> is_match a s <-> is_match b s.
  Proof.
    intros [_ H] Hs. unfold Regex.is_match. split; intros (p & m & q & c & -> & Hr); exists p, m, q, c; (split; [reflexivity|]);
      apply Forall_app in Hs as [_ Hs]; apply Forall_app in Hs as [Hs _]; now apply H.
  Qed.
  Lemma compiled_equiv t r : regex_new t = Done r -> tame digits spaces words r -> equiv digits spaces words (compiled digits spaces words r) r.
  Proof.
    intros [H _]%regex_new_inv Ht. apply (translate_spec digits spaces words Htab r); [eapply parsed_ok, H|exact Ht].
  Qed.
  Lemma compiled_matches t r s : regex_new t = Done r -> tame digits spaces words r -> Forall scalar s ->
    hir_matches digits spaces words r s = matches (in_ranges digits) (in_ranges spaces) (in_ranges words) r s.
  Proof.
    intros H Ht Hs. unfold hir_matches.
    assert (E : forall a b : bool, (a = true <-> b = true) -> a = b) by (intros [] []; intuition congruence).
    apply E. rewrite !matches_iff. apply equiv_is_match; [|exact Hs]. eapply compiled_equiv; eassumption.
  Qed.

  (** ** Built-in parameters *)
  Lemma flat_mk_cat l : Forall flat l -> flat (mk_cat l).
  Proof. induction 1 as [|r l Hr Hl IH]; [exact I|]. destruct l; [exact Hr|]. now split. Qed.
  Lemma flat_lits t : Forall flat (map RLit t).
  Proof. apply Forall_map, Forall_forall. easy. Qed.
  Lemma free_flat r : groups r = [] -> flat r.
  Proof.
    induction r as [|c| |k|l|min max g r IH|n r IH|a IHa b IHb|a IHa b IHb]; cbn; intros H; try exact I; try exact H; try discriminate H;
      apply app_eq_nil in H as [H1 H2]; auto.
  Qed.
  Context {J : Type} (text : J -> str).
  Lemma flat_builtin p : Forall flat (builtin_re text p).
  Proof.
    constructor; [|constructor]. destruct (str_eqb _ _); [cbn; tauto|]. destruct (str_eqb _ _); [cbn; tauto|].
    destruct (str_eqb _ _); [cbn; tauto|]. destruct (str_eqb _ _); [|cbn; tauto]. cbn. tauto.
  Qed.
  Lemma flat_re_of e : flat (re_of text e).
  Proof.
    apply (flat_mk_cat (RLook LStart :: flat_map (re_single text (builtin_re text)) e ++ [RLook LEnd])).
    constructor; [exact I|]. apply Forall_app. split; [|repeat constructor].
    apply Forall_forall. intros r (x & Hx & Hr)%in_flat_map. revert r Hr. apply Forall_forall. destruct x as [a|o|p|t|t]; cbn [re_single].
    - constructor; [|constructor]. apply free_flat, groups_alternation.
    - constructor; [|constructor]. apply free_flat, groups_optional.
    - apply flat_builtin.
    - apply flat_lits.
    - apply flat_lits.
  Qed.
End Search.

Section Expression.
  Context (s : str) (e : expression span) (t : str) (r : re).
  Context (Hs : addressable s) (He : expression_parse s = RetOk e) (Hr : expression_regex s = XOk t r).
  Context (digits spaces words : ranges) (Htab : tables_ok digits spaces words).
  Notation param := (fun p => typed (in_ranges digits) (in_ranges spaces) (frag (@par_input span p))).
  Notation captures := (captures (in_ranges digits) (in_ranges spaces) (in_ranges words)).
  Lemma expression_tame : tame digits spaces words r.
  Proof. destruct (regex_inv s e t r Hs He Hr) as (_ & _ & ->). apply flat_tame, flat_re_of. Qed.
  Lemma expression_re_ok : re_ok r.
  Proof. destruct (regex_inv s e t r Hs He Hr) as (_ & _ & ->). eapply parsed_ok, (parse_builtin frag e). Qed.
  Lemma expression_compiled : equiv digits spaces words (compiled digits spaces words r) r.
  Proof. apply (translate_spec digits spaces words Htab r); [apply expression_re_ok|apply expression_tame]. Qed.
  Lemma hir_reading subject : Forall scalar subject ->
    (hir_captures digits spaces words r subject = None <-> ~ exists v, means frag param e subject v) /\
    forall c, hir_captures digits spaces words r subject = Some c -> exists v, c = Some subject :: v /\ means frag param e subject v.
  Proof.
    intros Hsub. destruct expression_compiled as [_ Heq]. destruct (regex_inv s e t r Hs He Hr) as (Hb & _ & E).
    unfold hir_captures, Match.captures. destruct (search _ _ _ (compiled digits spaces words r) [] subject) as [[p w]|] eqn:F; cbn [option_map].
    - apply search_some in F as (q & -> & -> & Hw & _). cbn [app] in Hw. apply Forall_app in Hsub as [Hq Hsub]. apply Forall_app in Hsub as [Hm _].
      apply Heq in Hw; [|exact Hm]. rewrite E in Hw. apply rm_builtin in Hw as (-> & Hq' & Hw); [|exact Hb].
      rewrite Hq'. cbn [app]. rewrite app_nil_r. split.
      + split; [discriminate|]. intros Hn. exfalso. eauto.
      + intros c Hc. injection Hc as <-. eauto.
    - split; [|discriminate]. split; [|reflexivity]. intros _ [v Hv].
      eapply (search_none _ _ _ _ _ _ F [] subject [] v); [now rewrite app_nil_r|]. apply Heq; [exact Hsub|]. rewrite E. apply rm_builtin; auto.
  Qed.
  Lemma hir_lucid : lucid frag (in_ranges digits) (in_ranges spaces) e -> forall subject, Forall scalar subject ->
    hir_captures digits spaces words r subject = captures r subject.
  Proof.
    intros Hl subject Hsub. destruct (hir_reading subject Hsub) as [H1 H2].
    destruct (captures_reading s e t r Hs He Hr (in_ranges digits) (in_ranges spaces) (in_ranges words) subject) as [H3 H4].
    destruct (hir_captures digits spaces words r subject) as [c|].
    - destruct (H2 c eq_refl) as (v & -> & Hv). symmetry. now apply (captures_lucid s e t r Hs He Hr _ _ (in_ranges words) Hl).
    - symmetry. apply H3, H1. reflexivity.
  Qed.
  Lemma hir_same : unshared (map_expression frag e) -> forall subject, Forall scalar subject ->
    hir_captures digits spaces words r subject = captures r subject.
  Proof.
    intros Hu subject Hsub. apply captures_alike; [|exact Hsub]. apply o_translate; [exact Htab|apply expression_re_ok|apply expression_tame|].
    destruct (regex_inv s e t r Hs He Hr) as (_ & _ & ->). now apply calm_expression.
  Qed.
  Lemma hir_best : unshared (map_expression frag e) -> plain_digits (in_ranges digits) -> forall subject c, Forall scalar subject ->
    hir_captures digits spaces words r subject = Some c <->
    exists l, best frag param e subject l /\ c = Some subject :: List.concat (map snd l).
  Proof. intros Hu Hd subject c Hsub. rewrite hir_same by assumption. exact (regex_takes_best s e t r Hs He Hr _ _ _ Hd subject c). Qed.
End Expression.
