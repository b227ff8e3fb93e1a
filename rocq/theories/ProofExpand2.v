(** [Expression::regex]: the built-in parameters. *)
From Coq Require Import PeanoNat.
From Verif Require Export ProofParse2 ProofExpand ProofDecimal.

Section BuiltIn.
  Context {I : Type} (elements : I -> str).
  Definition name (p : parameter I) : str := elements (par_input p).
  Definition builtin_text (p : parameter I) : str :=
    if str_eqb (name p) (s_ "int") then int_regex
    else if str_eqb (name p) (s_ "float") then float_regex
    else if str_eqb (name p) (s_ "word") then word_regex
    else if str_eqb (name p) (s_ "string") then string_regex (par_id p)
    else anonymous_regex.
  Definition builtin_re (p : parameter I) : list re :=
    [if str_eqb (name p) (s_ "int") then re_int
     else if str_eqb (name p) (s_ "float") then re_float
     else if str_eqb (name p) (s_ "word") then re_word
     else if str_eqb (name p) (s_ "string") then re_string (par_id p)
     else re_anonymous].

  Lemma str_eqb_neq a b : str_eqb a b = false <-> a <> b.
  Proof. rewrite <- str_eqb_eq. now destruct (str_eqb a b). Qed.
  Lemma expand_builtin p : built_in (name p) -> expand_parameter elements p = ok (builtin_text p).
  Proof.
    unfold built_in, expand_parameter, builtin_text, chars_eq. change (elements (par_input p)) with (name p).
    cbn [In]. rewrite owned_eq. intros H.
    destruct (str_eqb (name p) (s_ "int")) eqn:E1; [reflexivity|].
    destruct (str_eqb (name p) (s_ "float")) eqn:E2; [reflexivity|].
    destruct (str_eqb (name p) (s_ "word")) eqn:E3; [reflexivity|].
    destruct (str_eqb (name p) (s_ "string")) eqn:E4; [reflexivity|].
    apply str_eqb_neq in E1, E2, E3, E4.
    destruct (str_eqb (name p) (s_ "")) eqn:E5; [reflexivity|]. apply str_eqb_neq in E5.
    exfalso. cbn in E5. intuition congruence.
  Qed.
  Lemma expand_unknown p : ~ built_in (name p) -> expand_parameter elements p = [IErr (NotFound (par_input p))].
  Proof.
    unfold built_in, expand_parameter, chars_eq. change (elements (par_input p)) with (name p).
    cbn [In]. intros H.
    destruct (str_eqb (name p) (s_ "int")) eqn:E1; [apply str_eqb_eq in E1; exfalso; intuition congruence|].
    destruct (str_eqb (name p) (s_ "float")) eqn:E2; [apply str_eqb_eq in E2; exfalso; intuition congruence|].
    destruct (str_eqb (name p) (s_ "word")) eqn:E3; [apply str_eqb_eq in E3; exfalso; intuition congruence|].
    destruct (str_eqb (name p) (s_ "string")) eqn:E4; [apply str_eqb_eq in E4; exfalso; intuition congruence|].
    destruct (str_eqb (name p) (s_ "")) eqn:E5; [apply str_eqb_eq in E5; exfalso; cbn in E5; intuition congruence|].
    reflexivity.
  Qed.
  Lemma adds_builtin p : adds (builtin_text p) (builtin_re p).
  Proof.
    unfold builtin_text, builtin_re.
    destruct (str_eqb (name p) (s_ "int")); [apply adds_one_adds, adds_int|].
    destruct (str_eqb (name p) (s_ "float")); [apply adds_one_adds, adds_float|].
    destruct (str_eqb (name p) (s_ "word")); [apply adds_one_adds, adds_word|].
    destruct (str_eqb (name p) (s_ "string")); [apply adds_one_adds, adds_string|apply adds_one_adds, adds_anonymous].
  Qed.
  Lemma rml_builtin digit space word p pre m post c : built_in (name p) ->
    rml digit space word (builtin_re p) pre m post c <-> typed digit space (name p) m c.
  Proof.
    intros H. unfold builtin_re. rewrite rml_one.
    destruct (str_eqb (name p) (s_ "int")) eqn:E1; [apply str_eqb_eq in E1; rewrite E1; apply rm_int|].
    destruct (str_eqb (name p) (s_ "float")) eqn:E2; [apply str_eqb_eq in E2; rewrite E2; apply rm_float|].
    destruct (str_eqb (name p) (s_ "word")) eqn:E3; [apply str_eqb_eq in E3; rewrite E3; apply rm_word|].
    destruct (str_eqb (name p) (s_ "string")) eqn:E4; [apply str_eqb_eq in E4; rewrite E4; apply rm_string|].
    apply str_eqb_neq in E1, E2, E3, E4.
    assert (E : name p = []) by (unfold built_in in H; cbn [In] in H; intuition congruence).
    rewrite E. apply rm_anonymous.
  Qed.
  Definition builtin_groups (p : parameter I) : list (option str) :=
    if str_eqb (name p) (s_ "string") then [Some (group_name (par_id p) 0); Some (group_name (par_id p) 1)] else [None].
  Lemma groups_builtin p : flat_map groups (builtin_re p) = builtin_groups p.
  Proof.
    unfold builtin_re, builtin_groups.
    destruct (str_eqb (name p) (s_ "string")) eqn:E4.
    - apply str_eqb_eq in E4. rewrite E4. reflexivity.
    - destruct (str_eqb (name p) (s_ "int")); [reflexivity|].
      destruct (str_eqb (name p) (s_ "float")); [reflexivity|].
      destruct (str_eqb (name p) (s_ "word")); reflexivity.
  Qed.
  Lemma groups_builtin_spec p : parameter_groups elements p (flat_map groups (builtin_re p)).
  Proof.
    rewrite groups_builtin. unfold parameter_groups, builtin_groups. fold (name p).
    destruct (list_eq_dec N.eq_dec (name p) (s_ "string")) as [E|E].
    - rewrite E. exists (group_name (par_id p) 0), (group_name (par_id p) 1). repeat split; apply group_name_named.
    - now rewrite (proj2 (str_eqb_neq _ _) E).
  Qed.

  Definition all_built_in (e : expression I) : Prop := Forall (fun p => built_in (elements (par_input p))) (parameters e).
  Definition builtin_regex (e : expression I) : str := text_by elements builtin_text e.
  Definition re_of (e : expression I) : re := re_by elements builtin_re e.
  Lemma collect_builtin e : all_built_in e -> collect_result (expand_expression elements e) = inl (builtin_regex e).
  Proof.
    intros H. change (expand_expression elements e) with (ok (s_ "^") ++ flat_map (expand_single elements) e ++ ok (s_ "$")).
    replace (flat_map (expand_single elements) e) with (flat_map (single_by elements (expand_parameter elements)) e)
      by (apply flat_map_ext_in; intros [] _; reflexivity).
    apply collect_known. intros p Hp. apply expand_builtin. unfold all_built_in in H. rewrite Forall_forall in H. now apply H.
  Qed.
  Lemma parse_builtin e : parse_syntax (builtin_regex e) = Done (re_of e).
  Proof. apply parse_text. intros p _. apply adds_builtin. Qed.
  Definition names_of (l : list (option str)) : list str := flat_map (fun n => match n with Some n => [n] | None => [] end) l.
  Lemma names_builtin e : group_names (re_of e) = flat_map (fun p => names_of (builtin_groups p)) (parameters e).
  Proof.
    unfold group_names, re_of. rewrite groups_by. induction (parameters e) as [|p l IH]; [reflexivity|].
    cbn [flat_map]. rewrite flat_map_app, IH. f_equal. rewrite groups_builtin. reflexivity.
  Qed.
  Lemma names_in p n : In n (names_of (builtin_groups p)) -> exists k, n = group_name (par_id p) k.
  Proof. unfold builtin_groups. destruct (str_eqb _ _); cbn; [|easy]. intros [<-|[<-|[]]]; [now exists 0|now exists 1]. Qed.
  Lemma names_nodup p : NoDup (names_of (builtin_groups p)).
  Proof.
    unfold builtin_groups. destruct (str_eqb _ _); cbn; repeat constructor; cbn; try easy.
    intros [H|[]]. apply (group_name_inj (par_id p) (par_id p) 1 0) in H as [_ H]. easy.
  Qed.
  Lemma NoDup_app {A} (a b : list A) : NoDup a -> NoDup b -> (forall x, In x a -> ~ In x b) -> NoDup (a ++ b).
  Proof.
    induction 1 as [|x a Hx Ha IH]; intros Hb H; cbn; [exact Hb|]. constructor.
    - rewrite in_app_iff. intros [Hi|Hi]; [contradiction|]. apply (H x); [now left|exact Hi].
    - apply IH; [exact Hb|]. intros y Hy. apply H. now right.
  Qed.
  Lemma nodup_names (l : list (parameter I)) : NoDup (map par_id l) -> NoDup (flat_map (fun p => names_of (builtin_groups p)) l).
  Proof.
    induction l as [|p l IH]; cbn [map flat_map]; intros H; [constructor|]. inversion_clear H.
    apply NoDup_app; [apply names_nodup|now apply IH|].
    intros n (k & ->)%names_in (q & Hq & (j & Hj)%names_in)%in_flat_map. apply group_name_inj in Hj as [Hj _].
    apply H0. rewrite Hj. now apply in_map.
  Qed.
  Lemma ids_parameters (e : expression I) : ids e = map par_id (parameters e).
  Proof. unfold ids, parameters. induction e as [|[] e IH]; cbn; try apply IH; reflexivity || now f_equal. Qed.
  Lemma regex_new_builtin e : NoDup (ids e) -> regex_new (builtin_regex e) = Done (re_of e).
  Proof.
    intros H. unfold regex_new. rewrite parse_builtin. cbn [obind].
    replace (distinct (group_names (re_of e))) with true; [reflexivity|]. symmetry. apply distinct_iff.
    rewrite names_builtin. apply nodup_names. now rewrite <- ids_parameters.
  Qed.
  Lemma rm_builtin digit space word e pre m post c : all_built_in e ->
    Regex.rm digit space word (re_of e) pre m post c <->
    pre = [] /\ post = [] /\ means elements (fun p => typed digit space (elements (par_input p))) e m c.
  Proof.
    intros H. unfold re_of.
    rewrite (rm_by elements builtin_re digit space word (fun p _ s _ v => typed digit space (name p) s v)).
    - rewrite (means_in_iff elements (fun p => typed digit space (name p))). reflexivity.
    - intros p Hp pre' m' post' c'. apply rml_builtin. unfold all_built_in in H. rewrite Forall_forall in H. now apply H.
  Qed.
  (** The first unknown parameter. *)
  Lemma unknown_error e1 p e2 : all_built_in e1 -> ~ built_in (elements (par_input p)) ->
    collect_result (expand_expression elements (e1 ++ ExParameter p :: e2)) = inr (NotFound (par_input p)).
  Proof.
    intros H Hp. unfold expand_expression.
    replace (flat_map (expand_single elements) (e1 ++ ExParameter p :: e2))
      with (flat_map (single_by elements (expand_parameter elements)) (e1 ++ ExParameter p :: e2))
      by (apply flat_map_ext_in; intros [] _; reflexivity).
    apply (collect_error elements (expand_parameter elements) builtin_text).
    - intros q Hq. apply expand_builtin. unfold all_built_in in H. rewrite Forall_forall in H. now apply H.
    - now apply expand_unknown.
  Qed.
  Lemma built_in_dec n : {built_in n} + {~ built_in n}.
  Proof. apply in_dec, list_eq_dec, N.eq_dec. Qed.
  Lemma all_or_first e : all_built_in e \/ exists e1 p e2, e = e1 ++ ExParameter p :: e2 /\ all_built_in e1 /\
    ~ built_in (elements (par_input p)).
  Proof.
    induction e as [|x e IH]; [left; constructor|].
    assert (Hx : (exists p, x = ExParameter p /\ ~ built_in (elements (par_input p))) \/ all_built_in [x]).
    { destruct x; try (right; solve [constructor]). destruct (built_in_dec (elements (par_input p))).
      - right. constructor; [assumption|constructor].
      - left. eauto. }
    destruct Hx as [(p & -> & Hp)|Hx].
    - right. exists [], p, e. repeat split; [constructor|exact Hp].
    - destruct IH as [IH|(e1 & p & e2 & -> & H1 & H2)].
      + left. unfold all_built_in in *. change (x :: e) with ([x] ++ e). rewrite parameters_app. apply Forall_app. auto.
      + right. exists (x :: e1), p, e2. repeat split; [|exact H2].
        unfold all_built_in in *. change (x :: e1) with ([x] ++ e1). rewrite parameters_app. apply Forall_app. auto.
  Qed.
End BuiltIn.

(** ** [Expression::regex] *)
Lemma count_from_lower n k x : In x (count_from n k) -> n <= x.
Proof. revert n; induction k as [|k IH]; intros n; cbn; [easy|]. intros [->|H]; [lia|]. apply IH in H. lia. Qed.
Lemma count_from_nodup n k : NoDup (count_from n k).
Proof.
  revert n; induction k as [|k IH]; intros n; cbn; constructor; [|apply IH].
  intros H%count_from_lower. lia.
Qed.
Lemma parsed_ids s e : addressable s -> expression_parse s = RetOk e -> NoDup (ids e).
Proof. intros Hs H. rewrite (ids_count s e Hs H). apply count_from_nodup. Qed.

Lemma regex_ok s e : addressable s -> expression_parse s = RetOk e -> all_built_in frag e ->
  expression_regex s = XOk (builtin_regex frag e) (re_of frag e).
Proof.
  intros Hs H He. unfold expression_regex, regex_by. rewrite H.
  change iter_elements with frag. rewrite collect_builtin by assumption.
  now rewrite regex_new_builtin by (eapply parsed_ids; eassumption).
Qed.
Lemma regex_unknown s e1 p e2 : expression_parse s = RetOk (e1 ++ ExParameter p :: e2) ->
  all_built_in frag e1 -> ~ built_in (frag (par_input p)) ->
  expression_regex s = XExpansion (NotFound (par_input p)).
Proof.
  intros H He Hp. unfold expression_regex, regex_by. rewrite H. change iter_elements with frag.
  now rewrite unknown_error.
Qed.
Lemma regex_total s : addressable s ->
  (exists e, expression_parse s = RetErr e /\ expression_regex s = XParsing e) \/
  (exists e, expression_parse s = RetOk e /\ all_built_in frag e /\
     expression_regex s = XOk (builtin_regex frag e) (re_of frag e)) \/
  (exists e1 p e2, expression_parse s = RetOk (e1 ++ ExParameter p :: e2) /\ all_built_in frag e1 /\
     ~ built_in (frag (par_input p)) /\ expression_regex s = XExpansion (NotFound (par_input p))).
Proof.
  intros Hs. destruct (parse_total s Hs) as [[e H]|[e H]].
  - right. destruct (all_or_first frag e) as [He|(e1 & p & e2 & -> & H1 & H2)].
    + left. exists e. repeat split; try assumption. now apply regex_ok.
    + right. exists e1, p, e2. repeat split; try assumption. now apply regex_unknown with e1 e2.
  - left. exists e. split; [exact H|]. unfold expression_regex, regex_by. now rewrite H.
Qed.
Lemma regex_inv s e t r : addressable s -> expression_parse s = RetOk e -> expression_regex s = XOk t r ->
  all_built_in frag e /\ t = builtin_regex frag e /\ r = re_of frag e.
Proof.
  intros Hs H Hr. destruct (regex_total s Hs) as [(x & E & _)|[(x & E & Hx & E2)|(e1 & p & e2 & _ & _ & _ & E2)]]; try congruence.
  assert (x = e) as -> by congruence. rewrite E2 in Hr. injection Hr as <- <-. auto.
Qed.
