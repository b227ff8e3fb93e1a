(** Custom parameters, continued: matchers without parentheses, anchoring, [Display], counterexamples. *)
From Coq Require Import PeanoNat.
From Verif Require Export ProofParams.
From Verif Require Import CharLevel.

Section Whole.
  Context (digits spaces words : ranges) (to_string : hir -> str) (get : provider span).
  Notation whole := (regex_with_parameters digits spaces words to_string get).
  Notation rm := (Regex.rm (in_ranges digits) (in_ranges spaces) (in_ranges words)).
  Notation type := (custom_type digits spaces words frag get).

  (** ** Only the parameters in use matter *)
  Lemma whole_local to_string' get' s : (forall e p, expression_parse s = RetOk e -> In p (parameters e) ->
      get (par_input p) = get' (par_input p) /\ (forall v, get (par_input p) = Some v -> to_string = to_string')) ->
    whole s = regex_with_parameters digits spaces words to_string' get' s.
  Proof.
    intros H. unfold regex_with_parameters, regex_by. destruct (expression_parse s) as [e| | |]; try reflexivity.
    replace (expand_expression_custom iter_elements digits spaces words to_string' get' e)
      with (expand_expression_custom iter_elements digits spaces words to_string get e); [reflexivity|].
    unfold expand_expression_custom. do 2 f_equal. apply flat_map_ext_in. intros [a|o|p|t|t] Hx; try reflexivity. cbn [expand_single_custom].
    destruct (H e p eq_refl (in_parameters e p Hx)) as [E1 E2]. unfold expand_custom. rewrite <- E1.
    destruct (get (par_input p)) as [v|]; [|reflexivity]. now rewrite (E2 v eq_refl).
  Qed.
  Lemma whole_none s : (forall e p, expression_parse s = RetOk e -> In p (parameters e) -> get (par_input p) = None) ->
    whole s = expression_regex s.
  Proof.
    intros H. unfold regex_with_parameters, expression_regex, regex_by. destruct (expression_parse s) as [e| | |]; try reflexivity.
    replace (expand_expression_custom iter_elements digits spaces words to_string get e) with (expand_expression iter_elements e); [reflexivity|].
    unfold expand_expression, expand_expression_custom. do 2 f_equal. apply flat_map_ext_in. intros [a|o|p|t|t] Hx; try reflexivity.
    cbn [expand_single_custom expand_single]. unfold expand_custom. now rewrite (H e p eq_refl (in_parameters e p Hx)).
  Qed.

  (** ** Matchers without parentheses *)
  Lemma whole_plain s e : addressable s -> expression_parse s = RetOk e ->
    Forall (fun p => custom_valid frag get (fun _ => True) p /\ plain get p) (parameters e) ->
    exists t r l, whole s = XOk t r /\
      Forall2 (fun p l => match get (par_input p) with None => parameter_groups frag p l | Some _ => l = [None] end) (parameters e) l /\
      groups r = List.concat l /\
      forall pre m post c, rm r pre m post c <-> pre = [] /\ post = [] /\ means_in frag type e [] m [] c.
  Proof.
    intros Hs H Hp. rewrite Forall_forall in Hp.
    set (rf := custom_re frag digits spaces words to_string get).
    assert (Hg : forall p, In p (parameters e) -> flat_map groups (rf p) = match get (par_input p) with None => builtin_groups frag p | Some _ => [None] end)
      by (intros p Hi; destruct (Hp p Hi); now apply plain_groups).
    assert (Hn : NoDup (names_of (groups (re_by frag rf e)))).
    { rewrite groups_by. apply nodup_by.
      - intros p Hi. rewrite (Hg p Hi). destruct (get (par_input p)); [split; [constructor|easy]|]. split; [apply names_nodup|apply names_in].
      - rewrite <- ids_parameters. eapply parsed_ids; eassumption. }
    exists (text_by frag (custom_text frag digits spaces words to_string get) e), (re_by frag rf e), (group_list digits spaces words to_string get e).
    split.
    { destruct (whole_read digits spaces words to_string get s e H) as [[E _]|[_ E]]; [| |exact E|contradiction].
      - apply Forall_forall. intros p Hi. destruct (Hp p Hi). eapply custom_valid_checked. eassumption.
      - intros p Hi. destruct (Hp p Hi). now apply plain_adds. }
    split.
    { unfold group_list. fold rf. clear - Hg Hp. induction (parameters e) as [|p l IH]; cbn [map]; [constructor|]. constructor.
      - rewrite (Hg p (or_introl eq_refl)). destruct (get (par_input p)); [reflexivity|].
        rewrite <- (groups_builtin frag p). apply groups_builtin_spec.
      - apply IH; intros q Hq; [apply Hp|apply Hg]; now right. }
    split; [apply groups_whole|]. intros pre m post c.
    apply (rm_by frag rf (in_ranges digits) (in_ranges spaces) (in_ranges words) type).
    intros p Hi pre' m' post' c'. destruct (Hp p Hi). now apply plain_means.
  Qed.

  (** ** Anchoring, with any valid matchers *)
  Definition anchor_re (p : parameter span) : list re :=
    match get (par_input p) with
    | None => builtin_re frag p
    | Some v =>
        match regex_new v with
        | Done r =>
            if contains v (c_ "(") && has_capture_groups (translate digits spaces words r)
            then match parse_syntax (printed digits spaces words to_string r (par_id p)) with Done r' => [r'] | _ => [] end
            else [RCap None r]
        | _ => []
        end
    end.
  Definition printed_regex (p : parameter span) : Prop := forall v r, get (par_input p) = Some v -> regex_new v = Done r ->
    exists r', parse_syntax (to_string (rename_capture_groups (translate digits spaces words r) (par_id p))) = Done r'.
  Lemma anchor_adds p : custom_valid frag get (fun _ => True) p -> printed_regex p -> adds (custom_text frag digits spaces words to_string get p) (anchor_re p).
  Proof.
    unfold custom_valid, printed_regex, custom_text, anchor_re, matcher_text. destruct (get (par_input p)) as [v|]; [|intros _ _; apply adds_builtin].
    intros (r & Hv & _) Hp. destruct (Hp v r eq_refl Hv) as (r' & Hr'). rewrite Hv. destruct (_ && _).
    - unfold printed. rewrite Hr'. apply adds_one_adds, parse_group, Hr'.
    - apply adds_one_adds, parse_capture. now apply regex_new_inv in Hv.
  Qed.
  Lemma whole_anchored s e t r : expression_parse s = RetOk e ->
    Forall (fun p => custom_valid frag get (fun _ => True) p /\ printed_regex p) (parameters e) ->
    whole s = XOk t r -> forall pre m post c, rm r pre m post c -> pre = [] /\ post = [].
  Proof.
    intros H He Hr pre m post c Hm. rewrite Forall_forall in He.
    assert (Hc : Forall (custom_checked frag get) (parameters e)).
    { apply Forall_forall. intros p Hp. destruct (He p Hp). eapply custom_valid_checked. eassumption. }
    rewrite (whole_checked digits spaces words to_string get s e H Hc) in Hr. unfold regex_new in Hr.
    rewrite (parse_text frag _ anchor_re e) in Hr by (intros p Hp; destruct (He p Hp); now apply anchor_adds).
    cbn [obind] in Hr. destruct (distinct _); [|discriminate Hr]. injection Hr as _ <-.
    rewrite (rm_by frag anchor_re _ _ _ (fun p => ProofMeaning.rml (in_ranges digits) (in_ranges spaces) (in_ranges words) (anchor_re p))) in Hm
      by (intros p Hp pre' m' post' c'; reflexivity).
    now destruct Hm as (-> & -> & _).
  Qed.

  (** ** Invalid matchers *)
  Lemma whole_ok_checked s e t r : expression_parse s = RetOk e -> whole s = XOk t r -> Forall (custom_checked frag get) (parameters e).
  Proof.
    intros H Hr. destruct (checked_or_first frag get e) as [He|(e1 & p & e2 & er & -> & H1 & H2)]; [exact He|].
    rewrite (whole_fault digits spaces words to_string get s e1 p e2 er H H1 H2) in Hr. now destruct er.
  Qed.
  Lemma whole_rejects s e p v : expression_parse s = RetOk e -> In p (parameters e) -> get (par_input p) = Some v ->
    In (c_ "(") v -> regex_new v = Invalid -> forall t r, whole s <> XOk t r.
  Proof.
    intros H Hp Hv Hc Hi t r Hr. pose proof (whole_ok_checked s e t r H Hr) as Ha. rewrite Forall_forall in Ha. specialize (Ha p Hp).
    unfold custom_checked in Ha. rewrite Hv in Ha. destruct (Ha Hc). congruence.
  Qed.
End Whole.

(** ** [Display] *)
Lemma show_no_nested h : no_nested h = true -> show false h = show true h.
Proof.
  induction h as [|t|k|l|a b g h IH|i n h IH|l IH|l IH] using hir_ind'; try reflexivity; cbn [no_nested show].
  - intros H. destruct h; try discriminate H; rewrite IH by exact H; reflexivity.
  - intros H. now rewrite IH.
  - intros H. f_equal. f_equal. induction IH; [reflexivity|]. cbn in *. apply andb_prop in H as [H1 H2]. f_equal; auto.
  - intros H. f_equal. f_equal. induction IH; [reflexivity|]. cbn in *. apply andb_prop in H as [H1 H2]. f_equal; auto.
Qed.
Section Display.
  Context (digits spaces words : ranges) (to_string : hir -> str) (get : provider span) (Htab : tables_ok digits spaces words).
  Notation tame := (SpecParams.tame digits spaces words).
  Lemma renamed_printable p t r : get (par_input p) = Some t -> regex_new t = Done r -> custom_valid frag get tame p ->
    printable (rename_capture_groups (translate digits spaces words r) (par_id p)).
  Proof.
    unfold custom_valid. intros Hg Hr. rewrite Hg. intros (r' & Hr' & Ht). assert (r' = r) as -> by congruence.
    apply regex_new_inv in Hr as [Hr _]. destruct (translate_spec digits spaces words Htab r (parsed_ok _ _ Hr) Ht) as (H1 & H2 & H3 & H4).
    pose proof (rename_spec digits spaces words (par_id p) (translate digits spaces words r) H1 H3 0) as Hs. unfold rename_capture_groups.
    destruct (rename_groups_inner _ _ _) as [h' j]. destruct Hs as (R1 & _). now apply ok_printable.
  Qed.
  Lemma display_all p : prints_meaning to_string -> custom_valid frag get tame p -> display_ok digits spaces words to_string get p.
  Proof. intros Hp Hv t r Hg Hr. apply Hp. eapply renamed_printable; eassumption. Qed.
  Definition unnested (p : parameter span) : Prop := forall t r, get (par_input p) = Some t -> regex_new t = Done r ->
    no_nested (rename_capture_groups (translate digits spaces words r) (par_id p)) = true.
  Lemma display_show p : custom_valid frag get tame p -> unnested p -> display_ok digits spaces words (show false) get p.
  Proof.
    intros Hv Hn t r Hg Hr. unfold faithful. rewrite show_no_nested by (eapply Hn; eassumption). apply show_true_faithful. eapply renamed_printable; eassumption.
  Qed.
  Lemma flat_valid p : custom_valid frag get flat p -> custom_valid frag get tame p.
  Proof. unfold custom_valid. destruct (get _); [|trivial]. intros (r & H & Hf). exists r. split; [exact H|now apply flat_tame]. Qed.
  Notation whole := (regex_with_parameters digits spaces words to_string get).
  Notation rm := (Regex.rm (in_ranges digits) (in_ranges spaces) (in_ranges words)).
  Notation type := (custom_type digits spaces words frag get).

  Lemma whole_renamed : prints_meaning to_string -> forall s e, addressable s -> expression_parse s = RetOk e ->
    Forall (custom_valid frag get flat) (parameters e) ->
    exists t r l, whole s = XOk t r /\ Forall2 (custom_groups frag get) (parameters e) l /\ groups r = List.concat l /\ NoDup (group_names r) /\
      forall pre m post c, Forall scalar m -> rm r pre m post c <-> pre = [] /\ post = [] /\ means_in frag type e [] m [] c.
  Proof.
    intros Hp s e Hs H He. apply whole_flat; try assumption. eapply Forall_impl; [|exact He]. intros p Hv. split; [exact Hv|].
    apply display_all; [exact Hp|now apply flat_valid].
  Qed.
  Lemma whole_means : prints_meaning to_string -> forall s e, expression_parse s = RetOk e ->
    Forall (custom_valid frag get tame) (parameters e) ->
    exists l, Forall2 (custom_groups frag get) (parameters e) l /\
      (NoDup (flat_map (fun n => match n with Some n => [n] | None => [] end) (List.concat l)) /\ (exists t r, whole s = XOk t r) \/
       ~ NoDup (flat_map (fun n => match n with Some n => [n] | None => [] end) (List.concat l)) /\ whole s = XRegex) /\
      forall t r, whole s = XOk t r -> groups r = List.concat l /\
        forall pre m post c, Forall scalar m -> rm r pre m post c <-> pre = [] /\ post = [] /\ means_in frag type e [] m [] c.
  Proof.
    intros Hp s e H He. apply whole_good; try assumption. eapply Forall_impl; [|exact He]. intros p Hv. split; [exact Hv|].
    now apply display_all.
  Qed.
End Display.
Lemma whole_display digits spaces words get s e : tables_ok digits spaces words -> addressable s -> expression_parse s = RetOk e ->
  Forall (fun p => custom_valid frag get flat p /\ unnested digits spaces words get p) (parameters e) ->
  exists t r l, regex_with_parameters digits spaces words (show false) get s = XOk t r /\
    Forall2 (custom_groups frag get) (parameters e) l /\ groups r = List.concat l /\ NoDup (group_names r) /\
    forall pre m post c, Forall scalar m -> rm (in_ranges digits) (in_ranges spaces) (in_ranges words) r pre m post c <->
      pre = [] /\ post = [] /\ means_in frag (custom_type digits spaces words frag get) e [] m [] c.
Proof.
  intros Ht Hs H He. apply whole_flat; try assumption. eapply Forall_impl; [|exact He]. intros p [Hv Hn]. split; [exact Hv|].
  apply display_show; [exact Ht| |exact Hn]. now apply flat_valid.
Qed.
Lemma outer_groups_detected digits spaces words t r : tables_ok digits spaces words -> regex_new t = Done r -> tame digits spaces words r ->
  has_capture_groups (translate digits spaces words r) = has_outer r.
Proof.
  intros Htab Hv Ht. apply regex_new_inv in Hv as [Hv Hn]. destruct (translate_spec digits spaces words Htab r (parsed_ok _ _ Hv) Ht) as (H1 & H2 & H3 & H4).
  now rewrite has_capture_groups_spec, H4, <- has_outer_visible.
Qed.

(** ** Counterexamples *)
Definition one (name value : str) : provider span := hash_map_get iter_elements [(name, value)].
Lemma injection_unanchored : exists get s t r, forall digits spaces words to_string,
  regex_with_parameters digits spaces words to_string get s = XOk t r /\
  exists m post c, rm (in_ranges digits) (in_ranges spaces) (in_ranges words) r [] m post c /\ post <> [].
Proof.
  exists (one (s_ "p") (s_ "a)|b\")), (s_ "{p}"), (s_ "^(a)|b\)$"),
    (RAlt (RCat (RLook LStart) (RCap None (RLit (c_ "a")))) (RCat (RLit (c_ "b")) (RCat (RLit (c_ ")")) (RLook LEnd)))).
  intros digits spaces words to_string. split; [vm_compute; reflexivity|].
  exists (s_ "a"), (s_ "zz"), ([Some (s_ "a")] ++ []). split; [|easy]. apply rm_left. apply (rm_cat _ _ _ _ _ [] [] (s_ "a") _ []).
  - constructor.
  - constructor. constructor.
Qed.
Lemma repeated_group_missed : exists get v r0 s t r, forall digits spaces words to_string,
  get (mkspan 1 1 (s_ "p")) = Some v /\ regex_new v = Done r0 /\ groups r0 = [None] /\
  s = s_ "{p}" /\ regex_with_parameters digits spaces words to_string get s = XOk t r /\ groups r = [None; None].
Proof.
  exists (one (s_ "p") (s_ "(a)*")), (s_ "(a)*"), (RRep 0 None true (RCap None (RLit (c_ "a")))), (s_ "{p}"), (s_ "^((a)*)$"),
    (RCat (RLook LStart) (RCat (RCap None (RRep 0 None true (RCap None (RLit (c_ "a"))))) (RLook LEnd))).
  intros. repeat (split; [vm_compute; reflexivity|]). vm_compute. reflexivity.
Qed.
Lemma repeated_name_twice : exists get v r0, forall digits spaces words to_string,
  (forall i, frag i = s_ "p" -> get i = Some v) /\ regex_new v = Done r0 /\ groups r0 = [Some (s_ "n")] /\
  (exists t r, regex_with_parameters digits spaces words to_string get (s_ "{p}") = XOk t r) /\
  regex_with_parameters digits spaces words to_string get (s_ "{p} {p}") = XRegex.
Proof.
  exists (one (s_ "p") (s_ "(?P<n>a)*")), (s_ "(?P<n>a)*"), (RRep 0 None true (RCap (Some (s_ "n")) (RLit (c_ "a")))).
  intros. split; [intros i Hi; unfold one, hash_map_get, iter_elements; rewrite Hi; reflexivity|].
  split; [vm_compute; reflexivity|]. split; [reflexivity|]. split; [|vm_compute; reflexivity].
  eexists _, _. vm_compute. reflexivity.
Qed.
Lemma invalid_accepted : exists get v s t r, forall digits spaces words to_string,
  get (mkspan 1 1 (s_ "p")) = Some v /\ regex_new v = Invalid /\ s = s_ "{p}" /\
  regex_with_parameters digits spaces words to_string get s = XOk t r.
Proof.
  eexists (one (s_ "p") (s_ "a)|b\")), (s_ "a)|b\"), (s_ "{p}"), _, _. intros.
  repeat (split; [vm_compute; reflexivity|]). vm_compute. reflexivity.
Qed.
Lemma display_lost : exists get s e t r, forall digits spaces words,
  expression_parse s = RetOk e /\ Forall (custom_valid frag get flat) (parameters e) /\
  regex_with_parameters digits spaces words (show false) get s = XOk t r /\
  means_in frag (custom_type digits spaces words frag get) e [] (s_ "x") [] [Some (s_ "x")] /\
  ~ is_match (in_ranges digits) (in_ranges spaces) (in_ranges words) r (s_ "x").
Proof.
  pose (r0 := RCat (RCap None (RLit (c_ "x"))) (RRep 0 (Some 1) true (RRep 1 None true (RLit (c_ "a"))))).
  assert (E : regex_new (s_ "(x)(?:a+)?") = Done r0) by (vm_compute; reflexivity).
  exists (one (s_ "p") (s_ "(x)(?:a+)?")), (s_ "{p}"), [ExParameter (mkParameter (mkspan 1 1 (s_ "p")) 0)],
    (s_ "^(?:(?:(?P<__0_0>x)a+?))$"),
    (RCat (RLook LStart) (RCat (RCat (RCap (Some (s_ "__0_0")) (RLit (c_ "x"))) (RRep 1 None false (RLit (c_ "a")))) (RLook LEnd))).
  intros. split; [vm_compute; reflexivity|]. split; [|split; [vm_compute; reflexivity|split]].
  - constructor; [|constructor]. exists r0. split; [exact E|]. vm_compute. auto.
  - change (s_ "x") with (s_ "x" ++ []). change [Some (s_ "x" ++ [])] with ([Some (s_ "x")] ++ []). constructor; [|constructor].
    exists r0, [Some (s_ "x")]. split; [exact E|]. split; [|reflexivity].
    change (s_ "x") with (s_ "x" ++ []) at 1. change [Some (s_ "x")] with ([Some (s_ "x")] ++ []). constructor.
    + constructor. constructor.
    + apply (rm_rep _ _ _ 0); [cbn; lia|cbn; lia|]. apply rms_zero.
  - intros (p & m & q & c & E1 & H). apply rm_cat_inv in H as (m1 & m2 & c1 & c2 & -> & -> & H1 & H2).
    apply rm_cat_inv in H2 as (m3 & m4 & c3 & c4 & -> & -> & H2 & H3). apply rm_cat_inv in H2 as (m5 & m6 & c5 & c6 & -> & -> & H4 & H5).
    apply rm_cap_inv in H4 as (d & _ & H4). inversion H4; subst. apply rm_rep_inv in H5 as (k & Hk & _ & H5).
    destruct k as [|k]; [cbn in Hk; lia|]. apply rms_succ_inv in H5 as (y & z & cy & cz & -> & _ & H5 & _). inversion H5; subst.
    apply (f_equal (@List.length N)) in E1. repeat rewrite app_length in E1. cbn in E1. lia.
Qed.
Lemma whole_only_used digits spaces words to_string get get' s :
  (forall e p, expression_parse s = RetOk e -> In p (parameters e) -> get (par_input p) = get' (par_input p)) ->
  regex_with_parameters digits spaces words to_string get s = regex_with_parameters digits spaces words to_string get' s.
Proof. intros H. apply whole_local. intros e p He Hp. split; [now apply (H e)|reflexivity]. Qed.
Lemma hash_map_spec I (text : I -> str) m i : NoDup (map fst m) ->
  (forall v, hash_map_get text m i = Some v <-> In (text i, v) m) /\
  (hash_map_get text m i = None <-> ~ In (text i) (map fst m)) /\
  forall m', Permutation.Permutation m m' -> hash_map_get text m' i = hash_map_get text m i.
Proof.
  intros H. split; [intros v; now apply hash_map_some|]. split; [apply hash_map_none|]. intros m' Hm. symmetry. now apply hash_map_order.
Qed.
