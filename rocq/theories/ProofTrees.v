(** Expansion of any tree at all. *)
From Verif Require Export SpecTrees ProofParams2.

Section Trees.
  Context {I : Type} (elements : I -> str).
  Lemma string_names e : names_of (groups (re_of elements e)) =
    flat_map (fun id => [group_name id 0; group_name id 1]) (string_ids elements e).
  Proof.
    change (names_of (groups (re_of elements e))) with (group_names (re_of elements e)). rewrite names_builtin. unfold string_ids.
    induction (parameters e) as [|p l IH]; [reflexivity|]. cbn [flat_map filter]. rewrite IH. unfold builtin_groups. fold (name elements p).
    destruct (list_eq_dec N.eq_dec (name elements p) (s_ "string")) as [E|E].
    - rewrite E. reflexivity.
    - now rewrite (proj2 (str_eqb_neq _ _) E).
  Qed.
  Lemma string_names_distinct l : NoDup (flat_map (fun id => [group_name id 0; group_name id 1]) l) <-> NoDup l.
  Proof.
    induction l as [|x l IH]; [split; constructor|]. cbn [flat_map app]. split.
    - intros H. inversion_clear H as [|? ? Hx Hl]. inversion_clear Hl as [|? ? _ Hl']. constructor; [|now apply IH].
      intros Hi. apply Hx. right. apply in_flat_map. exists x. split; [exact Hi|now left].
    - intros H. inversion_clear H as [|? ? Hx Hl].
      assert (Hn : forall k, ~ In (group_name x k) (flat_map (fun id => [group_name id 0; group_name id 1]) l)).
      { intros k (y & Hy & Hi)%in_flat_map. cbn [In] in Hi. destruct Hi as [Hi|[Hi|[]]]; apply group_name_inj in Hi as [-> _]; contradiction. }
      constructor; [|constructor; [apply Hn|now apply IH]].
      intros [Hi|Hi]; [|now apply Hn in Hi]. apply group_name_inj in Hi as [_ Hi]. discriminate Hi.
  Qed.
  Lemma tree_unknown e er : collect_result (expand_expression elements e) = inr er <->
    exists e1 p e2, e = e1 ++ ExParameter p :: e2 /\ Forall (fun q => built_in (elements (par_input q))) (parameters e1) /\
      ~ built_in (elements (par_input p)) /\ er = NotFound (par_input p).
  Proof.
    split.
    - intros H. destruct (all_or_first elements e) as [He|(e1 & p & e2 & -> & H1 & H2)].
      + rewrite collect_builtin in H by assumption. discriminate H.
      + rewrite unknown_error in H by assumption. injection H as <-. exists e1, p, e2. auto.
    - intros (e1 & p & e2 & -> & H1 & H2 & ->). now apply unknown_error.
  Qed.
  Lemma tree_text e : (exists t, collect_result (expand_expression elements e) = inl t) <->
    Forall (fun q => built_in (elements (par_input q))) (parameters e).
  Proof.
    split.
    - intros [t H]. destruct (all_or_first elements e) as [He|(e1 & p & e2 & -> & H1 & H2)]; [exact He|].
      rewrite unknown_error in H by assumption. discriminate H.
    - intros H. eexists. now apply collect_builtin.
  Qed.
  Lemma tree_inv e t : collect_result (expand_expression elements e) = inl t -> all_built_in elements e /\ t = builtin_regex elements e.
  Proof.
    intros H. assert (He : all_built_in elements e) by (apply tree_text; eauto). split; [exact He|].
    rewrite collect_builtin in H by assumption. now injection H as <-.
  Qed.
  Lemma tree_new e : regex_new (builtin_regex elements e) =
    if distinct (group_names (re_of elements e)) then Done (re_of elements e) else Invalid.
  Proof. unfold regex_new. rewrite parse_builtin. reflexivity. Qed.
  Lemma tree_distinct e : distinct (group_names (re_of elements e)) = true <-> NoDup (string_ids elements e).
  Proof.
    rewrite distinct_iff. change (group_names (re_of elements e)) with (names_of (groups (re_of elements e))).
    rewrite string_names. apply string_names_distinct.
  Qed.
  Lemma tree_compiles e t : collect_result (expand_expression elements e) = inl t ->
    (exists r, regex_new t = Done r) /\ NoDup (string_ids elements e) \/
    regex_new t = Invalid /\ ~ NoDup (string_ids elements e).
  Proof.
    intros [_ ->]%tree_inv. rewrite tree_new. rewrite <- tree_distinct. destruct (distinct _); [left|right]; split; eauto.
  Qed.
  Lemma tree_means e t r : collect_result (expand_expression elements e) = inl t -> regex_new t = Done r ->
    (exists l, Forall2 (parameter_groups elements) (parameters e) l /\ groups r = List.concat l) /\
    forall digit space word pre m post c, rm digit space word r pre m post c <->
      pre = [] /\ post = [] /\ means elements (fun p => typed digit space (elements (par_input p))) e m c.
  Proof.
    intros [He ->]%tree_inv Hr. rewrite tree_new in Hr. destruct (distinct _); [|discriminate Hr]. injection Hr as <-. split.
    - exists (map (fun p => flat_map groups (builtin_re elements p)) (parameters e)). split.
      + induction (parameters e) as [|p l IH]; cbn [map]; constructor; [apply groups_builtin_spec|exact IH].
      + unfold re_of. rewrite groups_by. apply flat_map_concat_map.
    - intros. now apply rm_builtin.
  Qed.

  Section Custom.
    Context (digits spaces words : ranges) (to_string : hir -> str) (get : provider I).
    Notation collect e := (collect_result (expand_expression_custom elements digits spaces words to_string get e)).
    Notation rm := (Regex.rm (in_ranges digits) (in_ranges spaces) (in_ranges words)).
    Notation type := (custom_type digits spaces words elements get).
    Notation tame := (SpecParams.tame digits spaces words).
    Lemma tree_custom_error e er : collect e = inr er <->
      exists e1 p e2, e = e1 ++ ExParameter p :: e2 /\ Forall (custom_checked elements get) (parameters e1) /\ fault elements get p er.
    Proof.
      split.
      - intros H. destruct (checked_or_first elements get e) as [He|(e1 & p & e2 & er' & -> & H1 & H2)].
        + rewrite collect_checked in H by assumption. discriminate H.
        + rewrite (collect_fault _ _ _ _ _ _ e1 p e2 er') in H by assumption. injection H as <-. eauto 6.
      - intros (e1 & p & e2 & -> & H1 & H2). now apply collect_fault.
    Qed.
    Lemma tree_custom_fault e er : er <> Unmodelled -> collect e = inr er <->
      exists e1 p e2, e = e1 ++ ExParameter p :: e2 /\ Forall (custom_checked elements get) (parameters e1) /\
        match get (par_input p) with
        | None => ~ built_in (elements (par_input p)) /\ er = NotFound (par_input p)
        | Some v => In (c_ "(") v /\ regex_new v = Invalid /\ er = RenameRegexGroup (par_input p) v
        end.
    Proof.
      intros Hn. rewrite tree_custom_error. unfold fault.
      split; intros (e1 & p & e2 & -> & H1 & H2); exists e1, p, e2; split; try reflexivity; (split; [exact H1|]);
        destruct (get (par_input p)); try exact H2.
      - destruct H2 as (H2 & [H3|[_ H3]]); [tauto|contradiction].
      - tauto.
    Qed.
    Context (Htab : tables_ok digits spaces words) (Hprint : prints_meaning to_string).
    Lemma any_printable p t r : get (par_input p) = Some t -> regex_new t = Done r -> custom_valid elements get tame p ->
      printable (rename_capture_groups (translate digits spaces words r) (par_id p)).
    Proof.
      unfold custom_valid. intros Hg Hr. rewrite Hg. intros (r' & Hr' & Ht). assert (r' = r) as -> by congruence.
      apply regex_new_inv in Hr as [Hr _]. destruct (translate_spec digits spaces words Htab r (parsed_ok _ _ Hr) Ht) as (H1 & H2 & H3 & H4).
      pose proof (rename_spec digits spaces words (par_id p) (translate digits spaces words r) H1 H3 0) as Hs. unfold rename_capture_groups.
      destruct (rename_groups_inner _ _ _) as [h' j]. destruct Hs as (R1 & _). now apply ok_printable.
    Qed.
    Lemma any_display_ok p : custom_valid elements get tame p -> display_ok digits spaces words to_string get p.
    Proof. intros Hv t r Hg Hr. apply Hprint. eapply any_printable; eassumption. Qed.
    Notation cre := (custom_re elements digits spaces words to_string get).
    Lemma tree_custom e : Forall (custom_valid elements get tame) (parameters e) ->
      exists t l, collect e = inl t /\ Forall2 (custom_groups elements get) (parameters e) l /\
        ((exists r, regex_new t = Done r) /\ NoDup (names (List.concat l)) \/ regex_new t = Invalid /\ ~ NoDup (names (List.concat l))) /\
        forall r, regex_new t = Done r -> groups r = List.concat l /\
          forall pre m post c, Forall scalar m -> rm r pre m post c <-> pre = [] /\ post = [] /\ means_in elements type e [] m [] c.
    Proof.
      intros He. rewrite Forall_forall in He.
      assert (Hc : Forall (custom_checked elements get) (parameters e)).
      { apply Forall_forall. intros p Hp. eapply custom_valid_checked, He, Hp. }
      assert (Ha : forall p, In p (parameters e) -> adds (custom_text elements digits spaces words to_string get p) (cre p)).
      { intros p Hp. apply custom_adds; [exact Htab|now apply He|]. now apply any_display_ok, He. }
      exists (text_by elements (custom_text elements digits spaces words to_string get) e).
      exists (map (fun p => flat_map groups (cre p)) (parameters e)).
      assert (Hg : groups (re_by elements cre e) = List.concat (map (fun p => flat_map groups (cre p)) (parameters e))).
      { rewrite groups_by. apply flat_map_concat_map. }
      split; [now apply collect_checked|]. split; [|split].
      - clear Hc Ha Hg. induction (parameters e) as [|p l IH]; cbn [map]; constructor.
        + apply custom_groups_spec; [exact Htab|apply He; now left|]. apply any_display_ok, He. now left.
        + apply IH. intros q Hq. apply He. now right.
      - unfold regex_new. rewrite (parse_text elements _ _ e Ha). cbn [obind]. rewrite <- Hg.
        change (names (groups (re_by elements cre e))) with (group_names (re_by elements cre e)). rewrite <- distinct_iff.
        destruct (distinct _); [left|right]; split; eauto.
      - intros r. unfold regex_new. rewrite (parse_text elements _ _ e Ha). cbn [obind]. destruct (distinct _); [|discriminate].
        intros [= <-]. split; [exact Hg|]. intros pre m post c Hm.
        rewrite (rm_by elements _ (in_ranges digits) (in_ranges spaces) (in_ranges words)
          (fun p => ProofMeaning.rml (in_ranges digits) (in_ranges spaces) (in_ranges words) (cre p)))
          by (intros p Hp pre' m' post' c'; reflexivity).
        rewrite (means_in_ext elements _ type e); [reflexivity| |exact Hm].
        intros p Hp pre' m' post' c' Hm'. apply custom_means; try assumption; [now apply He|]. now apply any_display_ok, He.
    Qed.
  End Custom.
End Trees.
