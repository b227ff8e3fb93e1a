(** [Expression::regex_with_parameters]. *)
From Coq Require Import PeanoNat Permutation.
From Verif Require Export ProofPrint ProofExpand4.
From Verif Require Import CharLevel.

(** ** The [HashMap] provider *)
Lemma hash_map_some {I} (elements : I -> str) m i v : NoDup (map fst m) -> hash_map_get elements m i = Some v <-> In (elements i, v) m.
Proof.
  unfold hash_map_get. induction m as [|[k w] m IH]; cbn [map fst In]; intros Hn; [easy|]. inversion_clear Hn as [|? ? H1 H2].
  unfold chars_eq in *. destruct (str_eqb k (elements i)) eqn:E.
  - apply str_eqb_eq in E as ->. split; [intros [= ->]; now left|]. intros [[= ->]|H]; [reflexivity|]. exfalso. apply H1.
    apply in_map_iff. now exists (elements i, v).
  - rewrite (IH H2). split; [now right|]. intros [[= -> ->]|H]; [|exact H]. now rewrite (proj2 (str_eqb_eq _ _) eq_refl) in E.
Qed.
Lemma hash_map_none {I} (elements : I -> str) m i : hash_map_get elements m i = None <-> ~ In (elements i) (map fst m).
Proof.
  unfold hash_map_get. induction m as [|[k w] m IH]; cbn [map fst In]; [easy|]. unfold chars_eq in *. destruct (str_eqb k (elements i)) eqn:E.
  - apply str_eqb_eq in E as ->. split; [easy|]. intros H. exfalso. auto.
  - rewrite IH. split; [|tauto]. intros H [->|H']; [|auto]. now rewrite (proj2 (str_eqb_eq _ _) eq_refl) in E.
Qed.
Lemma hash_map_order {I} (elements : I -> str) m m' i : NoDup (map fst m) -> Permutation m m' -> hash_map_get elements m i = hash_map_get elements m' i.
Proof.
  intros Hn Hp. assert (Hn' : NoDup (map fst m')) by (eapply Permutation_NoDup; [apply Permutation_map, Hp|exact Hn]).
  destruct (hash_map_get elements m i) as [v|] eqn:E.
  - symmetry. apply hash_map_some; [exact Hn'|]. eapply Permutation_in; [exact Hp|]. now apply hash_map_some.
  - symmetry. apply hash_map_none. apply hash_map_none in E. intros H. apply E. eapply Permutation_in; [apply Permutation_sym, Permutation_map, Hp|exact H].
Qed.

Section Custom.
  Context {I : Type} (elements : I -> str).
  Context (digits spaces words : ranges) (to_string : hir -> str) (get : provider I).
  Notation rm := (Regex.rm (in_ranges digits) (in_ranges spaces) (in_ranges words)).
  Notation rml := (ProofMeaning.rml (in_ranges digits) (in_ranges spaces) (in_ranges words)).
  Notation expand := (expand_custom elements digits spaces words to_string get).
  Notation trans := (translate digits spaces words).
  Notation checked := (custom_checked elements get).
  Notation valid := (custom_valid elements get).

  Definition printed (r : re) (id : N) : str := to_string (rename_capture_groups (trans r) id).
  (** The text of a matcher that is a regex [r], or is not looked at. *)
  Definition matcher_text (v : str) (id : N) : str :=
    match regex_new v with
    | Done r => if contains v (c_ "(") && has_capture_groups (trans r) then s_ "(?:" ++ printed r id ++ s_ ")" else s_ "(" ++ v ++ s_ ")"
    | _ => s_ "(" ++ v ++ s_ ")"
    end.
  Definition custom_text (p : parameter I) : str :=
    match get (par_input p) with
    | None => builtin_text elements p
    | Some v => matcher_text v (par_id p)
    end.
  Lemma expand_checked p : checked p -> expand p = ok (custom_text p).
  Proof.
    unfold custom_checked, expand_custom, custom_text, matcher_text. destruct (get (par_input p)) as [v|]; [|apply expand_builtin].
    destruct (contains v (c_ "(")) eqn:E.
    - intros H. apply contains_In in E. destruct (H E) as [r ->]. cbn [andb]. destruct (has_capture_groups _); [|reflexivity]. now rewrite owned_eq.
    - intros _. now destruct (regex_new v).
  Qed.
  (** What goes wrong first. *)
  Definition fault (p : parameter I) (e : param_error I) : Prop :=
    match get (par_input p) with
    | None => ~ built_in (elements (par_input p)) /\ e = NotFound (par_input p)
    | Some v => In (c_ "(") v /\
        (regex_new v = Invalid /\ e = RenameRegexGroup (par_input p) v \/ regex_new v = Unsupported /\ e = Unmodelled)
    end.
  Lemma expand_fault p e : fault p e -> expand p = [IErr e].
  Proof.
    unfold fault, expand_custom. destruct (get (par_input p)) as [v|].
    - intros [H%contains_In [[-> ->]|[-> ->]]]; rewrite H; reflexivity.
    - intros [H ->]. now apply expand_unknown.
  Qed.
  Lemma checked_or_fault p : checked p \/ exists e, fault p e.
  Proof.
    unfold custom_checked, fault. destruct (get (par_input p)) as [v|].
    - destruct (contains v (c_ "(")) eqn:E.
      + apply contains_In in E. destruct (regex_new v) as [r| |] eqn:Er; [left; eauto|right; eauto 8|right; eauto 8].
      + apply contains_false in E. left. easy.
    - destruct (built_in_dec (elements (par_input p))); [now left|right; eauto].
  Qed.
  Lemma fault_not_checked p e : fault p e -> ~ checked p.
  Proof.
    unfold custom_checked, fault. destruct (get (par_input p)) as [v|]; [|tauto].
    intros [H [[E _]|[E _]]] Hc; destruct (Hc H) as [r Er]; congruence.
  Qed.
  Lemma fault_fun p e e' : fault p e -> fault p e' -> e = e'.
  Proof. intros H%expand_fault H'%expand_fault. congruence. Qed.
  Definition all_checked (e : expression I) : Prop := Forall checked (parameters e).
  Lemma checked_or_first e : all_checked e \/ exists e1 p e2 er, e = e1 ++ ExParameter p :: e2 /\ all_checked e1 /\ fault p er.
  Proof.
    induction e as [|x e IH]; [left; constructor|].
    assert (Hx : (exists p er, x = ExParameter p /\ fault p er) \/ all_checked [x]).
    { destruct x; try (right; solve [constructor]). destruct (checked_or_fault p) as [H|[er H]].
      - right. constructor; [assumption|constructor].
      - left. eauto. }
    destruct Hx as [(p & er & -> & Hp)|Hx].
    - right. exists [], p, e, er. repeat split; [constructor|exact Hp].
    - destruct IH as [IH|(e1 & p & e2 & er & -> & H1 & H2)].
      + left. unfold all_checked in *. change (x :: e) with ([x] ++ e). rewrite parameters_app. apply Forall_app. auto.
      + right. exists (x :: e1), p, e2, er. repeat split; [|exact H2].
        unfold all_checked in *. change (x :: e1) with ([x] ++ e1). rewrite parameters_app. apply Forall_app. auto.
  Qed.
  Lemma expand_by_custom e : expand_expression_custom elements digits spaces words to_string get e = expand_by elements expand e.
  Proof. reflexivity. Qed.
  Lemma collect_checked e : all_checked e ->
    collect_result (expand_expression_custom elements digits spaces words to_string get e) = inl (text_by elements custom_text e).
  Proof.
    intros H. rewrite expand_by_custom. apply collect_known. intros p Hp. apply expand_checked. unfold all_checked in H. rewrite Forall_forall in H. auto.
  Qed.
  Lemma collect_fault e1 p e2 er : all_checked e1 -> fault p er ->
    collect_result (expand_expression_custom elements digits spaces words to_string get (e1 ++ ExParameter p :: e2)) = inr er.
  Proof.
    intros H Hp. rewrite expand_by_custom. apply (collect_error elements expand custom_text); [|now apply expand_fault].
    intros q Hq. apply expand_checked. unfold all_checked in H. rewrite Forall_forall in H. auto.
  Qed.

  (** ** Valid matchers *)
  Context (Htab : tables_ok digits spaces words).
  Notation tame := (SpecParams.tame digits spaces words).
  Definition matcher_re (v : str) (id : N) : list re :=
    match regex_new v with
    | Done r =>
        if has_outer r
        then match parse_syntax (printed r id) with Done r' => [r'] | _ => [] end
        else [RCap None r]
    | _ => []
    end.
  Definition custom_re (p : parameter I) : list re :=
    match get (par_input p) with
    | None => builtin_re elements p
    | Some v => matcher_re v (par_id p)
    end.
  Lemma has_outer_visible r : has_outer r = negb (visible (marks r) =? 0).
  Proof.
    unfold has_outer. induction (marks r) as [|[n b] l IH]; [reflexivity|]. cbn [existsb snd visible]. rewrite IH.
    destruct b; cbn [orb].
    - destruct (N.eqb_spec (1 + visible l) 0); [lia|reflexivity].
    - reflexivity.
  Qed.
  Lemma outer_detected v r : regex_new v = Done r -> tame r -> contains v (c_ "(") && has_capture_groups (trans r) = has_outer r.
  Proof.
    intros Hv Ht. apply regex_new_inv in Hv as [Hv Hn]. destruct (translate_spec digits spaces words Htab r (parsed_ok _ _ Hv) Ht) as (H1 & H2 & H3 & H4).
    rewrite has_capture_groups_spec, H4, <- has_outer_visible. destruct (contains v (c_ "(")) eqn:E; [reflexivity|].
    apply contains_false in E. pose proof (no_paren_no_groups v r E Hv) as Hg. unfold has_outer. rewrite <- marks_groups in Hg.
    apply map_eq_nil in Hg. now rewrite Hg.
  Qed.
  Lemma renamed_relabel id l : forall k, renamed id k l (map fst (relabel id k l)).
  Proof.
    induction l as [|[n []] l IH]; intros k; cbn [relabel map fst]; constructor; try apply IH. apply group_name_named.
  Qed.
  Definition prints (r : re) (id : N) : Prop := faithful to_string (rename_capture_groups (trans r) id).
  Lemma printed_spec v r id : regex_new v = Done r -> tame r -> prints r id -> exists r', parse_syntax (printed r id) = Done r' /\
    groups r' = map fst (relabel id 0 (marks r)) /\ equiv digits spaces words r' r.
  Proof.
    intros Hv Ht Hp. apply regex_new_inv in Hv as [Hv Hn]. destruct (translate_spec digits spaces words Htab r (parsed_ok _ _ Hv) Ht) as (H1 & H2 & H3 & H4).
    pose proof (rename_spec digits spaces words id (trans r) H1 H3 0) as Hr. unfold printed, prints, rename_capture_groups in *.
    destruct (rename_groups_inner id (trans r) 0) as [h' j]. destruct Hr as (R1 & R2 & R3 & R4 & _). cbn [fst] in *.
    destruct Hp as (r' & P1 & P2). apply equiv_same in P2 as [P2 P3]. exists r'. split; [exact P1|]. split.
    - rewrite P2, caps_groups. rewrite <- (map_map snd fst), R4, H4. reflexivity.
    - eapply equiv_trans; [apply P3|]. eapply equiv_trans; [exact R2|exact H2].
  Qed.
  Lemma matcher_adds v id r : regex_new v = Done r -> tame r -> prints r id -> adds (matcher_text v id) (matcher_re v id).
  Proof.
    intros Hv Ht Hp. unfold matcher_text, matcher_re. rewrite Hv. rewrite (outer_detected v r Hv Ht). destruct (has_outer r).
    - destruct (printed_spec v r id Hv Ht Hp) as (r' & E & _). rewrite E. apply adds_one_adds, parse_group, E.
    - apply adds_one_adds, parse_capture. now apply regex_new_inv in Hv.
  Qed.
  Lemma flat_map_one {A B} (f : A -> list B) x : flat_map f [x] = f x.
  Proof. apply app_nil_r. Qed.
  Lemma matcher_groups v id r : regex_new v = Done r -> tame r -> prints r id -> flat_map groups (matcher_re v id) =
    if has_outer r then map fst (relabel id 0 (marks r)) else None :: groups r.
  Proof.
    intros Hv Ht Hp. unfold matcher_re. rewrite Hv. destruct (has_outer r).
    - destruct (printed_spec v r id Hv Ht Hp) as (r' & -> & Hg & _). now rewrite flat_map_one.
    - now rewrite flat_map_one.
  Qed.
  Lemma matcher_means v id r pre m post c : regex_new v = Done r -> tame r -> prints r id -> Forall scalar m ->
    rml (matcher_re v id) pre m post c <-> exists c', rm r pre m post c' /\ c = if has_outer r then c' else Some m :: c'.
  Proof.
    intros Hv Ht Hp Hm. unfold matcher_re. rewrite Hv. destruct (has_outer r).
    - destruct (printed_spec v r id Hv Ht Hp) as (r' & -> & _ & He). rewrite rml_one, (proj2 He pre m post c Hm).
      split; [eauto|]. now intros (c' & H & ->).
    - rewrite rml_one. split.
      + intros (c' & -> & H)%rm_cap_inv. eauto.
      + intros (c' & H & ->). now constructor.
  Qed.

  Notation type := (custom_type digits spaces words elements get).
  Notation display := (display_ok digits spaces words to_string get).
  Lemma custom_adds p : valid tame p -> display p -> adds (custom_text p) (custom_re p).
  Proof.
    unfold custom_valid, custom_text, custom_re, display_ok. destruct (get (par_input p)) as [v|]; [|intros _ _; apply adds_builtin].
    intros (r & Hv & Ht) Hp. eapply matcher_adds; try eassumption. exact (Hp v r eq_refl Hv).
  Qed.
  Lemma custom_valid_checked ok p : valid ok p -> checked p.
  Proof.
    unfold custom_valid, custom_checked. destruct (get (par_input p)); [|trivial]. intros (r & H & _) _. eauto.
  Qed.
  Lemma custom_groups_spec p : valid tame p -> display p -> custom_groups elements get p (flat_map groups (custom_re p)).
  Proof.
    unfold custom_valid, custom_groups, custom_re, display_ok. destruct (get (par_input p)) as [v|].
    - intros (r & Hv & Ht) Hp. exists r. split; [exact Hv|]. rewrite (matcher_groups v _ r Hv Ht (Hp v r eq_refl Hv)). destruct (has_outer r); [|reflexivity].
      apply renamed_relabel.
    - intros _ _. apply groups_builtin_spec.
  Qed.
  Lemma custom_means p pre m post c : valid tame p -> display p -> Forall scalar m -> rml (custom_re p) pre m post c <-> type p pre m post c.
  Proof.
    unfold custom_valid, custom_type, custom_re, display_ok. destruct (get (par_input p)) as [v|].
    - intros (r & Hv & Ht) Hp Hm. rewrite (matcher_means v _ r pre m post c Hv Ht (Hp v r eq_refl Hv) Hm). split.
      + intros (c' & H & ->). eauto.
      + intros (r' & c' & Hv' & H & ->). replace r' with r in * by congruence. eauto.
    - intros Hb _ _. now apply rml_builtin.
  Qed.
End Custom.

(** ** Matchers without a parenthesis *)
Section Plain.
  Context {I : Type} (elements : I -> str).
  Context (digits spaces words : ranges) (to_string : hir -> str) (get : provider I).
  Notation rml := (ProofMeaning.rml (in_ranges digits) (in_ranges spaces) (in_ranges words)).
  Notation text := (custom_text elements digits spaces words to_string get).
  Notation re_of := (custom_re elements digits spaces words to_string get).
  Definition plain (p : parameter I) : Prop := forall v, get (par_input p) = Some v -> ~ In (c_ "(") v.
  Definition any_re (r : re) : Prop := True.
  Lemma plain_outer v r : ~ In (c_ "(") v -> regex_new v = Done r -> groups r = [] /\ has_outer r = false.
  Proof.
    intros H [Hv _]%regex_new_inv. pose proof (no_paren_no_groups v r H Hv) as Hg. split; [exact Hg|].
    unfold has_outer. rewrite <- marks_groups in Hg. apply map_eq_nil in Hg. now rewrite Hg.
  Qed.
  Lemma plain_adds p : plain p -> custom_valid elements get any_re p -> adds (text p) (re_of p).
  Proof.
    unfold plain, custom_valid, custom_text, custom_re, matcher_text, matcher_re. destruct (get (par_input p)) as [v|]; [|intros _ _; apply adds_builtin].
    intros Hp (r & Hv & _). specialize (Hp v eq_refl). destruct (plain_outer v r Hp Hv) as [_ Ho]. rewrite Hv, Ho.
    apply contains_false in Hp. rewrite Hp. cbn [andb]. apply adds_one_adds, parse_capture. now apply regex_new_inv in Hv.
  Qed.
  Lemma plain_groups p : plain p -> custom_valid elements get any_re p ->
    flat_map groups (re_of p) = match get (par_input p) with None => builtin_groups elements p | Some _ => [None] end.
  Proof.
    unfold plain, custom_valid, custom_re, matcher_re. destruct (get (par_input p)) as [v|]; [|intros _ _; apply groups_builtin].
    intros Hp (r & Hv & _). specialize (Hp v eq_refl). destruct (plain_outer v r Hp Hv) as [Hg Ho]. rewrite Hv, Ho, flat_map_one.
    cbn [groups]. now rewrite Hg.
  Qed.
  Lemma plain_means p pre m post c : plain p -> custom_valid elements get any_re p ->
    rml (re_of p) pre m post c <-> custom_type digits spaces words elements get p pre m post c.
  Proof.
    unfold plain, custom_valid, custom_type, custom_re, matcher_re. destruct (get (par_input p)) as [v|]; [|intros _ Hb; now apply rml_builtin].
    intros Hp (r & Hv & _). specialize (Hp v eq_refl). destruct (plain_outer v r Hp Hv) as [Hg Ho]. rewrite Hv, Ho, rml_one. split.
    - intros (c' & -> & H)%rm_cap_inv. exists r, c'. now rewrite Ho.
    - intros (r' & c' & E & H & ->). replace r' with r in * by congruence. rewrite Ho. now constructor.
  Qed.
End Plain.

(** ** Names *)
Lemma no_groups_tame digits spaces words r : groups r = [] -> tame digits spaces words r.
Proof.
  induction r as [|c| |k|l|min max g r IH|m r IH|a IHa b IHb|a IHa b IHb]; cbn; try easy.
  - auto.
  - intros [H1 H2]%app_eq_nil. auto.
  - intros [H1 H2]%app_eq_nil. auto.
Qed.
Lemma flat_tame digits spaces words r : flat r -> tame digits spaces words r.
Proof.
  induction r as [|c| |k|l|min max g r IH|m r IH|a IHa b IHb|a IHa b IHb]; cbn; try tauto.
  intros H. split; [now apply no_groups_tame|auto].
Qed.
Lemma flat_marks r : flat r -> Forall (fun x => snd x = true) (marks r).
Proof.
  induction r as [|c| |k|l|min max g r IH|m r IH|a IHa b IHb|a IHa b IHb]; cbn [flat marks]; intros H; try constructor; auto.
  - rewrite <- marks_groups in H. apply map_eq_nil in H. rewrite H. destruct (_ && _); constructor.
  - destruct H. apply Forall_app. auto.
  - destruct H. apply Forall_app. auto.
Qed.
Lemma relabel_names id l : Forall (fun x => snd x = true) l -> forall k,
  (forall n, In n (names_of (map fst (relabel id k l))) -> exists j, k <= j /\ n = group_name id j) /\
  NoDup (names_of (map fst (relabel id k l))).
Proof.
  induction 1 as [|[n b] l H Hl IH]; intros k; [split; [easy|constructor]|]. cbn [snd] in H. subst b. cbn [relabel map fst names_of flat_map app].
  destruct (IH (k + 1)) as [H1 H2]. split.
  - intros m [<-|Hm]; [exists k; split; [lia|reflexivity]|]. apply H1 in Hm as (j & Hj & ->). exists j. split; [lia|reflexivity].
  - constructor; [|exact H2]. intros (j & Hj & E)%H1. apply group_name_inj in E as [_ ->]. lia.
Qed.
Lemma nodup_by {I} (f : parameter I -> list (option str)) l :
  (forall p, In p l -> NoDup (names_of (f p)) /\ forall n, In n (names_of (f p)) -> exists k, n = group_name (par_id p) k) ->
  NoDup (map par_id l) -> NoDup (names_of (flat_map f l)).
Proof.
  induction l as [|p l IH]; cbn [map flat_map]; intros Hf H; [constructor|]. inversion_clear H.
  unfold names_of. rewrite flat_map_app. fold (names_of (f p)) (names_of (flat_map f l)).
  apply NoDup_app; [apply Hf; now left|apply IH; [|assumption]; intros; apply Hf; now right|].
  intros n Hn Hm. destruct (Hf p (or_introl eq_refl)) as [_ Hp]. apply Hp in Hn as (k & ->).
  apply in_flat_map in Hm as (x & (q & Hq & Hx)%in_flat_map & Hm).
  assert (Hm' : In (group_name (par_id p) k) (names_of (f q))) by (apply in_flat_map; eauto).
  apply (Hf q (or_intror Hq)) in Hm' as (j & Hj). apply group_name_inj in Hj as [Hj _]. apply H0. rewrite Hj. now apply in_map.
Qed.
Lemma means_in_ext {I} (text : I -> str) P Q e :
  (forall p, In p (parameters e) -> forall pre m post c, Forall scalar m -> P p pre m post c <-> Q p pre m post c) ->
  forall pre m post c, Forall scalar m -> means_in text P e pre m post c <-> means_in text Q e pre m post c.
Proof.
  intros H.
  enough (Hd : forall P Q : parameter I -> str -> str -> str -> list (option str) -> Prop, (forall p, In p (parameters e) -> forall pre m post c, Forall scalar m -> P p pre m post c -> Q p pre m post c) ->
    forall pre m post c, Forall scalar m -> means_in text P e pre m post c -> means_in text Q e pre m post c).
  { intros pre m post c Hm. split; apply Hd; try assumption; intros; now apply H. }
  clear. intros P Q. induction e as [|x e IH]; intros H pre m post c Hm.
  - inversion 1; subst. constructor.
  - intros (s & t & v & w & -> & -> & H1 & H2)%means_in_inv. apply Forall_app in Hm as [Hs Ht]. constructor.
    + destruct x; try exact H1. cbn in *. apply H; [now left|exact Hs|exact H1].
    + apply IH; try assumption. intros p Hp. apply H. change (x :: e) with ([x] ++ e). rewrite parameters_app. apply in_or_app. auto.
Qed.

(** ** The whole function *)
Section Whole.
  Context (digits spaces words : ranges) (to_string : hir -> str) (get : provider span).
  Notation whole := (regex_with_parameters digits spaces words to_string get).
  Notation rm := (Regex.rm (in_ranges digits) (in_ranges spaces) (in_ranges words)).
  Notation text := (text_by frag (custom_text frag digits spaces words to_string get)).
  Notation re_of := (re_by frag (custom_re frag digits spaces words to_string get)).
  Notation type := (custom_type digits spaces words frag get).
  Notation tame := (SpecParams.tame digits spaces words).
  Notation display := (display_ok digits spaces words to_string get).
  Lemma whole_checked s e : expression_parse s = RetOk e -> Forall (custom_checked frag get) (parameters e) ->
    whole s = match regex_new (text e) with Done r => XOk (text e) r | Invalid => XRegex | Unsupported => XUnsupported end.
  Proof. intros H He. unfold regex_with_parameters, regex_by. rewrite H, (collect_checked frag) by exact He. reflexivity. Qed.
  Lemma whole_fault s e1 p e2 er : expression_parse s = RetOk (e1 ++ ExParameter p :: e2) -> Forall (custom_checked frag get) (parameters e1) ->
    fault frag get p er -> whole s = match er with Unmodelled => XUnsupported | _ => XExpansion er end.
  Proof. intros H He Hp. unfold regex_with_parameters, regex_by. rewrite H, (collect_fault frag _ _ _ _ _ e1 p e2 er) by assumption. now destruct er. Qed.
  Lemma whole_errors s er : whole s = XExpansion er <->
    exists e1 p e2, expression_parse s = RetOk (e1 ++ ExParameter p :: e2) /\ Forall (custom_checked frag get) (parameters e1) /\
      match get (par_input p) with
      | None => ~ built_in (frag (par_input p)) /\ er = NotFound (par_input p)
      | Some v => In (c_ "(") v /\ regex_new v = Invalid /\ er = RenameRegexGroup (par_input p) v
      end.
  Proof.
    split.
    - intros H. destruct (expression_parse s) as [e|x| |] eqn:E;
        try (unfold regex_with_parameters, regex_by in H; rewrite E in H; discriminate H).
      destruct (checked_or_first frag get e) as [He|(e1 & p & e2 & er' & -> & H1 & H2)].
      + rewrite (whole_checked s e E He) in H. now destruct (regex_new _).
      + rewrite (whole_fault s e1 p e2 er' E H1 H2) in H. exists e1, p, e2. split; [reflexivity|]. split; [exact H1|].
        unfold fault in H2. destruct (get (par_input p)) as [v|].
        * destruct H2 as [H2 [[H3 ->]|[H3 ->]]]; [|discriminate H]. injection H as <-. auto.
        * destruct H2 as [H2 ->]. injection H as <-. auto.
    - intros (e1 & p & e2 & H & H1 & H2). rewrite (whole_fault s e1 p e2 er H H1).
      + destruct (get (par_input p)); [destruct H2 as (_ & _ & ->)|destruct H2 as [_ ->]]; reflexivity.
      + unfold fault. destruct (get (par_input p)); [|exact H2]. destruct H2 as (H2 & H3 & ->). auto.
  Qed.

  Definition group_list (e : expression span) : list (list (option str)) :=
    map (fun p => flat_map groups (custom_re frag digits spaces words to_string get p)) (parameters e).
  Lemma groups_whole e : groups (re_of e) = List.concat (group_list e).
  Proof. rewrite groups_by. unfold group_list. apply flat_map_concat_map. Qed.
  Lemma whole_read s e : expression_parse s = RetOk e -> Forall (custom_checked frag get) (parameters e) ->
    (forall p, In p (parameters e) -> adds (custom_text frag digits spaces words to_string get p) (custom_re frag digits spaces words to_string get p)) ->
    whole s = XOk (text e) (re_of e) /\ NoDup (names_of (groups (re_of e))) \/ whole s = XRegex /\ ~ NoDup (names_of (groups (re_of e))).
  Proof.
    intros H Hc Hr. rewrite (whole_checked s e H Hc). unfold regex_new. rewrite (parse_text frag _ _ e Hr). cbn [obind].
    destruct (distinct (group_names (re_of e))) eqn:E.
    - left. split; [reflexivity|]. now apply distinct_iff.
    - right. split; [reflexivity|]. intros Hn. apply (eq_true_false_abs _ (proj2 (distinct_iff _) Hn) E).
  Qed.

  Section Good.
    Context (Htab : tables_ok digits spaces words).
    Definition good (p : parameter span) : Prop := custom_valid frag get tame p /\ display p.
    Lemma good_checked l : Forall good l -> Forall (custom_checked frag get) l.
    Proof. apply Forall_impl. intros p [H _]. eapply custom_valid_checked, H. Qed.
    Lemma good_adds e : Forall good (parameters e) -> forall p, In p (parameters e) ->
      adds (custom_text frag digits spaces words to_string get p) (custom_re frag digits spaces words to_string get p).
    Proof. intros H p Hp. rewrite Forall_forall in H. destruct (H p Hp). now apply custom_adds. Qed.
    Lemma good_groups e : Forall good (parameters e) -> Forall2 (custom_groups frag get) (parameters e) (group_list e).
    Proof.
      unfold group_list. induction (parameters e) as [|p l IH]; intros H; cbn [map]; [constructor|]. inversion_clear H as [|? ? H1 H2].
      constructor; [|now apply IH]. destruct H1. now apply custom_groups_spec.
    Qed.
    Lemma good_means e pre m post c : Forall good (parameters e) -> Forall scalar m ->
      rm (re_of e) pre m post c <-> pre = [] /\ post = [] /\ means_in frag type e [] m [] c.
    Proof.
      intros H Hm.
      rewrite (rm_by frag _ (in_ranges digits) (in_ranges spaces) (in_ranges words)
        (fun p => ProofMeaning.rml (in_ranges digits) (in_ranges spaces) (in_ranges words) (custom_re frag digits spaces words to_string get p)))
        by (intros p Hp pre' m' post' c'; reflexivity).
      rewrite (means_in_ext frag _ type e); [reflexivity| |exact Hm].
      intros p Hp pre' m' post' c' Hm'. rewrite Forall_forall in H. destruct (H p Hp). now apply custom_means.
    Qed.
    (** The exact outcome. *)
    Lemma whole_good s e : expression_parse s = RetOk e -> Forall good (parameters e) ->
      exists l, Forall2 (custom_groups frag get) (parameters e) l /\
        (NoDup (names_of (List.concat l)) /\ (exists t r, whole s = XOk t r) \/ ~ NoDup (names_of (List.concat l)) /\ whole s = XRegex) /\
        forall t r, whole s = XOk t r -> groups r = List.concat l /\
          forall pre m post c, Forall scalar m -> rm r pre m post c <-> pre = [] /\ post = [] /\ means_in frag type e [] m [] c.
    Proof.
      intros H He. exists (group_list e). split; [now apply good_groups|]. rewrite <- groups_whole.
      destruct (whole_read s e H (good_checked _ He) (good_adds e He)) as [[E Hn]|[E Hn]]; rewrite E.
      - split; [left; eauto|]. intros t r [= <- <-]. split; [reflexivity|]. intros. now apply good_means.
      - split; [right; auto|]. intros t r [=].
    Qed.
    Definition good_flat (p : parameter span) : Prop := custom_valid frag get flat p /\ display p.
    Lemma good_flat_good l : Forall good_flat l -> Forall good l.
    Proof.
      apply Forall_impl. intros p [H Hd]. split; [|exact Hd]. unfold custom_valid in *. destruct (get (par_input p)); [|exact H].
      destruct H as (r & Hr & Hf). exists r. split; [exact Hr|now apply flat_tame].
    Qed.
    Lemma flat_names p : good_flat p -> let l := flat_map groups (custom_re frag digits spaces words to_string get p) in
      NoDup (names_of l) /\ forall n, In n (names_of l) -> exists k, n = group_name (par_id p) k.
    Proof.
      intros [Hv Hd]. cbv zeta. unfold custom_valid, display_ok in *. unfold custom_re. destruct (get (par_input p)) as [v|].
      - destruct Hv as (r & Hv & Hf). pose proof (flat_marks r Hf) as Hm.
        rewrite (matcher_groups digits spaces words to_string Htab v (par_id p) r Hv (flat_tame _ _ _ r Hf) (Hd v r eq_refl Hv)).
        destruct (has_outer r) eqn:Ho.
        + destruct (relabel_names (par_id p) (marks r) Hm 0) as [H1 H2]. split; [exact H2|]. intros n Hn. apply H1 in Hn as (j & _ & ->). eauto.
        + assert (E : groups r = []).
          { rewrite <- marks_groups. unfold has_outer in Ho. destruct (marks r) as [|[n b] l]; [reflexivity|]. inversion_clear Hm. cbn in *. subst b. discriminate Ho. }
          rewrite E. cbn. split; [constructor|easy].
      - rewrite groups_builtin. split; [apply names_nodup|apply names_in].
    Qed.
    Lemma whole_flat s e : addressable s -> expression_parse s = RetOk e -> Forall good_flat (parameters e) ->
      exists t r l, whole s = XOk t r /\ Forall2 (custom_groups frag get) (parameters e) l /\ groups r = List.concat l /\ NoDup (group_names r) /\
        forall pre m post c, Forall scalar m -> rm r pre m post c <-> pre = [] /\ post = [] /\ means_in frag type e [] m [] c.
    Proof.
      intros Hs H Hf. pose proof (good_flat_good _ Hf) as He.
      assert (Hn : NoDup (names_of (groups (re_of e)))).
      { rewrite groups_by. apply nodup_by.
        - intros p Hp. apply flat_names. rewrite Forall_forall in Hf. now apply Hf.
        - rewrite <- ids_parameters. eapply parsed_ids; eassumption. }
      exists (text e), (re_of e), (group_list e).
      destruct (whole_read s e H (good_checked _ He) (good_adds e He)) as [[E _]|[_ E]]; [|contradiction].
      split; [exact E|]. split; [now apply good_groups|]. split; [apply groups_whole|]. split; [exact Hn|].
      intros. now apply good_means.
    Qed.
  End Good.
End Whole.
