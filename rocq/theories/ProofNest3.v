(** Expansions under the nesting limit. *)
From Coq Require Import PeanoNat.
From Verif Require Export SpecNest ProofParams ProofNest2.

Lemma nadds_quiet t rs : (forall c, In c t -> c <> c_ ")" /\ c <> c_ "\") -> adds t rs -> nadds t rs.
Proof.
  intros Hc H m items alts stack Hm. destruct (H m items alts stack Hm) as (m' & Hm' & E). exists m'. split; [exact Hm'|].
  apply nest_run_quiet; [exact Hc|cbn; now apply ready_not_esc|exact E].
Qed.

Section Pieces.
  Context {I : Type} (elements : I -> str).
  Notation text_of := (text_of elements).
  Notation re_text := (re_text elements).
  Notation optional_text := (optional_text elements).
  Notation alternative_text := (alternative_text elements).
  Notation branch_text := (branch_text elements).
  Notation alternation_text := (alternation_text elements).
  Definition nre_optional (o : optional I) : re := RRep 0 (Some 1) true (RCap None (mk_cat (re_text (opt_input o)))).
  Definition nre_alternative (a : alternative I) : list re :=
    match a with AltOptional o => [nre_optional o] | AltText t => re_text t end.
  Definition nre_branch (b : single_alternation I) : re := mk_cat (flat_map nre_alternative b).
  Definition nre_alternation (a : alternation I) : re := RCap None (mk_alt (map nre_branch a)).
  Lemma nadds_text i : nadds (text_of i) (re_text i).
  Proof. unfold ProofExpand.text_of. rewrite escape_for_regex_eq. apply nadds_quotes. Qed.
  Lemma nadds_optional o : nadds (optional_text o) [nre_optional o].
  Proof.
    unfold ProofExpand.optional_text. change (s_ ")?") with (s_ ")" ++ s_ "?").
    rewrite (app_assoc (text_of _)), (app_assoc (s_ "(?:")).
    apply nadds_question, nadds_one_group, nadds_nreads, nadds_text.
  Qed.
  Lemma nadds_alternative a : nadds (alternative_text a) (nre_alternative a).
  Proof. destruct a; [apply nadds_optional|apply nadds_text]. Qed.
  Lemma nadds_branch b : nadds (branch_text b) (flat_map nre_alternative b).
  Proof. apply nadds_flat_map. intros. apply nadds_alternative. Qed.
  Lemma bars_fst (l l' : list (str * list re)) : map fst l = map fst l' -> bars l = bars l'.
  Proof.
    revert l'; induction l as [|[t r] l IH]; intros [|[t' r'] l']; cbn; try discriminate; [reflexivity|].
    intros [= -> H]. unfold bars in *. f_equal. f_equal. now apply IH.
  Qed.
  Lemma nadds_alternation a : nadds_one (alternation_text a) (nre_alternation a).
  Proof.
    apply nadds_one_group. destruct a as [|b a].
    - apply nadds_nreads with (rs := []), nadds_nil.
    - rewrite removelast_bars. cbn [map].
      rewrite (bars_fst _ (map (fun b => (branch_text b, flat_map nre_alternative b)) a)) by now rewrite !map_map.
      replace (map nre_branch a) with (cats (map (fun b => (branch_text b, flat_map nre_alternative b)) a)).
      + apply nreads_branches; [apply nadds_branch|]. apply Forall_map, Forall_forall. intros x _. apply nadds_branch.
      + unfold cats. rewrite map_map. reflexivity.
  Qed.
  Lemma deepest_text i : deepest_of (re_text i) = 0%nat.
  Proof. unfold ProofExpand.re_text. now induction (unescape (elements i)). Qed.
  Lemma depth_optional o : (depth (nre_optional o) <= 3)%nat.
  Proof. cbn [depth nre_optional]. pose proof (depth_mk_cat (re_text (opt_input o))) as H. rewrite deepest_text in H. lia. Qed.
  Lemma deepest_alternative a : (deepest_of (nre_alternative a) <= 3)%nat.
  Proof. destruct a; cbn [nre_alternative deepest_of]; [pose proof (depth_optional o); lia|]. rewrite deepest_text. lia. Qed.
  Lemma deepest_flat_map {A} (f : A -> list re) n l : (forall x, In x l -> (deepest_of (f x) <= n)%nat) -> (deepest_of (flat_map f l) <= n)%nat.
  Proof.
    induction l as [|x l IH]; intros H; cbn [flat_map]; [cbn; lia|]. rewrite deepest_of_app.
    apply Nat.max_lub; [apply H; now left|apply IH; intros y Hy; apply H; now right].
  Qed.
  Lemma depth_branch b : (depth (nre_branch b) <= 4)%nat.
  Proof.
    pose proof (depth_mk_cat (flat_map nre_alternative b)). unfold nre_branch.
    pose proof (deepest_flat_map nre_alternative 3 b (fun x _ => deepest_alternative x)). lia.
  Qed.
  Lemma depth_alternation a : (depth (nre_alternation a) <= 6)%nat.
  Proof.
    unfold nre_alternation. cbn [depth]. pose proof (depth_mk_alt (map nre_branch a)) as H.
    assert (deepest_of (map nre_branch a) <= 4)%nat; [|lia]. apply deepest_of_le.
    intros r (b & <- & _)%in_map_iff. apply depth_branch.
  Qed.

  (** ** Expressions *)
  Section By.
    Context (tf : parameter I -> str) (nf : parameter I -> re).
    Definition nre_single (x : single_expression I) : list re :=
      match x with
      | ExAlternation a => [nre_alternation a]
      | ExOptional o => [nre_optional o]
      | ExParameter p => [nf p]
      | ExText t | ExWhitespaces t => re_text t
      end.
    Definition nre_by (e : expression I) : re := mk_cat (RLook LStart :: flat_map nre_single e ++ [RLook LEnd]).
    Lemma nadds_single x : (forall p, x = ExParameter p -> nadds_one (tf p) (nf p)) -> nadds (single_text elements tf x) (nre_single x).
    Proof.
      destruct x; cbn; intros H; [apply nadds_one_nadds, nadds_alternation|apply nadds_optional|now apply nadds_one_nadds, H|apply nadds_text|apply nadds_text].
    Qed.
    Lemma nest_by e : (forall p, In p (parameters e) -> nadds_one (tf p) (nf p)) -> nest (text_by elements tf e) = Some (depth (nre_by e)).
    Proof.
      intros H. apply nreads_nest. unfold nre_by, text_by. apply nadds_nreads.
      apply (nadds_app _ _ [RLook LStart]).
      { apply (nadds_quiet (s_ "^")); [cbn; intuition (subst; discriminate)|]. intros m items alts stack []; eexists; (split; [constructor|reflexivity]). }
      apply nadds_app.
      - apply nadds_flat_map. intros x Hx. apply nadds_single. intros p ->. apply H, in_parameters, Hx.
      - apply (nadds_quiet (s_ "$")); [cbn; intuition (subst; discriminate)|]. intros m items alts stack []; eexists; (split; [constructor|reflexivity]).
    Qed.
    Lemma depth_by n e : (11 <= n)%nat -> (forall p, In p (parameters e) -> (depth (nf p) <= n)%nat) -> (depth (nre_by e) <= S n)%nat.
    Proof.
      intros Hn H. unfold nre_by. pose proof (depth_mk_cat (RLook LStart :: flat_map nre_single e ++ [RLook LEnd])) as D.
      cbn [deepest_of] in D. rewrite deepest_of_app in D. cbn [deepest_of depth] in D.
      assert (deepest_of (flat_map nre_single e) <= n)%nat; [|lia].
      apply deepest_flat_map. intros x Hx. destruct x; cbn [nre_single deepest_of]; rewrite ?deepest_text.
      - pose proof (depth_alternation a). lia.
      - pose proof (depth_optional o). lia.
      - specialize (H p (in_parameters e p Hx)). lia.
      - lia.
      - lia.
    Qed.
    Lemma depth_by_in p e : In p (parameters e) -> (S (depth (nf p)) <= depth (nre_by e))%nat.
    Proof.
      intros H. unfold nre_by. assert (Hx : In (ExParameter p) e).
      { unfold parameters in H. apply in_flat_map in H as (x & Hx & Hp). destruct x; cbn in Hp; try easy. destruct Hp as [->|[]]. exact Hx. }
      apply in_split in Hx as (a & b & ->). rewrite flat_map_app. cbn [flat_map nre_single]. rewrite <- app_assoc. cbn [app].
      rewrite app_comm_cons. apply depth_in_cat. now destruct (flat_map nre_single b).
    Qed.
  End By.

  (** ** The built-in parameters *)
  Definition tree (o : outcome state) : re := match o with Done s => match st_items s with [r] => r | _ => REmpty end | _ => REmpty end.
  Definition body_tree (o : outcome state) : re := match o with Done s => body (st_items s) (st_alts s) | _ => REmpty end.
  Definition nre_int := Eval vm_compute in tree (nest_run int_regex init).
  Definition nre_float := Eval vm_compute in tree (nest_run float_regex init).
  Definition nre_word := Eval vm_compute in tree (nest_run word_regex init).
  Definition nre_anonymous := Eval vm_compute in tree (nest_run anonymous_regex init).
  Definition ninside2 := Eval vm_compute in body_tree (nest_run (s_ "[^""\\]*(?:\\.[^""\\]*)*") init).
  Definition ninside1 := Eval vm_compute in body_tree (nest_run (s_ "[^'\\]*(?:\\.[^'\\]*)*") init).
  Definition nre_string (id : N) : re :=
    RCap None (RAlt (RCat (RLit quote2) (RCat (RCap (Some (group_name id 0)) ninside2) (RLit quote2)))
                    (RCat (RLit quote1) (RCat (RCap (Some (group_name id 1)) ninside1) (RLit quote1)))).
  Ltac nread_constant := intros ? items ? stack []; destruct items; destruct stack as [|[[] ? ?] ?]; vm_compute; reflexivity.
  Lemma nadds_int : nadds_one int_regex nre_int. Proof. nread_constant. Qed.
  Lemma nadds_float : nadds_one float_regex nre_float. Proof. nread_constant. Qed.
  Lemma nadds_word : nadds_one word_regex nre_word. Proof. nread_constant. Qed.
  Lemma nadds_anonymous : nadds_one anonymous_regex nre_anonymous. Proof. nread_constant. Qed.
  Lemma nreads_inside2 : nreads (s_ "[^""\\]*(?:\\.[^""\\]*)*") ninside2.
  Proof. intros stack. destruct stack as [|[[] ? ?] ?]; eexists MRep, _, _; (split; [constructor|]; split; vm_compute; reflexivity). Qed.
  Lemma nreads_inside1 : nreads (s_ "[^'\\]*(?:\\.[^'\\]*)*") ninside1.
  Proof. intros stack. destruct stack as [|[[] ? ?] ?]; eexists MRep, _, _; (split; [constructor|]; split; vm_compute; reflexivity). Qed.
  Lemma group_name_quiet id k c : In c (group_name id k) -> c <> c_ ")" /\ c <> c_ "\".
  Proof.
    unfold group_name. rewrite !in_app_iff. pose proof (dec_digits id) as H1. pose proof (dec_digits k) as H2. rewrite Forall_forall in H1, H2.
    intros [H|[H|[H|H]]].
    - cbn in H. intuition (subst; discriminate).
    - apply H1 in H. split; intros ->; discriminate H.
    - cbn in H. intuition (subst; discriminate).
    - apply H2 in H. split; intros ->; discriminate H.
  Qed.
  Lemma nadds_string id : nadds_one (string_regex id) (nre_string id).
  Proof.
    rewrite string_regex_eq. unfold nre_string. apply nadds_one_group.
    rewrite (bars_fst _ [(s_ "'" ++ (s_ "(?P<" ++ group_name id 1 ++ s_ ">" ++ s_ "[^'\\]*(?:\\.[^'\\]*)*" ++ s_ ")") ++ s_ "'",
               [RLit quote1; RCap (Some (group_name id 1)) ninside1; RLit quote1])]) by reflexivity.
    apply (nreads_branches _ [RLit quote2; RCap (Some (group_name id 0)) ninside2; RLit quote2]).
    - apply (nadds_app _ _ [_] [_; _]); [apply nadds_one_nadds, (nadds_quote quote2)|].
      apply (nadds_app _ _ [_] [_]); [|apply nadds_one_nadds, (nadds_quote quote2)].
      apply nadds_one_nadds, nadds_one_named; [easy|apply group_name_readable|apply group_name_quiet|apply nreads_inside2].
    - constructor; [|constructor]. cbn [fst snd].
      apply (nadds_app _ _ [_] [_; _]); [apply nadds_one_nadds, (nadds_quote quote1)|].
      apply (nadds_app _ _ [_] [_]); [|apply nadds_one_nadds, (nadds_quote quote1)].
      apply nadds_one_nadds, nadds_one_named; [easy|apply group_name_readable|apply group_name_quiet|apply nreads_inside1].
  Qed.
  Definition nbuiltin_re (p : parameter I) : re :=
    if str_eqb (name elements p) (s_ "int") then nre_int
    else if str_eqb (name elements p) (s_ "float") then nre_float
    else if str_eqb (name elements p) (s_ "word") then nre_word
    else if str_eqb (name elements p) (s_ "string") then nre_string (par_id p)
    else nre_anonymous.
  Lemma nadds_builtin p : nadds_one (builtin_text elements p) (nbuiltin_re p).
  Proof.
    unfold builtin_text, nbuiltin_re.
    destruct (str_eqb _ (s_ "int")); [apply nadds_int|].
    destruct (str_eqb _ (s_ "float")); [apply nadds_float|].
    destruct (str_eqb _ (s_ "word")); [apply nadds_word|].
    destruct (str_eqb _ (s_ "string")); [apply nadds_string|apply nadds_anonymous].
  Qed.
  Lemma depth_builtin p : (depth (nbuiltin_re p) <= 11)%nat.
  Proof.
    unfold nbuiltin_re.
    destruct (str_eqb _ (s_ "int")); [cbn; lia|].
    destruct (str_eqb _ (s_ "float")); [cbn; lia|].
    destruct (str_eqb _ (s_ "word")); [cbn; lia|].
    destruct (str_eqb _ (s_ "string")); cbn; lia.
  Qed.
End Pieces.

(** ** Without parameters of one's own *)
Lemma limited_new_le limit t r d : regex_new t = Done r -> nest t = Some d -> limited_new limit t = if Nat.leb d limit then Done r else Invalid.
Proof. intros H Hd. unfold limited_new. rewrite H. cbn [obind]. now rewrite Hd. Qed.
Lemma limited_new_spec limit t r : limited_new limit t = Done r <-> regex_new t = Done r /\ exists d, nest t = Some d /\ (d <= limit)%nat.
Proof.
  split.
  - unfold limited_new. destruct (regex_new t) as [r'| |]; cbn [obind]; try discriminate. destruct (nest t) as [d|]; [|discriminate].
    destruct (Nat.leb_spec d limit) as [Hd|Hd]; [|discriminate]. intros [= ->]. eauto.
  - intros (H & d & Hd & Hl). rewrite (limited_new_le _ _ _ _ H Hd). now rewrite (proj2 (Nat.leb_le _ _) Hl).
Qed.
Lemma limited_new_other limit t : (forall r, regex_new t <> Done r) -> limited_new limit t = regex_new t.
Proof. unfold limited_new. destruct (regex_new t) as [r| |]; [intros H; now destruct (H r)|reflexivity..]. Qed.
Lemma regex_new_nest t r : regex_new t = Done r -> exists d, nest t = Some d.
Proof. intros [H _]%regex_new_inv. eapply nest_some, H. Qed.
Lemma nest_builtin e : exists d, nest (builtin_regex frag e) = Some d /\ (d <= 12)%nat.
Proof.
  exists (depth (nre_by frag (nbuiltin_re frag) e)). split.
  - apply nest_by. intros p _. apply nadds_builtin.
  - apply (depth_by frag _ 11); [lia|]. intros p _. apply depth_builtin.
Qed.
Lemma limited_builtin limit s : addressable s -> (12 <= limit)%nat -> limited_regex limit s = expression_regex s.
Proof.
  intros Hs Hl. destruct (parse_total s Hs) as [[e Hp]|[e Hp]].
  2: { unfold limited_regex, regex_by_new, expression_regex, regex_by. now rewrite Hp. }
  unfold limited_regex, regex_by_new, expression_regex, regex_by. rewrite Hp. change iter_elements with frag.
  destruct (all_or_first frag e) as [He|(e1 & p & e2 & -> & H1 & H2)].
  - rewrite collect_builtin by assumption. pose proof (regex_new_builtin frag e (parsed_ids s e Hs Hp)) as E.
    destruct (nest_builtin e) as (d & Hd & Hle). rewrite (limited_new_le _ _ _ _ E Hd), E.
    now rewrite (proj2 (Nat.leb_le d limit)) by lia.
  - now rewrite (unknown_error frag e1 p e2) by assumption.
Qed.
Lemma regex_by_new_all expand s : regex_by_new regex_new expand s = regex_by expand s.
Proof. reflexivity. Qed.
Lemma expand_new_all {I} (elements : I -> str) digits spaces words to_string get e :
  expand_expression_new regex_new elements digits spaces words to_string get e = expand_expression_custom elements digits spaces words to_string get e.
Proof. reflexivity. Qed.

(** ** With parameters of one's own *)
Section Custom.
  Context (limit : nat) (digits spaces words : ranges) (to_string : hir -> str) (get : provider span).
  Context (Hlimit : (12 <= limit)%nat).
  Notation whole := (regex_with_parameters digits spaces words to_string get).
  Notation limited := (limited_regex_with_parameters limit digits spaces words to_string get).
  Notation between := (between digits spaces words to_string).
  Notation regexes := (regexes digits spaces words to_string get).
  Notation too_deep := (too_deep limit get).
  Notation room := (room limit digits spaces words to_string get).
  Notation ctext := (custom_text frag digits spaces words to_string get).
  Notation expand := (expand_custom_new (limited_new limit) frag digits spaces words to_string get).

  Lemma regexes_checked p : regexes p -> custom_checked frag get p.
  Proof. unfold SpecNest.regexes, custom_checked. destruct (get (par_input p)); [|trivial]. intros (r & _ & H & _) _. eauto. Qed.
  Lemma regexes_tree p : regexes p -> exists n, nadds_one (ctext p) n /\ (get (par_input p) = None -> (depth n <= 11)%nat) /\
    (forall v r d, get (par_input p) = Some v -> regex_new v = Done r -> nest (between p v r) = Some d -> depth n = S d).
  Proof.
    unfold SpecNest.regexes, custom_text. destruct (get (par_input p)) as [v|].
    - intros (r & r' & Hv & Hb). destruct (parse_nreads _ _ Hb) as (n & Hn & Hd). exists (RCap None n). split.
      + unfold matcher_text. rewrite Hv. unfold SpecNest.between in *. unfold printed. destruct (contains v (c_ "(") && _).
        * now apply nadds_one_group.
        * apply nadds_one_capture; [|exact Hn]. intros u ->. eapply parse_no_question; eauto.
      + split; [discriminate|]. intros v' r1 d [= <-] Hr1 Hd1. replace r1 with r in * by congruence. cbn [depth]. congruence.
    - intros _. exists (nbuiltin_re frag p). split; [apply nadds_builtin|]. split; [intros _; apply depth_builtin|discriminate].
  Qed.
  Lemma regexes_trees l : Forall regexes l -> exists nf, forall p, In p l -> nadds_one (ctext p) (nf p) /\
    (get (par_input p) = None -> (depth (nf p) <= 11)%nat) /\
    (forall v r d, get (par_input p) = Some v -> regex_new v = Done r -> nest (between p v r) = Some d -> depth (nf p) = S d).
  Proof.
    intros H. exists (fun p => tree (nest_run (ctext p) init)). intros p Hp. rewrite Forall_forall in H.
    destruct (regexes_tree p (H p Hp)) as (n & Hn & H1 & H2).
    unfold init. rewrite (Hn MNormal [] [] [] ready_normal). cbn [tree st_items]. auto.
  Qed.
  Lemma expand_same p : regexes p -> ~ too_deep p -> expand p = ok (ctext p).
  Proof.
    intros Hp Ht. rewrite <- expand_checked by now apply regexes_checked. unfold expand_custom_new, expand_custom.
    unfold SpecNest.regexes in Hp. destruct (get (par_input p)) as [v|] eqn:Ev; [|reflexivity].
    destruct (contains v (c_ "(")) eqn:Ec; [|reflexivity]. destruct Hp as (r & _ & Hv & _).
    destruct (regex_new_nest v r Hv) as [d Hd]. rewrite (limited_new_le _ _ _ _ Hv Hd), Hv.
    destruct (Nat.leb_spec d limit) as [Hl|Hl]; [reflexivity|]. exfalso. apply Ht. exists v, d. repeat split; try assumption. now apply contains_In.
  Qed.
  Lemma expand_deep p v : regexes p -> get (par_input p) = Some v -> too_deep p -> expand p = [IErr (RenameRegexGroup (par_input p) v)].
  Proof.
    intros Hp Ev (v' & d & Hv' & Hc & Hd & Hl). replace v' with v in * by congruence. unfold SpecNest.regexes in Hp. unfold expand_custom_new.
    rewrite Ev in *. destruct Hp as (r & _ & Hv & _). rewrite (proj2 (contains_In _ _) Hc), (limited_new_le _ _ _ _ Hv Hd).
    now rewrite (proj2 (Nat.leb_gt _ _) Hl).
  Qed.
  Lemma limited_text s e : expression_parse s = RetOk e -> Forall regexes (parameters e) -> Forall (fun p => ~ too_deep p) (parameters e) ->
    limited s = match limited_new limit (text_by frag ctext e) with
                | Done r => XOk (text_by frag ctext e) r | Invalid => XRegex | Unsupported => XUnsupported end.
  Proof.
    intros H Hr Ht. unfold limited_regex_with_parameters, regex_by_new. rewrite H.
    change (expand_expression_new (limited_new limit) iter_elements digits spaces words to_string get e) with (expand_by frag expand e).
    rewrite (collect_known frag expand ctext e); [reflexivity|]. intros p Hp. rewrite Forall_forall in Hr, Ht. apply expand_same; auto.
  Qed.
  Lemma whole_text s e : expression_parse s = RetOk e -> Forall regexes (parameters e) ->
    whole s = match regex_new (text_by frag ctext e) with
              | Done r => XOk (text_by frag ctext e) r | Invalid => XRegex | Unsupported => XUnsupported end.
  Proof. intros H Hr. apply whole_checked; [assumption|]. eapply Forall_impl; [|exact Hr]. apply regexes_checked. Qed.
  Lemma between_nest p v r : regexes p -> get (par_input p) = Some v -> regex_new v = Done r -> exists d, nest (between p v r) = Some d.
  Proof.
    unfold SpecNest.regexes. intros H Ev Hr. rewrite Ev in H. destruct H as (r1 & r' & H1 & H2). replace r1 with r in * by congruence.
    eapply nest_some, H2.
  Qed.
  Lemma nest_custom e : Forall regexes (parameters e) -> exists d, nest (text_by frag ctext e) = Some d /\
    (Forall room (parameters e) <-> (d <= limit)%nat).
  Proof.
    intros H. destruct (regexes_trees _ H) as (nf & Hnf). exists (depth (nre_by frag nf e)). split.
    - apply nest_by. intros p Hp. now apply Hnf.
    - rewrite Forall_forall in H. rewrite Forall_forall. split.
      + intros Hroom. destruct limit as [|n]; [lia|]. apply depth_by; [lia|]. intros p Hp. destruct (Hnf p Hp) as (_ & H1 & H2).
        destruct (get (par_input p)) as [v|] eqn:Ev; [|specialize (H1 eq_refl); lia]. clear H1.
        pose proof (H p Hp) as Hr. pose proof Hr as Hr'. unfold SpecNest.regexes in Hr'. rewrite Ev in Hr'. destruct Hr' as (r & _ & Hv & _).
        destruct (between_nest p v r Hr Ev Hv) as [d Hd]. pose proof (Hroom p Hp v r d Ev Hv Hd). rewrite (H2 v r d eq_refl Hv Hd). lia.
      + intros Hd p Hp v r d Ev Hv Hb. pose proof (depth_by_in frag nf p e Hp) as D. destruct (Hnf p Hp) as (_ & _ & H2).
        rewrite (H2 v r d Ev Hv Hb) in D. lia.
  Qed.
  Lemma limited_same s e : expression_parse s = RetOk e -> Forall regexes (parameters e) ->
    Forall (fun p => ~ too_deep p) (parameters e) -> Forall room (parameters e) -> limited s = whole s.
  Proof.
    intros H Hr Ht Hroom. rewrite (limited_text s e H Hr Ht), (whole_text s e H Hr).
    destruct (nest_custom e Hr) as (d & Hd & Hiff). destruct (regex_new (text_by frag ctext e)) as [r| |] eqn:E.
    - rewrite (limited_new_le _ _ _ _ E Hd). apply Hiff in Hroom. now rewrite (proj2 (Nat.leb_le _ _) Hroom).
    - rewrite limited_new_other by (rewrite E; discriminate). now rewrite E.
    - rewrite limited_new_other by (rewrite E; discriminate). now rewrite E.
  Qed.
  Lemma limited_regex_error s e : expression_parse s = RetOk e -> Forall regexes (parameters e) ->
    Forall (fun p => ~ too_deep p) (parameters e) -> ~ Forall room (parameters e) -> limited s = XRegex.
  Proof.
    intros H Hr Ht Hroom. rewrite (limited_text s e H Hr Ht).
    destruct (nest_custom e Hr) as (d & Hd & Hiff).
    assert (Hg : Nat.leb d limit = false) by (apply Nat.leb_gt; rewrite Hiff in Hroom; lia).
    destruct (regex_new (text_by frag ctext e)) as [r| |] eqn:E.
    - rewrite (limited_new_le _ _ _ _ E Hd). now rewrite Hg.
    - rewrite limited_new_other by (rewrite E; discriminate). now rewrite E.
    - exfalso. revert E. assert (Hp : parse_syntax (text_by frag ctext e) <> Unsupported).
      { rewrite (parse_text frag ctext (fun p => match parse_syntax (ctext p) with Done r => [r] | _ => [] end) e); [discriminate|].
        intros p Hp. rewrite Forall_forall in Hr. pose proof (Hr p Hp) as Hq. unfold SpecNest.regexes in Hq. unfold custom_text.
        destruct (get (par_input p)) as [v|].
        - destruct Hq as (r & r' & Hv & Hb). unfold matcher_text. rewrite Hv. unfold SpecNest.between in Hb. unfold printed.
          destruct (contains v (c_ "(") && _).
          + pose proof (parse_group _ _ Hb) as A. rewrite (parse_syntax_reads _ _ (adds_reads _ _ (adds_one_adds _ _ A))). now apply adds_one_adds.
          + pose proof (parse_capture _ _ Hb) as A. rewrite (parse_syntax_reads _ _ (adds_reads _ _ (adds_one_adds _ _ A))). now apply adds_one_adds.
        - pose proof (adds_builtin frag p) as A. rewrite (parse_syntax_reads _ _ (adds_reads _ _ A)). exact A. }
      unfold regex_new. destruct (parse_syntax (text_by frag ctext e)); cbn [obind]; [destruct (distinct _); discriminate|discriminate|now destruct Hp].
  Qed.
  Lemma limited_rename s e1 p e2 v : expression_parse s = RetOk (e1 ++ ExParameter p :: e2) -> Forall regexes (parameters (e1 ++ ExParameter p :: e2)) ->
    Forall (fun p => ~ too_deep p) (parameters e1) -> too_deep p -> get (par_input p) = Some v -> limited s = XExpansion (RenameRegexGroup (par_input p) v).
  Proof.
    intros H Hr Ht Hp Ev. rewrite parameters_app in Hr. apply Forall_app in Hr as [Hr1 Hr2]. cbn in Hr2. inversion_clear Hr2 as [|? ? Hrp _].
    unfold limited_regex_with_parameters, regex_by_new. rewrite H.
    change (expand_expression_new (limited_new limit) iter_elements digits spaces words to_string get (e1 ++ ExParameter p :: e2))
      with (expand_by frag expand (e1 ++ ExParameter p :: e2)).
    rewrite (collect_error frag expand ctext e1 p e2 (RenameRegexGroup (par_input p) v)); [reflexivity| |now apply expand_deep].
    intros q Hq. rewrite Forall_forall in Hr1, Ht. apply expand_same; auto.
  Qed.
End Custom.
