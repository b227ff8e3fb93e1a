(** The reading that a search takes. *)
From Coq Require Import Lia PeanoNat Sorting.Sorted.
From Verif Require Export SpecUnique ProofMatch3.

Lemma first_followed join pre next ws v l : followed join pre next ws = v :: l ->
  exists ws1 w ws2 u k, ws = ws1 ++ w :: ws2 /\
    (forall w', In w' ws1 -> next (pre ++ w_mid w') (w_rest w') = []) /\
    next (pre ++ w_mid w) (w_rest w) = u :: k /\
    v = mkway (w_mid w ++ w_mid u) (w_rest u) (join (w_caps w) (w_caps u)).
Proof.
  induction ws as [|w ws IH]; [discriminate|]. cbn [followed flat_map]. intros H.
  destruct (next (pre ++ w_mid w) (w_rest w)) as [|u k] eqn:E.
  - cbn in H. apply IH in H as (ws1 & w1 & ws2 & u & k & -> & H1 & H2 & H3).
    exists (w :: ws1), w1, ws2, u, k. repeat split; try assumption. intros w' [<-|H]; [exact E|now apply H1].
  - cbn in H. injection H as <- _. exists [], w, ws, u, k. repeat split; [easy|exact E].
Qed.

(** ** Regexes of the elements that match what the elements mean, in an order of preference *)
Section Order.
  Context {I : Type} (text : I -> str) (digit space word : char -> bool).
  Context (param : parameter I -> str -> list (option str) -> Prop).
  Context (res : single_expression I -> list re) (pref : single_expression I -> str -> str -> Prop).
  Notation ways := (ways digit space word).
  Notation pieces := (SpecExpand.pieces text param).
  (** What is needed of an element. *)
  Record ordered_element (x : single_expression I) : Prop := {
    oe_value : forall p v v', single_means text param x p v -> single_means text param x p v' -> v = v';
    oe_order : forall pre s p p' v v' r r', single_means text param x p v -> single_means text param x p' v' -> p ++ r = p' ++ r' ->
      s = p ++ r -> earlier p p' (map w_mid (ways (mk_cat (res x)) pre s)) -> pref x p p';
    oe_rm : forall pre m post c, rm digit space word (mk_cat (res x)) pre m post c <-> single_means text param x m c
  }.
  Definition tail_by (e : expression I) : re := mk_cat (flat_map res e ++ [RLook LEnd]).
  Lemma tail_by_some e : Forall ordered_element e -> forall pre s l, pieces e l -> List.concat (map fst l) = s -> ways (tail_by e) pre s <> [].
  Proof.
    intros He pre s l Hl Hs. assert (Hr : exists c, rm digit space word (tail_by e) pre s [] c).
    { exists (List.concat (map snd l)). revert pre s Hs. induction Hl as [|x [p v] e l Hx Hl IH]; intros pre s <-.
      - cbn. constructor.
      - inversion_clear He as [|? ? Ho He']. unfold tail_by. cbn [flat_map map List.concat fst snd]. rewrite <- app_assoc, rml_mk_cat, rml_app.
        exists p, (List.concat (map fst l)), v, (List.concat (map snd l)). repeat split.
        + rewrite <- rml_mk_cat. now apply (oe_rm x Ho).
        + rewrite <- rml_mk_cat. now apply IH. }
    destruct Hr as [c Hr]. apply ways_complete in Hr as (c' & Hr). rewrite app_nil_r in Hr. now destruct (ways (tail_by e) pre s).
  Qed.
  Lemma tail_by_best e : Forall ordered_element e -> forall pre s u k, ways (tail_by e) pre s = u :: k ->
    w_mid u = s /\ w_rest u = [] /\ exists l, best_by text pref param e s l /\ w_caps u = List.concat (map snd l).
  Proof.
    induction e as [|x e IH]; intros He pre s u k Hu.
    - cbn in Hu. destruct s as [|c s]; [|discriminate]. injection Hu as <- _. cbn. repeat split. exists []. split; [|reflexivity].
      repeat split; [constructor|]. intros l' H _. inversion H; subst. now left.
    - inversion_clear He as [|? ? Hx He'].
      unfold tail_by in Hu. cbn [flat_map] in Hu. rewrite <- app_assoc, ways_app in Hu. fold (tail_by e) in Hu.
      apply first_followed in Hu as (ws1 & w & ws2 & v & k' & Ews & Hskip & Hv & ->).
      assert (Hw : In w (ways (mk_cat (res x)) pre s)) by (rewrite Ews; apply in_elt).
      apply ways_sound in Hw as [Es Hw]. apply (oe_rm x Hx) in Hw.
      apply IH in Hv as (Hm & Hr & l & (Hl & Hc & Hbest) & Hcaps); [|exact He'].
      cbn [w_mid w_rest w_caps]. rewrite Hm, Hr. split; [symmetry; exact Es|]. split; [reflexivity|].
      exists ((w_mid w, w_caps w) :: l). split; [|cbn; now rewrite Hcaps].
      split; [now constructor|]. split; [cbn; now rewrite Hc|].
      intros l' Hl' Hc'. inversion Hl' as [|? [p' v'] ? l1 Hx' He'']; subst. cbn in Hc'.
      destruct (list_eq_dec N.eq_dec p' (w_mid w)) as [->|Hd].
      + assert (v' = w_caps w) as -> by (eapply (oe_value x Hx); eassumption).
        apply app_inv_head in Hc'. destruct (Hbest l1 He'' Hc') as [->|Hb]; [now left|right]. now constructor.
      + right. apply better_here. apply (oe_order x Hx pre (w_mid w ++ w_rest w) _ _ (w_caps w) v' (w_rest w) (List.concat (map fst l1))); try assumption; [symmetry; exact Hc'|reflexivity|].
        rewrite Ews, map_app. cbn [map].
        assert (Hp' : exists c', In (mkway p' (List.concat (map fst l1)) c') (ways (mk_cat (res x)) pre (w_mid w ++ w_rest w))).
        { rewrite <- Hc'. eapply ways_complete. apply (oe_rm x Hx). exact Hx'. }
        destruct Hp' as [c' Hp'].
        assert (Hn : ~ In p' (map w_mid ws1)).
        { intros (w' & <- & Hw')%in_map_iff. specialize (Hskip w' Hw').
          assert (Hrest : w_rest w' = List.concat (map fst l1)).
          { assert (Hw2 : In w' (ways (mk_cat (res x)) pre (w_mid w ++ w_rest w))) by (rewrite Ews; apply in_or_app; now left).
            apply ways_sound in Hw2 as [E2 _]. rewrite E2 in Hc'. now apply app_inv_head in Hc'. }
          rewrite Hrest in Hskip. revert Hskip. now apply tail_by_some with l1. }
        exists (map w_mid ws1), (map w_mid ws2). repeat split; try assumption.
        rewrite Ews in Hp'. apply (in_map w_mid) in Hp'. cbn [w_mid] in Hp'. rewrite map_app in Hp'. cbn [map] in Hp'.
        apply in_app_or in Hp' as [H|[H|H]]; [easy|congruence|exact H].
  Qed.
  Lemma better_by_asym e l l' : (forall x p p', In x e -> pref x p p' -> pref x p' p -> False) ->
    better_by pref e l l' -> better_by pref e l' l -> False.
  Proof.
    intros Ha H. induction H as [x e p v l p' v' l' H|x e y l l' _ IH]; intros H'; inversion H'; subst.
    - eapply Ha; [now left|eassumption..].
    - eapply Ha; [now left|eassumption..].
    - eapply Ha; [now left|eassumption..].
    - apply IH; [|assumption]. intros z p p' Hz. apply Ha. now right.
  Qed.
  Lemma best_by_unique e s l l' : (forall x p p', In x e -> pref x p p' -> pref x p' p -> False) ->
    best_by text pref param e s l -> best_by text pref param e s l' -> l = l'.
  Proof.
    intros Ha (H1 & H2 & H3) (H1' & H2' & H3'). destruct (H3 l' H1' H2') as [->|Hb]; [reflexivity|].
    destruct (H3' l H1 H2) as [->|Hb']; [reflexivity|]. exfalso. eapply better_by_asym; eassumption.
  Qed.
  Lemma search_anchored_by e s : search digit space word (mk_cat (RLook LStart :: flat_map res e ++ [RLook LEnd])) [] s =
    match ways (tail_by e) [] s with w :: _ => Some ([], w) | [] => None end.
  Proof.
    set (r := mk_cat _).
    assert (E : forall pre s, ways r pre s = match pre with [] => ways (tail_by e) [] s | _ => [] end).
    { intros pre s'. unfold r. rewrite ways_cons. fold (tail_by e). cbn [Match.ways]. destruct pre; [|reflexivity].
      apply followed_nothing. }
    assert (Hno : forall s c pre, search digit space word r (c :: pre) s = None).
    { induction s0 as [|d s0 IH]; intros c pre; cbn [search]; rewrite E; [reflexivity|]. apply IH. }
    destruct s as [|c s]; cbn [search]; rewrite E; destruct (ways (tail_by e) [] _); try reflexivity. apply Hno.
  Qed.
  Lemma captures_best_by e s c : Forall ordered_element e -> (forall x p p', In x e -> pref x p p' -> pref x p' p -> False) ->
    captures digit space word (mk_cat (RLook LStart :: flat_map res e ++ [RLook LEnd])) s = Some c <->
    exists l, best_by text pref param e s l /\ c = Some s :: List.concat (map snd l).
  Proof.
    intros He Ha. unfold captures. rewrite search_anchored_by. destruct (ways (tail_by e) [] s) as [|w k] eqn:E; cbn [option_map].
    - split; [discriminate|]. intros (l & (H1 & H2 & _) & _). exfalso. revert E. now apply tail_by_some with l.
    - apply tail_by_best in E as (Hm & _ & l & Hl & Hc); [|exact He]. rewrite Hm, Hc. split.
      + intros H. injection H as <-. eauto.
      + intros (l' & Hl' & ->). now rewrite (best_by_unique e s l l' Ha Hl Hl').
  Qed.
End Order.

Section Reading.
  Context {I : Type} (text : I -> str) (digit space word : char -> bool) (Hdigit : plain_digits digit).
  Notation param := (fun p => typed digit space (text (@par_input I p))).
  Notation pieces := (pieces text param).
  Notation ways := (ways digit space word).
  Notation prefers := (prefers text).
  Notation re_single := (re_single text (builtin_re text)).

  Lemma single_value x p v v' : single_means text param x p v -> single_means text param x p v' -> v = v'.
  Proof. destruct x; cbn; [intros [_ ->] [_ ->]; reflexivity|intros [_ ->] [_ ->]; reflexivity|apply typed_value|intros [_ ->] [_ ->]; reflexivity|intros [_ ->] [_ ->]; reflexivity]. Qed.

  Lemma earlier_among p p' cs s : earlier p p' (among cs s) -> earlier p p' cs.
  Proof.
    intros H. eapply earlier_filter; [|exact H]. destruct H as (l1 & l2 & E & _ & _ & Hi).
    assert (Hp : In p' (among cs s)) by (rewrite E; apply in_or_app; right; now right).
    now apply filter_In in Hp.
  Qed.
  (** What comes first among the ways of an element is preferred. *)
  Lemma element_order x pre s p p' v v' r r' : all_built_in text [x] ->
    single_means text param x p v -> single_means text param x p' v' -> p ++ r = p' ++ r' ->
    earlier p p' (map w_mid (ways (mk_cat (re_single x)) pre s)) -> prefers x p p'.
  Proof.
    intros Hb H H' E. destruct x as [a|o|q|t|t]; cbn [ProofExpand.re_single mk_cat].
    - destruct a as [|b a].
      + cbn. intros (l1 & l2 & El & _ & _ & Hi). destruct l1 as [|? [|]]; try discriminate. injection El as <- <-. easy.
      + rewrite (lists_alternation _ _ _ text) by easy. apply earlier_among.
    - rewrite (lists_optional _ _ _ text). apply earlier_among.
    - cbn in H, H'. inversion Hb as [|? ? Hq _]; subst. unfold builtin_re, name. cbn [mk_cat SpecMatch.prefers]. unfold built_in in Hq.
      assert (Hs : forall n m, n = m -> str_eqb n m = true) by (intros; now apply str_eqb_eq).
      destruct (list_eq_dec N.eq_dec (text (par_input q)) (s_ "string")) as [Es|Es].
      + intros (_ & _ & _ & _ & Hd & _). apply Hd. now destruct (string_prefix _ _ _ _ _ _ _ _ _ Es H H' E) as (-> & _).
      + destruct (list_eq_dec N.eq_dec (text (par_input q)) (s_ "float")) as [Ef|Ef].
        * rewrite Ef. change (str_eqb (s_ "float") (s_ "int")) with false. change (str_eqb (s_ "float") (s_ "float")) with true.
          cbv iota. rewrite lists_float. now apply floats_ordered.
        * destruct Hq as [Eq|[Eq|[Eq|[Eq|[Eq|[]]]]]]; [|congruence| |congruence|]; rewrite <- Eq.
          -- change (str_eqb (s_ "int") (s_ "int")) with true. cbv iota. rewrite lists_int. now apply ints_ordered.
          -- change (str_eqb (s_ "word") (s_ "int")) with false. change (str_eqb (s_ "word") (s_ "float")) with false.
             change (str_eqb (s_ "word") (s_ "word")) with true. cbv iota. rewrite lists_word.
             apply (sorted_ordered longer), plus_sorted.
          -- change (str_eqb [] (s_ "int")) with false. change (str_eqb [] (s_ "float")) with false.
             change (str_eqb [] (s_ "word")) with false. change (str_eqb [] (s_ "string")) with false.
             cbv iota. rewrite lists_anonymous. apply (sorted_ordered longer), runs_sorted.
    - cbn in H, H'. destruct H as [-> _], H' as [-> _]. intros (_ & _ & _ & _ & Hd & _). now apply Hd.
    - cbn in H, H'. destruct H as [-> _], H' as [-> _]. intros (_ & _ & _ & _ & Hd & _). now apply Hd.
  Qed.

  Lemma rm_single x pre m post c : all_built_in text [x] ->
    rm digit space word (mk_cat (re_single x)) pre m post c <-> single_means text param x m c.
  Proof.
    intros Hb. rewrite rml_mk_cat.
    rewrite (rml_single text (builtin_re text) digit space word (fun p _ s _ v => typed digit space (text (par_input p)) s v)).
    - reflexivity.
    - intros p -> pre' m' post' c'. apply rml_builtin. now inversion Hb.
  Qed.
  Lemma built_in_cons x e : all_built_in text (x :: e) <-> all_built_in text [x] /\ all_built_in text e.
  Proof. unfold all_built_in. change (x :: e) with ([x] ++ e). rewrite parameters_app. apply Forall_app. Qed.
  Lemma element_ordered e : all_built_in text e -> Forall (ordered_element text digit space word param re_single prefers) e.
  Proof.
    induction e as [|x e IH]; intros He; [constructor|]. apply built_in_cons in He as [Hx He]. constructor; [|now apply IH]. constructor.
    - apply single_value.
    - intros pre s p p' v v' r r' H H' E _. now apply element_order with v v' r r'.
    - intros. now apply rm_single.
  Qed.

  (** ** A best reading is the only one *)
  Lemma prefers_asym x p p' : prefers x p p' -> prefers x p' p -> False.
  Proof.
    destruct x as [a|o|q|t|t]; cbn.
    - apply earlier_asym.
    - apply earlier_asym.
    - destruct (list_eq_dec _ _ _); [easy|]. destruct (list_eq_dec _ _ _); unfold shorter; [|lia].
      intros [[H1 H2]|[H1 H2]] [[H3 H4]|[H3 H4]]; try lia; tauto.
    - easy.
    - easy.
  Qed.
  Lemma best_unique e s l l' : best text param e s l -> best text param e s l' -> l = l'.
  Proof. apply best_by_unique. intros x p p' _. apply prefers_asym. Qed.
  Lemma captures_best e s c : all_built_in text e ->
    captures digit space word (re_of text e) s = Some c <->
    exists l, best text param e s l /\ c = Some s :: List.concat (map snd l).
  Proof.
    intros He. apply captures_best_by; [now apply element_ordered|]. intros x p p' _. apply prefers_asym.
  Qed.
End Reading.

(** ** [Expression::regex] *)
Lemma regex_takes_best s e t r : addressable s -> expression_parse s = RetOk e -> expression_regex s = XOk t r ->
  forall digit space word, plain_digits digit -> forall subject c,
    captures digit space word r subject = Some c <->
    exists l, best frag (fun p => typed digit space (frag (par_input p))) e subject l /\
      c = Some subject :: List.concat (map snd l).
Proof.
  intros Hs H Hr digit space word Hd subject c. destruct (regex_inv s e t r Hs H Hr) as (He & _ & ->).
  now apply captures_best.
Qed.
Lemma captures_reading s e t r : addressable s -> expression_parse s = RetOk e -> expression_regex s = XOk t r ->
  forall digit space word subject,
    (captures digit space word r subject = None <->
     ~ exists v, means frag (fun p => typed digit space (frag (par_input p))) e subject v) /\
    forall c, captures digit space word r subject = Some c ->
      exists v, c = Some subject :: v /\ means frag (fun p => typed digit space (frag (par_input p))) e subject v.
Proof.
  intros Hs H Hr digit space word subject. destruct (regex_inv s e t r Hs H Hr) as (He & _ & ->).
  unfold captures. destruct (search digit space word (re_of frag e) [] subject) as [[p w]|] eqn:E; cbn [option_map].
  - apply search_some in E as (q & -> & -> & Hw & _). cbn [app] in Hw. apply rm_builtin in Hw as (-> & Hq & Hw); [|exact He].
    rewrite Hq. cbn [app]. rewrite app_nil_r. split.
    + split; [discriminate|]. intros Hn. exfalso. eauto.
    + intros c Hc. injection Hc as <-. eauto.
  - split; [|discriminate]. split; [|reflexivity]. intros _ [v Hv].
    eapply (search_none _ _ _ _ _ _ E [] subject [] v); [now rewrite app_nil_r|]. apply rm_builtin; auto.
Qed.
Lemma captures_lucid s e t r : addressable s -> expression_parse s = RetOk e -> expression_regex s = XOk t r ->
  forall digit space word, lucid frag digit space e -> forall subject v,
    captures digit space word r subject = Some (Some subject :: v) <->
    means frag (fun p => typed digit space (frag (par_input p))) e subject v.
Proof.
  intros Hs H Hr digit space word Hl subject v.
  destruct (captures_reading s e t r Hs H Hr digit space word subject) as [Hn Hc].
  destruct (captures digit space word r subject) as [c|].
  - destruct (Hc c eq_refl) as (w & -> & Hw). split.
    + intros E. injection E as <-. exact Hw.
    + intros Hv. now rewrite (lucid_unique frag digit space e Hl subject v w Hv Hw).
  - split; [discriminate|]. intros Hv. exfalso. apply Hn; [reflexivity|]. eauto.
Qed.

(** ** Loops *)
(** May [r] match the empty string? *)
Fixpoint maybe_empty (r : re) : bool :=
  match r with
  | REmpty | RLook _ => true
  | RLit _ | RDot | RClass _ => false
  | RRep min _ _ r => (min =? 0) || maybe_empty r
  | RCap _ r => maybe_empty r
  | RCat a b => maybe_empty a && maybe_empty b
  | RAlt a b => maybe_empty a || maybe_empty b
  end.
Lemma maybe_empty_sound digit space word r : maybe_empty r = false -> forall p q c, ~ rm digit space word r p [] q c.
Proof.
  enough (H : (forall r p m q c, rm digit space word r p m q c -> m = [] -> maybe_empty r = true) /\
    (forall k r p m q c, rms digit space word k r p m q c -> m = [] -> k = O \/ maybe_empty r = true)).
  { intros E p q c Hm. apply (proj1 H) in Hm; [congruence|reflexivity]. }
  apply rm_rms_ind; cbn [maybe_empty]; intros; try reflexivity; try discriminate; auto.
  - apply app_eq_nil in H1 as [-> ->]. now rewrite H, H0.
  - now rewrite H.
  - rewrite H by assumption. apply orb_true_r.
  - destruct (H H0) as [-> | ->]; [|apply orb_true_r]. replace (min =? 0) with true; [reflexivity|]. symmetry. apply N.eqb_eq. lia.
  - apply app_eq_nil in H1 as [-> ->]. right. now apply H.
Qed.
Fixpoint loops_ok (r : re) : bool :=
  match r with
  | REmpty | RLit _ | RDot | RClass _ | RLook _ => true
  | RRep _ max _ r => loops_ok r && (match max with Some n => n <=? 1 | None => false end || negb (maybe_empty r))
  | RCap _ r => loops_ok r
  | RCat a b | RAlt a b => loops_ok a && loops_ok b
  end.
Lemma loops_ok_sound digit space word r : loops_ok r = true -> proper_loops digit space word r.
Proof.
  induction r as [|c| |k|l|min max g r IH|n r IH|a IHa b IHb|a IHa b IHb]; cbn [loops_ok proper_loops]; auto.
  - intros [H1 H2]%andb_prop. split; [auto|]. apply orb_prop in H2 as [H2|H2].
    + left. destruct max as [n|]; [|discriminate]. exists n. split; [reflexivity|now apply N.leb_le].
    + right. apply maybe_empty_sound. now apply negb_true_iff.
  - intros [H1 H2]%andb_prop. auto.
  - intros [H1 H2]%andb_prop. auto.
Qed.
Lemma loops_cat l : forallb loops_ok l = true -> loops_ok (mk_cat l) = true.
Proof.
  induction l as [|r [|r' l] IH]; intros H; [reflexivity|now apply andb_prop in H|]. cbn in H |- *.
  apply andb_prop in H as [H1 H2]. rewrite H1. now apply IH.
Qed.
Lemma loops_alt l : forallb loops_ok l = true -> loops_ok (mk_alt l) = true.
Proof.
  induction l as [|r [|r' l] IH]; intros H; [reflexivity|now apply andb_prop in H|]. cbn in H |- *.
  apply andb_prop in H as [H1 H2]. rewrite H1. now apply IH.
Qed.
Lemma forallb_flat_map {A B} (f : B -> bool) (g : A -> list B) l : (forall x, In x l -> forallb f (g x) = true) -> forallb f (flat_map g l) = true.
Proof. induction l as [|x l IH]; cbn; intros H; [reflexivity|]. rewrite forallb_app, H by now left. apply IH. auto. Qed.
Lemma loops_lits t : forallb loops_ok (map RLit t) = true.
Proof. induction t; [reflexivity|exact IHt]. Qed.
Lemma loops_of {I} (text : I -> str) e : loops_ok (re_of text e) = true.
Proof.
  assert (Ho : forall o, loops_ok (re_optional text o) = true).
  { intros o. cbn [re_optional loops_ok]. rewrite loops_cat by apply loops_lits. reflexivity. }
  apply loops_cat. cbn [forallb loops_ok andb]. rewrite forallb_app. rewrite forallb_flat_map; [reflexivity|].
  intros [a|o|p|t|t] _; cbn [re_single].
  - cbn [forallb]. rewrite andb_true_r. apply loops_alt, forallb_forall. intros r (b & <- & _)%in_map_iff.
    apply loops_cat, forallb_flat_map. intros [o|t] _; cbn [re_alternative]; [cbn [forallb]; now rewrite Ho|apply loops_lits].
  - cbn [forallb]. now rewrite Ho.
  - unfold builtin_re. cbn [forallb]. rewrite andb_true_r.
    repeat (destruct (str_eqb _ _); [reflexivity|]). reflexivity.
  - apply loops_lits.
  - apply loops_lits.
Qed.
Lemma regex_loops s t r : addressable s -> expression_regex s = XOk t r ->
  forall digit space word, proper_loops digit space word r.
Proof.
  intros Hs Hr digit space word. pose proof Hr as Hr'. unfold expression_regex, regex_by in Hr'.
  destruct (expression_parse s) as [e| | |] eqn:E; try discriminate Hr'.
  destruct (regex_inv s e t r Hs E Hr) as (_ & _ & ->). apply loops_ok_sound, loops_of.
Qed.
