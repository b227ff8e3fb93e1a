(** The automaton recognises the accepted expressions; consequences for prefixes. *)
From Verif Require Export ProofGrammar SpecPrefix.

Definition run (q : state) (s : str) : state := fold_left step s q.
Lemma run_app q a b : run q (a ++ b) = run (run q a) b.
Proof. apply fold_left_app. Qed.
Lemma run_cons q c b : run q (c :: b) = run (step q c) b.
Proof. reflexivity. Qed.
Lemma run_dead s : run Dead s = Dead.
Proof. induction s as [|c s IH]; [reflexivity|exact IH]. Qed.

Lemma existsb_in c t : existsb (N.eqb c) t = true <-> In c t.
Proof.
  rewrite existsb_exists. split; [intros (x & H & E); apply N.eqb_eq in E; now subst|].
  intros H. exists c. split; [assumption|apply N.eqb_refl].
Qed.
Lemma existsb_not_in c t : existsb (N.eqb c) t = false <-> ~ In c t.
Proof. rewrite <- existsb_in. now destruct (existsb _ _). Qed.

(** ** One char *)
Ltac chars := repeat match goal with
  | |- context[?c =? ?k] => destruct (c =? k) eqn:?
  | |- context[existsb (N.eqb ?c) ?t] => destruct (existsb (N.eqb c) t) eqn:?
  end;
  repeat match goal with
  | H : (_ =? _) = true |- _ => apply N.eqb_eq in H
  | H : (_ =? _) = false |- _ => apply N.eqb_neq in H
  | H : existsb _ _ = true |- _ => apply existsb_in in H
  | H : existsb _ _ = false |- _ => apply existsb_not_in in H
  end.
Ltac by_chars := chars; subst; try reflexivity; try (exfalso; cbn in *; intuition congruence).
Lemma step_text w c : ~ In c text_special -> step (Outside w) c = Outside Has.
Proof. intros H. cbn [step]. unfold outside. by_chars. Qed.
Lemma step_optional w c : ~ In c optional_special -> step (Optional w) c = Optional w.
Proof. intros H. cbn [step]. unfold in_optional. by_chars. Qed.
Lemma step_optional_start w c : ~ In c optional_special -> step (OptionalStart w) c = Optional w.
Proof. intros H. cbn [step]. unfold in_optional. by_chars. Qed.
Lemma step_name c : ~ In c name_special -> step Name c = Name.
Proof. intros H. cbn [step]. by_chars. Qed.
Lemma step_escaping q c : In c reserved -> escaping q c = q.
Proof. intros H. unfold escaping. by_chars. Qed.

(** ** Contents *)
Lemma run_text t : content text_special t -> forall w,
  run (Outside w) t = Outside (match t with [] => w | _ => Has end).
Proof.
  induction 1 as [|c t H _ IH|c t H _ IH]; intros w; [reflexivity| |].
  - rewrite run_cons, step_text, IH by assumption. now destruct t.
  - rewrite !run_cons. change (step (Outside w) backslash) with Escape. cbn [step].
    rewrite step_escaping, IH by assumption. now destruct t.
Qed.
Lemma run_optional t : content optional_special t -> forall w, run (Optional w) t = Optional w.
Proof.
  induction 1 as [|c t H _ IH|c t H _ IH]; intros w; [reflexivity| |].
  - now rewrite run_cons, step_optional, IH.
  - rewrite !run_cons. change (step (Optional w) backslash) with (OptionalEscape w). cbn [step].
    now rewrite step_escaping, IH.
Qed.
Lemma run_optional_start t : content optional_special t -> t <> [] -> forall w,
  run (OptionalStart w) t = Optional w.
Proof.
  intros [|c t' H Ht|c t' H Ht] Hne w; [easy| |].
  - rewrite run_cons, step_optional_start by assumption. now apply run_optional.
  - rewrite !run_cons. change (step (OptionalStart w) backslash) with (OptionalEscape w). cbn [step].
    rewrite step_escaping by assumption. now apply run_optional.
Qed.
Lemma run_name t : content name_special t -> run Name t = Name.
Proof.
  induction 1 as [|c t H _ IH|c t H _ IH]; [reflexivity| |].
  - now rewrite run_cons, step_name.
  - rewrite !run_cons. change (step Name backslash) with NameEscape. cbn [step].
    now rewrite step_escaping.
Qed.

(** ** The grammar is accepted. *)
Lemma lang_optional s : Corrected.optional s -> forall w, run (Outside w) s = Outside w.
Proof.
  intros H w. apply optional_lang in H as (o & [Hne Ho] & ->). unfold src_optional.
  rewrite !run_app. change (run (Outside w) (s_ "(")) with (OptionalStart w).
  now rewrite run_optional_start.
Qed.
Lemma lang_parameter s : Corrected.parameter s -> forall w, w <> Needs -> run (Outside w) s = Outside Fresh.
Proof.
  intros H w Hw. apply parameter_lang in H as (t & Ht & ->). rewrite !run_app.
  assert (E : run (Outside w) (s_ "{") = Name) by now destruct w. now rewrite E, run_name.
Qed.
Lemma lang_text s : Corrected.text s -> forall w, run (Outside w) s = Outside Has.
Proof.
  intros H w. apply unit_content in H as [H Hne]. rewrite run_text by exact H. now destruct s.
Qed.
Lemma lang_items s : star item_lang s -> forall w,
  run (Outside w) s = Outside w \/ run (Outside w) s = Outside Has.
Proof.
  induction 1 as [|x y Hx _ IH]; intros w; [now left|]. rewrite run_app.
  destruct Hx as [Hx|Hx]; [rewrite lang_text by assumption; destruct (IH Has); auto|].
  now rewrite lang_optional.
Qed.
Lemma lang_has s : star item_lang s -> run (Outside Has) s = Outside Has.
Proof. intros H. now destruct (lang_items s H Has). Qed.
Lemma lang_branch s : Corrected.single_alternation s -> forall w, run (Outside w) s = Outside Has.
Proof.
  intros (x & y & Hx & (t & z & Ht & Hz & ->) & ->) w. rewrite !run_app.
  destruct (lang_items x Hx w) as [-> | ->]; rewrite lang_text by assumption; now apply lang_has.
Qed.
Lemma lang_alternation s : Corrected.alternation s -> forall w, run (Outside w) s = Outside Has.
Proof.
  intros (x & y & Hx & Hy & ->) w. rewrite run_app, lang_branch by assumption. clear x Hx.
  apply plus_star in Hy. induction Hy as [|x y (u & v & -> & Hv & ->) _ IH]; [reflexivity|].
  rewrite !run_app. change (run (Outside Has) (s_ "/")) with (Outside Needs).
  now rewrite lang_branch.
Qed.
Lemma lang_single s : Corrected.single_expression s -> forall w, w <> Needs ->
  exists w', w' <> Needs /\ run (Outside w) s = Outside w'.
Proof.
  intros H w Hw. destruct H as [H|[H|[H|[H|H]]]].
  - exists Has. split; [easy|now apply lang_alternation].
  - exists w. split; [assumption|now apply lang_optional].
  - exists Fresh. split; [easy|now apply lang_parameter].
  - exists Has. split; [easy|]. apply content_plus in H as [H Hne]. rewrite run_text by exact H. now destruct s.
  - apply plus_star in H. revert w Hw. induction H as [|x y -> _ IH]; intros w Hw; [now exists w|].
    rewrite run_app. assert (E : run (Outside w) (s_ " ") = Outside Fresh) by now destruct w.
    rewrite E. now apply IH.
Qed.
Lemma lang_expression s : Corrected.expression s -> forall w, w <> Needs ->
  exists w', w' <> Needs /\ run (Outside w) s = Outside w'.
Proof.
  induction 1 as [|x y Hx _ IH]; intros w Hw; [now exists w|].
  destruct (lang_single x Hx w Hw) as (w' & Hw' & E). rewrite run_app, E. now apply IH.
Qed.

(** ** What is accepted is in the grammar: what has been read in each state. *)
Inductive branches : lang :=
| branches_one b : Corrected.single_alternation b -> branches b
| branches_more c b : branches c -> Corrected.single_alternation b -> branches (c ++ s_ "/" ++ b).
Definition at_word (w : word) (u : str) : Prop :=
  match w with
  | Fresh => exists p o, Corrected.expression p /\ star Corrected.optional o /\ u = p ++ o
  | Needs => exists p c o, Corrected.expression p /\ branches c /\ star Corrected.optional o /\
      u = p ++ c ++ s_ "/" ++ o
  | Has => exists p c, Corrected.expression p /\ branches c /\ u = p ++ c
  end.
Definition has_read (q : state) (p : str) : Prop :=
  match q with
  | Outside w => at_word w p
  | Escape => exists w u, at_word w u /\ p = u ++ [backslash]
  | OptionalStart w => exists u, at_word w u /\ p = u ++ s_ "("
  | Optional w => exists u t, at_word w u /\ content optional_special t /\ t <> [] /\ p = u ++ s_ "(" ++ t
  | OptionalEscape w => exists u t, at_word w u /\ content optional_special t /\
      p = u ++ s_ "(" ++ t ++ [backslash]
  | Name => exists u t, Corrected.expression u /\ content name_special t /\ p = u ++ s_ "{" ++ t
  | NameEscape => exists u t, Corrected.expression u /\ content name_special t /\
      p = u ++ s_ "{" ++ t ++ [backslash]
  | Dead => True
  end.

Lemma optional_items o : star Corrected.optional o -> star item_lang o.
Proof. apply star_mono. intros s H. now right. Qed.
Lemma items_expression s : star item_lang s -> Corrected.expression s.
Proof.
  apply star_mono. intros x [H|H]; [|now right; left]. do 3 right. left.
  exists x, []. rewrite app_nil_r. repeat split; [assumption|constructor].
Qed.
Lemma branch_more b x : Corrected.single_alternation b -> star item_lang x -> Corrected.single_alternation (b ++ x).
Proof.
  intros (p & q & Hp & (t & r & Ht & Hr & ->) & ->) Hx. exists p, (t ++ r ++ x). split; [assumption|].
  split; [|now rewrite <- !app_assoc]. exists t, (r ++ x). split; [assumption|]. split; [|reflexivity].
  now apply star_concat.
Qed.
Lemma branches_items c x : branches c -> star item_lang x -> branches (c ++ x).
Proof.
  intros [b Hb|c' b Hc Hb] Hx; [constructor; now apply branch_more|].
  rewrite <- !app_assoc. constructor; [assumption|now apply branch_more].
Qed.
Lemma branches_lang c : branches c ->
  exists b y, Corrected.single_alternation b /\
    star (seq (lit (s_ "/")) Corrected.single_alternation) y /\ c = b ++ y.
Proof.
  induction 1 as [b Hb|c b _ (b' & y & H1 & H2 & ->) Hb].
  - exists b, []. rewrite app_nil_r. repeat split; [assumption|constructor].
  - exists b', (y ++ s_ "/" ++ b). split; [assumption|]. split; [|now rewrite <- app_assoc].
    apply star_concat; [assumption|]. apply star_one. exists (s_ "/"), b. now repeat split.
Qed.
Lemma branches_expression c : branches c -> Corrected.expression c.
Proof.
  intros H. apply branches_lang in H as (b & y & Hb & Hy & ->). destruct Hy as [|x y Hx Hy].
  - rewrite app_nil_r. now apply items_expression, group_star.
  - apply star_one. left. exists b, (x ++ y). split; [assumption|]. split; [|reflexivity]. now exists x, y.
Qed.
Lemma word_expression w u : at_word w u -> w <> Needs -> Corrected.expression u.
Proof.
  destruct w; [|easy|]; intros H _.
  - destruct H as (p & o & Hp & Ho & ->). apply star_concat; [assumption|].
    now apply items_expression, optional_items.
  - destruct H as (p & c & Hp & Hc & ->). apply star_concat; [assumption|]. now apply branches_expression.
Qed.
Lemma word_optional w u o : at_word w u -> Corrected.optional o -> at_word w (u ++ o).
Proof.
  intros H Ho. destruct w.
  - destruct H as (p & x & Hp & Hx & ->). exists p, (x ++ o). split; [assumption|].
    split; [|now rewrite app_assoc]. apply star_concat; [assumption|now apply star_one].
  - destruct H as (p & c & x & Hp & Hc & Hx & ->). exists p, c, (x ++ o). split; [assumption|].
    split; [assumption|]. split; [|now rewrite <- !app_assoc].
    apply star_concat; [assumption|now apply star_one].
  - destruct H as (p & c & Hp & Hc & ->). exists p, (c ++ o). split; [assumption|].
    split; [|now rewrite app_assoc]. apply branches_items; [assumption|]. apply star_one. now right.
Qed.
Lemma word_text w u t : at_word w u -> Corrected.text t -> at_word Has (u ++ t).
Proof.
  intros H Ht. 
  assert (Hb : forall o, star Corrected.optional o -> Corrected.single_alternation (o ++ t)).
  { intros o Ho. exists o, t. split; [now apply optional_items|]. split; [|reflexivity].
    exists t, []. rewrite app_nil_r. repeat split; [assumption|constructor]. }
  destruct w.
  - destruct H as (p & x & Hp & Hx & ->). exists p, (x ++ t). split; [assumption|].
    split; [|now rewrite app_assoc]. constructor. now apply Hb.
  - destruct H as (p & c & x & Hp & Hc & Hx & ->). exists p, (c ++ s_ "/" ++ x ++ t). split; [assumption|].
    split; [|now rewrite <- !app_assoc]. constructor; [assumption|now apply Hb].
  - destruct H as (p & c & Hp & Hc & ->). exists p, (c ++ t). split; [assumption|].
    split; [|now rewrite app_assoc]. apply branches_items; [assumption|]. apply star_one. now left.
Qed.
Lemma word_slash u : at_word Has u -> at_word Needs (u ++ s_ "/").
Proof.
  intros (p & c & Hp & Hc & ->). exists p, c, []. rewrite app_nil_r.
  repeat split; [assumption|assumption|constructor|now rewrite app_assoc].
Qed.
Lemma fresh_expression u : Corrected.expression u -> at_word Fresh u.
Proof. intros H. exists u, []. rewrite app_nil_r. repeat split; [assumption|constructor]. Qed.
Lemma content_snoc special t c : content special t -> ~ In c special -> content special (t ++ [c]).
Proof. intros H Hc. apply content_concat; [assumption|]. now repeat constructor. Qed.
Lemma content_snoc_escape special t c : content special t -> In c reserved -> content special (t ++ [backslash; c]).
Proof. intros H Hc. apply content_concat; [assumption|]. apply content_escape; [assumption|constructor]. Qed.

Lemma read_step q p c : has_read q p -> has_read (step q c) (p ++ [c]).
Proof.
  destruct q as [w| |w|w|w| | |]; cbn [step]; intros H; [| | | | | | |exact I].
  - cbn [has_read] in H. unfold outside. chars; subst.
    + assert (E : w <> Needs -> at_word Fresh (p ++ s_ " ")).
      { intros Hw. apply fresh_expression, star_concat; [now apply (word_expression w)|].
        apply star_one. do 4 right. exists (s_ " "), []. repeat split; constructor. }
      destruct w; [now apply E|exact I|now apply E].
    + assert (E : w <> Needs -> has_read Name (p ++ s_ "{")).
      { intros Hw. exists p, []. split; [now apply (word_expression w)|]. split; [constructor|reflexivity]. }
      destruct w; [now apply E|exact I|now apply E].
    + now exists p.
    + destruct w; [exact I|exact I|]. now apply word_slash.
    + now exists w, p.
    + apply (word_text w); [assumption|]. left. exists c. split; [|reflexivity]. cbn in *. intuition congruence.
  - destruct H as (w & u & Hu & ->). unfold escaping. chars; [|exact I].
    rewrite <- app_assoc. apply (word_text w); [assumption|]. right. apply escape_iff. now exists c.
  - destruct H as (u & Hu & ->). unfold in_optional. chars; subst; try exact I.
    + exists u, []. split; [assumption|]. split; [constructor|]. now rewrite <- app_assoc.
    + exists u, [c]. split; [assumption|]. split; [|split; [easy|now rewrite <- app_assoc]].
      constructor; [cbn in *; intuition congruence|constructor].
  - destruct H as (u & t & Hu & Ht & Hne & ->). unfold in_optional. chars; subst; try exact I.
    + rewrite <- !app_assoc. apply word_optional; [assumption|]. apply optional_lang.
      exists (mkOptional t). split; [now split|reflexivity].
    + exists u, t. split; [assumption|]. split; [assumption|]. now rewrite <- !app_assoc.
    + exists u, (t ++ [c]). split; [assumption|].
      split; [apply content_snoc; [assumption|cbn in *; intuition congruence]|].
      split; [now destruct t|now rewrite <- !app_assoc].
  - destruct H as (u & t & Hu & Ht & ->). unfold escaping. chars; [|exact I].
    exists u, (t ++ [backslash; c]). split; [assumption|]. split; [now apply content_snoc_escape|].
    split; [now destruct t|now rewrite <- !app_assoc].
  - destruct H as (u & t & Hu & Ht & ->). chars; subst; try exact I.
    + rewrite <- !app_assoc. apply fresh_expression, star_concat; [assumption|]. apply star_one.
      do 2 right. left. apply parameter_lang. now exists t.
    + exists u, t. split; [assumption|]. split; [assumption|]. now rewrite <- !app_assoc.
    + exists u, (t ++ [c]). split; [assumption|].
      split; [apply content_snoc; [assumption|cbn in *; intuition congruence]|now rewrite <- !app_assoc].
  - destruct H as (u & t & Hu & Ht & ->). unfold escaping. chars; [|exact I].
    exists u, (t ++ [backslash; c]). split; [assumption|]. split; [now apply content_snoc_escape|].
    now rewrite <- !app_assoc.
Qed.
Lemma read_all s : has_read (reads_to s) s.
Proof.
  induction s as [|c s IH] using rev_ind.
  - apply fresh_expression. constructor.
  - unfold reads_to in *. rewrite fold_left_app. now apply read_step.
Qed.

Lemma grammar_iff_automaton s : Corrected.expression s <-> accepting (reads_to s) = true.
Proof.
  split.
  - intros H. destruct (lang_expression s H Fresh) as (w & Hw & E); [easy|]. unfold reads_to.
    change (fold_left step s (Outside Fresh)) with (run (Outside Fresh) s). rewrite E. now destruct w.
  - intros H. pose proof (read_all s) as Hr. destruct (reads_to s) as [w| |w|w|w| | |]; try discriminate.
    apply (word_expression w); [exact Hr|]. now destruct w.
Qed.
Lemma accepted_iff_automaton s : addressable s ->
  (exists e, expression_parse s = RetOk e) <-> accepting (reads_to s) = true.
Proof. intros H. rewrite accepted_iff_grammar by assumption. apply grammar_iff_automaton. Qed.

(** ** Prefixes *)
Definition accepted (s : str) : Prop := exists e, expression_parse s = RetOk e.
(** A shortest way to each state, and a shortest way out. *)
Definition way_in (q : state) : str :=
  let word w := match w with Fresh => [] | Needs => s_ "a/" | Has => s_ "a" end in
  match q with
  | Outside w => word w
  | Escape => s_ "\"
  | OptionalStart w => word w ++ s_ "("
  | Optional w => word w ++ s_ "(a"
  | OptionalEscape w => word w ++ s_ "(\"
  | Name => s_ "{"
  | NameEscape => s_ "{\"
  | Dead => s_ "/"
  end.
Definition way_out (q : state) : str :=
  let word w := match w with Needs => s_ "a" | _ => [] end in
  match q with
  | Outside w => word w
  | Escape => s_ "/"
  | OptionalStart w => s_ "a)" ++ word w
  | Optional w => s_ ")" ++ word w
  | OptionalEscape w => s_ "/)" ++ word w
  | Name => s_ "}"
  | NameEscape => s_ "/}"
  | Dead => []
  end.
Definition all_states : list state :=
  [Outside Fresh; Outside Needs; Outside Has; Escape; OptionalStart Fresh; OptionalStart Needs; OptionalStart Has;
   Optional Fresh; Optional Needs; Optional Has; OptionalEscape Fresh; OptionalEscape Needs; OptionalEscape Has;
   Name; NameEscape; Dead].
Lemma all_states_all q : In q all_states.
Proof. destruct q as [[]| |[]|[]|[]| | |]; cbn; tauto. Qed.
Lemma way_in_right q : reads_to (way_in q) = q.
Proof. destruct q as [[]| |[]|[]|[]| | |]; reflexivity. Qed.
Lemma way_out_right q : q <> Dead -> accepting (run q (way_out q)) = true.
Proof. destruct q as [[]| |[]|[]|[]| | |]; easy. Qed.
Lemma way_out_short q : (List.length (way_out q) <= 3)%nat.
Proof. destruct q as [[]| |[]|[]|[]| | |]; cbn; lia. Qed.
Lemma reads_to_app a b : reads_to (a ++ b) = run (reads_to a) b.
Proof. apply fold_left_app. Qed.

Lemma completable_iff s : addressable (s ++ s_ "abc") ->
  completable accepted s <-> reads_to s <> Dead.
Proof.
  intros Hs. split.
  - intros (t & Ht & H) E. apply accepted_iff_automaton in H; [|assumption].
    rewrite reads_to_app, E, run_dead in H. discriminate.
  - intros H. exists (way_out (reads_to s)).
    assert (Ha : addressable (s ++ way_out (reads_to s))).
    { unfold addressable in *. rewrite app_length in *. cbn [List.length s_] in *.
      pose proof (way_out_short (reads_to s)). change (List.length (s_ "abc")) with 3%nat in Hs. lia. }
    split; [assumption|]. apply accepted_iff_automaton; [assumption|]. rewrite reads_to_app.
    now apply way_out_right.
Qed.
Lemma completable_three s : addressable (s ++ s_ "abc") ->
  completable accepted s -> completable_by accepted 3 s.
Proof.
  intros Hs H. apply completable_iff in H; [|assumption]. exists (way_out (reads_to s)).
  split; [apply way_out_short|].
  assert (Ha : addressable (s ++ way_out (reads_to s))).
  { unfold addressable in *. rewrite app_length in *.
    pose proof (way_out_short (reads_to s)). change (List.length (s_ "abc")) with 3%nat in Hs. lia. }
  apply accepted_iff_automaton; [assumption|]. rewrite reads_to_app. now apply way_out_right.
Qed.
Lemma three_needed : exists s, addressable s /\ completable accepted s /\ ~ completable_by accepted 2 s.
Proof.
  exists (s_ "a/("). split; [easy|]. split; [apply completable_iff; easy|].
  intros (t & Ht & H). apply accepted_iff_automaton in H.
  2: { unfold addressable. rewrite app_length. change (List.length (s_ "a/(")) with 3%nat. unfold usize_max. lia. }
  rewrite reads_to_app in H. change (reads_to (s_ "a/(")) with (OptionalStart Needs) in H.
  destruct t as [|c [|d [|]]]; [discriminate H| | |cbn in Ht; lia].
  - unfold run in H. cbn [fold_left step] in H. revert H. unfold in_optional. by_chars; discriminate.
  - unfold run in H. cbn [fold_left step] in H. revert H. unfold in_optional.
    chars; cbn [step]; unfold in_optional, escaping; chars; discriminate.
Qed.

(** ** Sixteen kinds of prefixes *)
(** What tells two states apart. *)
Definition probes : list str :=
  [ []; s_ "a"; s_ "/a"; s_ "/"; s_ "{}"; s_ ")"; s_ ")a"; s_ ")/a"; s_ "}"; s_ "/}"; s_ "/)"; s_ "/)a"; s_ "/)/a";
    s_ "a)"; s_ "a)a"; s_ "a)/a"].
Definition profile (q : state) : list bool := map (fun t => accepting (run q t)) probes.
Lemma profiles_differ : forall q r, q <> r -> profile q <> profile r.
Proof.
  intros q r H E. apply H.
  destruct q as [[]| |[]|[]|[]| | |], r as [[]| |[]|[]|[]| | |]; try reflexivity; vm_compute in E; discriminate.
Qed.
Lemma profile_differs_at q r : profile q <> profile r ->
  exists t, In t probes /\ accepting (run q t) <> accepting (run r t).
Proof.
  unfold profile. induction probes as [|t l IH]; intros H; [easy|]. cbn [map] in H.
  destruct (Bool.bool_dec (accepting (run q t)) (accepting (run r t))) as [E|E].
  - rewrite E in H. destruct IH as (t' & Hin & Ht'); [congruence|]. exists t'. cbn. auto.
  - exists t. cbn. auto.
Qed.
Lemma interchangeable_same a b : reads_to a = reads_to b -> interchangeable accepted a b.
Proof.
  intros E t Ha Hb. unfold accepted. rewrite !accepted_iff_automaton by assumption.
  now rewrite !reads_to_app, E.
Qed.
Lemma state_dec (q r : state) : {q = r} + {q <> r}.
Proof. decide equality; decide equality. Qed.
Lemma interchangeable_iff a b : addressable (a ++ s_ "abcd") -> addressable (b ++ s_ "abcd") ->
  interchangeable accepted a b <-> reads_to a = reads_to b.
Proof.
  intros Ha Hb. split; [|apply interchangeable_same]. intros H.
  destruct (state_dec (reads_to a) (reads_to b)) as [E|E]; [exact E|exfalso].
  apply profiles_differ, profile_differs_at in E as (t & Hin & Ht). apply Ht. clear Ht.
  assert (L : (List.length t <= 4)%nat).
  { revert t Hin. apply Forall_forall. unfold probes. repeat constructor. }
  assert (Hx : forall x, addressable (x ++ s_ "abcd") -> addressable (x ++ t)).
  { unfold addressable. intros x. rewrite !app_length. change (List.length (s_ "abcd")) with 4%nat. lia. }
  specialize (H t (Hx a Ha) (Hx b Hb)). unfold accepted in H.
  rewrite !accepted_iff_automaton, !reads_to_app in H by auto.
  destruct (accepting (run (reads_to a) t)), (accepting (run (reads_to b) t)); try reflexivity.
  - now symmetry; apply H.
  - now apply H.
Qed.
Lemma sixteen_kinds : exists kinds, List.length kinds = 16%nat /\
  ForallOrdPairs (fun a b => ~ interchangeable accepted a b) kinds /\
  forall s, Exists (interchangeable accepted s) kinds.
Proof.
  exists (map way_in all_states). split; [reflexivity|]. split.
  - assert (H : forall l, NoDup l ->
      ForallOrdPairs (fun a b => ~ interchangeable accepted a b) (map way_in l)).
    { induction 1 as [|q l Hq _ IH]; cbn [map]; constructor; [|assumption].
      apply Forall_forall. intros x Hx. apply in_map_iff in Hx as (r & <- & Hr). intros H.
      assert (Hs : forall q, addressable (way_in q ++ s_ "abcd")).
      { intros p. unfold addressable. rewrite app_length. destruct p as [[]| |[]|[]|[]| | |]; easy. }
      apply interchangeable_iff in H; [|apply Hs|apply Hs]. rewrite !way_in_right in H. now subst. }
    apply H. repeat constructor; cbn; intuition discriminate.
  - intros s. apply Exists_exists. exists (way_in (reads_to s)).
    split; [apply in_map, all_states_all|]. apply interchangeable_same. now rewrite way_in_right.
Qed.

(** ** Errors *)
Lemma run_items b : items b -> forall w, exists w', run (Outside w) (src_branch b) = Outside w'.
Proof.
  intros (H & _) w. apply branch_items in H. destruct (lang_items _ H w); eauto.
Qed.
Lemma run_slashed a : Forall branch a -> forall w,
  run (Outside w) (slashed a) = Dead \/ exists w', run (Outside w) (slashed a) = Outside w'.
Proof.
  induction 1 as [|b a (_ & Hb) _ IH]; intros w; [right; now exists w|].
  unfold slashed. cbn [map List.concat]. fold (slashed a). rewrite !run_app.
  destruct (run_items b Hb w) as (w' & ->).
  assert (E : run (Outside w') (s_ "/") = Dead \/ run (Outside w') (s_ "/") = Outside Needs).
  { destruct w'; [left|left|right]; reflexivity. }
  destruct E as [-> | ->]; [left; apply run_dead|apply IH].
Qed.
Lemma run_nodes x : Forall wf_single x -> exists w, w <> Needs /\ reads_to (source x) = Outside w.
Proof. intros H. apply tree_lang in H. exact (lang_expression _ H Fresh ltac:(easy)). Qed.

Lemma repair_after p (e : error text_at) : beyond_repair (after p e) <-> beyond_repair e.
Proof. now destruct e. Qed.
Lemma repair_broken special s e : broken_text special s e -> ~ beyond_repair e.
Proof. intros []; auto. Qed.
Lemma parameter_hopeless s e : parameter_error s e -> beyond_repair e ->
  forall w, w <> Needs -> run (Outside w) s = Dead.
Proof.
  intros H He w Hw. assert (E : forall r, run (Outside w) (s_ "{" ++ r) = run Name r) by now destruct w.
  destruct H as [s e H|t H|t s n r H (-> & _) _|t s n r H (-> & _)|t r H _|t r H _|t r H]; rewrite E.
  - apply repair_after in He. now apply repair_broken in H.
  - easy.
  - now rewrite run_app, run_name, run_app, run_dead.
  - now rewrite run_app, run_name, run_app, run_dead.
  - now rewrite run_app, run_name, run_app, run_dead.
  - now rewrite run_app, run_name, run_app, run_dead.
  - now rewrite run_app, run_name, run_app, run_dead.
Qed.
Lemma optional_hopeless s e : optional_error s e -> beyond_repair e ->
  forall w, run (Outside w) s = Dead.
Proof.
  intros H He w. assert (E : forall r, run (Outside w) (s_ "(" ++ r) = run (OptionalStart w) r) by reflexivity.
  assert (D : forall t c r, content optional_special t -> In c (s_ "({/") ->
    run (OptionalStart w) (t ++ [c] ++ r) = Dead).
  { intros t c r Ht Hc.
    assert (Hq : run (OptionalStart w) t = OptionalStart w \/ run (OptionalStart w) t = Optional w).
    { destruct t as [|x t]; [now left|right]. now apply run_optional_start. }
    rewrite !run_app. cbn in Hc.
    destruct Hq as [-> | ->]; destruct Hc as [<-|[<-|[<-|[]]]]; apply run_dead. }
  destruct H as [s e H|t H|r|t s n r H (-> & _) _|t s n r H (-> & _)|t r H|t r H _|t r H _]; try rewrite E.
  - apply repair_after in He. now apply repair_broken in H.
  - easy.
  - rewrite run_app. apply run_dead.
  - apply (D t (c_ "(")); [assumption|cbn; auto].
  - apply (D t (c_ "{")); [assumption|cbn; auto].
  - apply (D t (c_ "/")); [assumption|cbn; auto].
  - apply (D t (c_ "(")); [assumption|cbn; auto].
  - apply (D t (c_ "{")); [assumption|cbn; auto].
Qed.
Lemma alternation_hopeless s e : alternation_error s e -> beyond_repair e ->
  forall w, run (Outside w) s = Dead.
Proof.
  intros H He w. destruct H as [a b s e Ha Hb _ H|r|a b r _ _ _|a r _ _ _ _]; [|easy|easy|easy].
  apply repair_after in He. destruct H as [H|H]; [|now apply repair_broken in H].
  rewrite !run_app. destruct (run_slashed a Ha w) as [-> |(w' & ->)]; [now rewrite !run_dead|].
  destruct (run_items b Hb w') as (w'' & ->). now apply optional_hopeless with e.
Qed.
Lemma map_repair {I J} (f : I -> J) e : beyond_repair (map_error f e) <-> beyond_repair e.
Proof. now destruct e. Qed.
Lemma error_dead s er : addressable s -> expression_parse s = RetErr er -> beyond_repair er -> reads_to s = Dead.
Proof.
  intros Hs H He. apply parse_err_iff in H as (e & H & ->); [|assumption].
  apply map_repair in He. destruct H as [x s e Hx _ _ H]. apply repair_after in He.
  destruct (run_nodes x Hx) as (w & Hw & E). rewrite reads_to_app, E.
  destruct H as [H|H]; [now apply parameter_hopeless with e|now apply alternation_hopeless with e].
Qed.
Lemma hopeless s er : addressable s -> expression_parse s = RetErr er -> beyond_repair er ->
  ~ completable accepted s.
Proof.
  intros Hs H He (t & Ht & Hc). apply error_dead in H; [|assumption|assumption].
  apply accepted_iff_automaton in Hc; [|assumption]. rewrite reads_to_app, H, run_dead in Hc. discriminate.
Qed.

Lemma unfinished_after p (e : error text_at) i : after p e = UnfinishedParameter i ->
  exists j, e = UnfinishedParameter j.
Proof. destruct e; try discriminate. eauto. Qed.
Lemma unfinished_broken special s i : ~ broken_text special s (UnfinishedParameter i).
Proof. intros H. inversion H. Qed.
Lemma unfinished_name s i : addressable s -> expression_parse s = RetErr (UnfinishedParameter i) ->
  reads_to s = Name.
Proof.
  intros Hs H. apply parse_err_iff in H as (e & H & Ee); [|assumption].
  assert (Hu : exists j, e = UnfinishedParameter j) by (destruct e; try discriminate; eauto).
  destruct Hu as (j & ->). clear Ee. remember (UnfinishedParameter j) as e eqn:Ee.
  destruct H as [x s e Hx _ _ H]. apply unfinished_after in Ee as (k & ->).
  destruct (run_nodes x Hx) as (w & Hw & E). rewrite reads_to_app, E.
  assert (E' : forall r, run (Outside w) (s_ "{" ++ r) = run Name r) by now destruct w.
  destruct H as [H|H].
  - remember (UnfinishedParameter k) as e eqn:Ee. destruct H as [s e H|t H| | | | | ]; try discriminate.
    + apply unfinished_after in Ee as (? & ->). now apply unfinished_broken in H.
    + rewrite E'. now apply run_name.
  - exfalso. remember (UnfinishedParameter k) as e eqn:Ee. destruct H as [a b s e _ _ _ [H|H]| | |]; try discriminate.
    + apply unfinished_after in Ee as (? & ->). remember (UnfinishedParameter x0) as e eqn:Ee.
      destruct H as [s e H| | | | | | |]; try discriminate.
      apply unfinished_after in Ee as (? & ->). now apply unfinished_broken in H.
    + apply unfinished_after in Ee as (? & ->). now apply unfinished_broken in H.
Qed.
Lemma unfinished_brace s i : addressable (s ++ s_ "}") -> expression_parse s = RetErr (UnfinishedParameter i) ->
  accepted (s ++ s_ "}").
Proof.
  intros Hs H. assert (Hs' : addressable s).
  { unfold addressable in *. rewrite app_length in Hs. lia. }
  apply unfinished_name in H; [|assumption]. apply accepted_iff_automaton; [assumption|].
  now rewrite reads_to_app, H.
Qed.
