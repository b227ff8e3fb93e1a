(** Three views of spans, and expansion. *)
From Verif Require Export ProofGeneric ProofExpand Params.

Lemma drop_take s : forall n, match take_bytes n s with Some _ => drop_bytes n s <> None | None => drop_bytes n s = None end.
Proof.
  induction s as [|c s IH]; intros n; cbn [take_bytes drop_bytes].
  - now destruct (n =? 0).
  - destruct (n =? 0); [easy|]. destruct (n <? len_utf8 c); [easy|]. specialize (IH (n - len_utf8 c)).
    now destruct (take_bytes (n - len_utf8 c) s).
Qed.

Lemma hom_span : hom span_ops (fun i => i).
Proof.
  constructor; try reflexivity; cbn; intros i n.
  - now destruct (take i n).
  - now destruct (take_from i n).
  - now destruct (take_split i n) as [[]|].
Qed.
Lemma hom_slice : hom slice_ops unlocated.
Proof.
  constructor; try reflexivity; cbn; intros i n.
  - unfold slice_take, take. cbn. now destruct (take_bytes n (frag i)).
  - unfold slice_take_from, take_from. cbn. pose proof (drop_take (frag i) n).
    destruct (take_bytes n (frag i)); [now destruct (drop_bytes n (frag i))|now rewrite H].
  - unfold slice_take_split, take_split, take_from, take. cbn.
    destruct (take_bytes n (frag i)); [now destruct (drop_bytes n (frag i))|reflexivity].
Qed.
Lemma hom_moved o l : hom span_ops (moved o l).
Proof.
  constructor; try reflexivity; cbn; intros i n.
  - unfold take. cbn. now destruct (take_bytes n (frag i)).
  - unfold take_from. cbn. destruct (take_bytes n (frag i)); [destruct (drop_bytes n (frag i))|]; try reflexivity. cbn.
    unfold moved. cbn. do 2 f_equal; lia.
  - unfold take_split, take_from, take. cbn. destruct (take_bytes n (frag i)); [destruct (drop_bytes n (frag i))|]; try reflexivity. cbn.
    unfold moved. cbn. do 3 f_equal; lia.
  - unfold offset. cbn. destruct (off n <? off i) eqn:E; destruct (off n + o <? off i + o) eqn:F; try reflexivity;
      try (apply N.ltb_lt in E; apply N.ltb_ge in F; lia); try (apply N.ltb_ge in E; apply N.ltb_lt in F; lia).
    f_equal. lia.
Qed.

Lemma returns_map {J A B} (h : span -> J) (f : A -> B) r : returns r -> returns_in (map_result h f r).
Proof. destruct r as [i a|[]]; easy. Qed.

Lemma map_id' {A} (f : A -> A) l : (forall a, f a = a) -> map f l = l.
Proof. intros H. rewrite (map_ext f (fun a => a)) by exact H. apply map_id. Qed.
Lemma optional_id (a : optional span) : map_optional (fun i => i) a = a.
Proof. now destruct a. Qed.
Lemma parameter_id (a : parameter span) : map_parameter (fun i => i) a = a.
Proof. now destruct a. Qed.
Lemma alternative_id (a : alternative span) : map_alternative (fun i => i) a = a.
Proof. destruct a; cbn; [now rewrite optional_id|reflexivity]. Qed.
Lemma alternation_id (a : alternation span) : map_alternation (fun i => i) a = a.
Proof. apply map_id'. intros b. apply map_id', alternative_id. Qed.
Lemma single_id (a : single_expression span) : map_single (fun i => i) a = a.
Proof. destruct a; cbn; try reflexivity; now rewrite ?optional_id, ?parameter_id, ?alternation_id. Qed.
Lemma expression_id (a : expression span) : map_expression (fun i => i) a = a.
Proof. apply map_id', single_id. Qed.
Lemma error_id (e : error span) : map_error (fun i => i) e = e.
Proof. now destruct e. Qed.

Lemma moved_from {A} (f : (span -> span) -> A -> A) (q : gresult span A) (r r' : result A) o l : (forall a, f (fun i => i) a = a) ->
  q = map_result (fun i => i) (f (fun i => i)) r' -> q = map_result (moved o l) (f (moved o l)) r ->
  r' = moved_result o l f r.
Proof.
  intros Hf -> E. destruct r as [i a|b], r' as [i' a'|b']; try discriminate; cbn in *.
  - injection E as <- E. rewrite Hf in E. now subst.
  - injection E as E. f_equal. destruct b, b'; try discriminate; cbn in *; try reflexivity; injection E as E; rewrite error_id in E; now subst.
Qed.

Theorem moved_parsers o l :
  (forall i ix, parse_parameter (moved o l i) ix = (moved_result o l map_parameter (fst (parse_parameter i ix)), snd (parse_parameter i ix))) /\
  (forall i, parse_optional (moved o l i) = moved_result o l map_optional (parse_optional i)) /\
  (forall i, parse_alternative (moved o l i) = moved_result o l map_alternative (parse_alternative i)) /\
  (forall i, parse_alternation (moved o l i) = moved_result o l map_alternation (parse_alternation i)) /\
  (forall i ix, parse_single_expression (moved o l i) ix = (moved_result o l map_single (fst (parse_single_expression i ix)), snd (parse_single_expression i ix))) /\
  (forall i, parse_expression (moved o l i) = moved_result o l map_expression (parse_expression i)).
Proof.
  repeat apply conj; intros i; try intros ix.
  - pose proof (parameter_alike _ _ hom_span (moved o l i) ix) as E. pose proof (parameter_alike _ _ (hom_moved o l) i ix) as F.
    cbn beta in *. rewrite E in F. injection F as F G. destruct (parse_parameter (moved o l i) ix) as [r' ix']; cbn in *. subst. f_equal.
    eapply (moved_from (@map_parameter span span)); [apply parameter_id|reflexivity|exact F].
  - eapply (moved_from (@map_optional span span)); [apply optional_id|apply (optional_alike _ _ hom_span)|apply (optional_alike _ _ (hom_moved o l))].
  - eapply (moved_from (@map_alternative span span)); [apply alternative_id|apply (alternative_alike _ _ hom_span)|apply (alternative_alike _ _ (hom_moved o l))].
  - eapply (moved_from (@map_alternation span span)); [apply alternation_id|apply (alternation_alike _ _ hom_span)|apply (alternation_alike _ _ (hom_moved o l))].
  - pose proof (single_expression_alike _ _ hom_span (moved o l i) ix) as E. pose proof (single_expression_alike _ _ (hom_moved o l) i ix) as F.
    cbn beta in *. rewrite E in F. injection F as F G. destruct (parse_single_expression (moved o l i) ix) as [r' ix']; cbn in *. subst. f_equal.
    eapply (moved_from (@map_single span span)); [apply single_id|reflexivity|exact F].
  - eapply (moved_from (@map_expression span span)); [apply expression_id|apply (expression_alike _ _ hom_span)|apply (expression_alike _ _ (hom_moved o l))].
Qed.

(** Every location of a parser's input is a move of the start. *)
Theorem any_view {J} (ops : input_ops J) h : hom ops h ->
  (forall i ix, parse_parameter_in ops (h i) ix = (map_result h (map_parameter h) (fst (parse_parameter i ix)), snd (parse_parameter i ix))) /\
  (forall i, parse_optional_in ops (h i) = map_result h (map_optional h) (parse_optional i)) /\
  (forall i, parse_alternative_in ops (h i) = map_result h (map_alternative h) (parse_alternative i)) /\
  (forall i, parse_alternation_in ops (h i) = map_result h (map_alternation h) (parse_alternation i)) /\
  (forall i ix, parse_single_expression_in ops (h i) ix = (map_result h (map_single h) (fst (parse_single_expression i ix)), snd (parse_single_expression i ix))) /\
  (forall i, parse_expression_in ops (h i) = map_result h (map_expression h) (parse_expression i)).
Proof.
  intros H. repeat apply conj; intros i; try intros ix.
  - now apply parameter_alike.
  - now apply optional_alike.
  - now apply alternative_alike.
  - now apply alternation_alike.
  - now apply single_expression_alike.
  - now apply expression_alike.
Qed.

Lemma slice_span (t : slice) : t = unlocated (mkspan (ptr t) 1 (chars_of t)).
Proof. now destruct t. Qed.
Theorem slice_returns :
  (forall t ix, ix < usize_max -> returns_in (fst (parse_parameter_in slice_ops t ix))) /\
  (forall t, returns_in (parse_optional_in slice_ops t)) /\
  (forall t, returns_in (parse_alternative_in slice_ops t)) /\
  (forall t, returns_in (parse_alternation_in slice_ops t)) /\
  (forall t ix, ix < usize_max -> returns_in (fst (parse_single_expression_in slice_ops t ix))) /\
  (forall t, addressable (chars_of t) -> returns_in (parse_expression_in slice_ops t)).
Proof.
  destruct (any_view slice_ops unlocated hom_slice) as (H1 & H2 & H3 & H4 & H5 & H6).
  repeat apply conj; intros t; try intros ix; intros; rewrite (slice_span t).
  - rewrite H1. apply returns_map, parameter_returns. assumption.
  - rewrite H2. apply returns_map, optional_returns.
  - rewrite H3. apply returns_map, alternative_returns.
  - rewrite H4. apply returns_map, alternation_returns.
  - rewrite H5. apply returns_map, single_expression_returns. assumption.
  - rewrite H6. apply returns_map, expression_returns. assumption.
Qed.

(** * Expansion *)
Section View.
  Context {I J : Type} (el : I -> str) (el' : J -> str) (h : I -> J) (H : forall i, el' (h i) = el i).
  Lemma map_ok t : map (map_item h) (ok t) = ok t.
  Proof. unfold ok. now rewrite map_map. Qed.
  Lemma expand_optional_map o : expand_optional el' (map_optional h o) = map (map_item h) (expand_optional el o).
  Proof. unfold expand_optional. destruct o as [i]. cbn [map_optional opt_input]. now rewrite H, map_ok. Qed.
  Lemma expand_alternative_map a : expand_alternative el' (map_alternative h a) = map (map_item h) (expand_alternative el a).
  Proof. destruct a; cbn [map_alternative expand_alternative]; [apply expand_optional_map|now rewrite H, map_ok]. Qed.
  Lemma flat_map_map {A B C D} (f : A -> B) (g : C -> D) (u : A -> list C) (v : B -> list D) l :
    (forall a, v (f a) = map g (u a)) -> flat_map v (map f l) = map g (flat_map u l).
  Proof. intros E. induction l as [|a l IH]; [reflexivity|]. cbn. now rewrite map_app, E, IH. Qed.
  Lemma removelast_map {A B} (f : A -> B) l : removelast (map f l) = map f (removelast l).
  Proof. induction l as [|a l IH]; [reflexivity|]. destruct l; [reflexivity|]. cbn [map removelast] in *. f_equal. exact IH. Qed.
  Lemma expand_alternation_map a : expand_alternation el' (map_alternation h a) = map (map_item h) (expand_alternation el a).
  Proof.
    unfold expand_alternation. rewrite !map_app, !map_ok, !skip_last_eq. do 2 f_equal. rewrite <- removelast_map. f_equal.
    apply flat_map_map. intros b. unfold expand_single_alternation. rewrite map_app, map_ok. f_equal. apply flat_map_map, expand_alternative_map.
  Qed.
  Lemma expand_parameter_map p : expand_parameter el' (map_parameter h p) = map (map_item h) (expand_parameter el p).
  Proof.
    unfold expand_parameter. destruct p as [i id]. cbn [map_parameter par_input par_id]. rewrite H.
    repeat match goal with |- (if ?b then _ else _) = _ => destruct b; [now rewrite map_ok|] end. reflexivity.
  Qed.
  Lemma expand_single_map x : expand_single el' (map_single h x) = map (map_item h) (expand_single el x).
  Proof.
    destruct x; cbn [map_single expand_single]; [apply expand_alternation_map|apply expand_optional_map|apply expand_parameter_map| |];
      now rewrite H, map_ok.
  Qed.
  Theorem expand_map e : expand_expression el' (map_expression h e) = map (map_item h) (expand_expression el e).
  Proof. unfold expand_expression. rewrite !map_app, !map_ok. do 2 f_equal. apply flat_map_map, expand_single_map. Qed.
  Context (digits spaces words : ranges) (to_string : hir -> str) (get : provider I) (get' : provider J) (G : forall i, get' (h i) = get i).
  Lemma expand_custom_map p : expand_custom el' digits spaces words to_string get' (map_parameter h p) =
    map (map_item h) (expand_custom el digits spaces words to_string get p).
  Proof.
    unfold expand_custom. replace (par_input (map_parameter h p)) with (h (par_input p)) by now destruct p.
    replace (par_id (map_parameter h p)) with (par_id p) by now destruct p.
    rewrite G. destruct (get (par_input p)) as [v|]; [|apply expand_parameter_map].
    destruct (contains v (c_ "(")); [|now rewrite map_ok].
    destruct (regex_new v) as [r| |]; try reflexivity. destruct (has_capture_groups _); now rewrite map_ok.
  Qed.
  Theorem expand_custom_expression_map e : expand_expression_custom el' digits spaces words to_string get' (map_expression h e) =
    map (map_item h) (expand_expression_custom el digits spaces words to_string get e).
  Proof.
    unfold expand_expression_custom. rewrite !map_app, !map_ok. do 2 f_equal. apply flat_map_map. intros x.
    destruct x; cbn [expand_single_custom map_single]; try apply expand_custom_map; apply (expand_single_map (ExAlternation _)) ||
      apply (expand_single_map (ExOptional _)) || apply (expand_single_map (ExText _)) || apply (expand_single_map (ExWhitespaces _)).
  Qed.
End View.

Lemma map_map_single {A B C} (f : A -> B) (g : B -> C) x : map_single g (map_single f x) = map_single (fun i => g (f i)) x.
Proof.
  destruct x as [a|o|p|t|t]; try reflexivity. cbn. f_equal. unfold map_alternation. rewrite map_map. apply map_ext. intros b.
  rewrite map_map. apply map_ext. now intros [o|t].
Qed.
Lemma map_map_expression {A B C} (f : A -> B) (g : B -> C) e : map_expression g (map_expression f e) = map_expression (fun i => g (f i)) e.
Proof. unfold map_expression. rewrite map_map. apply map_ext. intros x. apply map_map_single. Qed.

(** [parse::expression(s)] on a [&str] against [Expression::parse(s)]. *)
Theorem str_expression p s e :
  (exists a, expression_parse s = RetOk a /\ map_expression frag a = e) <->
  (exists rest a, parse_expression_in slice_ops (mkslice p s) = GOk rest a /\ chars_of rest = [] /\ map_expression chars_of a = e).
Proof.

  destruct (moved_parsers p 0) as (_ & _ & _ & _ & _ & Hm). specialize (Hm (span_new s)).
  replace (moved p 0 (span_new s)) with (mkspan p 1 s) in Hm by (unfold moved; cbn; f_equal; lia).
  pose proof (expression_alike _ _ hom_slice (mkspan p 1 s)) as E. unfold unlocated at 1 in E. cbn [off frag] in E. rewrite E, Hm. clear E Hm.
  unfold expression_parse. destruct (parse_expression (span_new s)) as [rest a|b].
  - cbn [moved_result map_result]. unfold input_len. split.
    + intros (x & Hx & <-). destruct (blen (frag rest) =? 0) eqn:Z; [|discriminate]. injection Hx as <-.
      exists (unlocated (moved p 0 rest)), (map_expression unlocated (map_expression (moved p 0) a)). split; [reflexivity|]. split.
      * cbn. apply N.eqb_eq in Z. destruct (frag rest) as [|c r]; [reflexivity|]. cbn in Z. pose proof (len_utf8_pos c). lia.
      * now rewrite !map_map_expression.
    + intros (r & x & Hr & Hn & Hx). injection Hr as <- <-. cbn in Hn. rewrite Hn. cbn. exists a. split; [reflexivity|].
      now rewrite !map_map_expression in Hx.
  - split.
    + intros (x & Hx & _). now destruct b.
    + intros (r & x & Hr & _). discriminate.
Qed.
