(** Literal texts; size of the regex. *)
From Coq Require Import PeanoNat.
From Verif Require Export ProofExpand2.

(** ** Literals *)
Lemma escaped_content t : content text_special (escaped t).
Proof.
  induction t as [|c t IH]; [constructor|]. unfold escaped. cbn [flat_map].
  destruct (in_dec N.eq_dec c reserved) as [H|H]; cbn [app].
  - now apply content_escape.
  - apply content_plain; [|exact IH]. intros Hc. apply H. clear - Hc. cbn in Hc |- *. tauto.
Qed.
Lemma unescape_escaped t : unescape (escaped t) = t.
Proof.
  induction t as [|c t IH]; [reflexivity|]. unfold escaped. cbn [flat_map].
  destruct (in_dec N.eq_dec c reserved) as [H|H]; cbn [app unescape].
  - destruct (N.eq_dec backslash (c_ "\")); [|easy]. now f_equal.
  - destruct (N.eq_dec c (c_ "\")) as [->|_]; [|now f_equal]. exfalso. apply H. cbn. tauto.
Qed.
Lemma escaped_nonempty t : t <> [] -> escaped t <> [].
Proof. intros H E. apply H. rewrite <- (unescape_escaped t), E. reflexivity. Qed.
Lemma literal_parses t : t <> [] -> addressable (escaped t) ->
  expression_parse (escaped t) = RetOk [ExText (mkspan 0 1 (escaped t))].
Proof.
  intros Ht Ha. apply parse_ok_iff; [exact Ha|]. exists [ExText (escaped t)].
  assert (Hw : wf [ExText (escaped t)]).
  { repeat split; [constructor; [|constructor]; split; [now apply escaped_nonempty|apply escaped_content]|].
    intros [|? [|? ?]] x y r E; discriminate. }
  split; [exact Hw|]. split; [|reflexivity]. unfold source. cbn. apply app_nil_r.
Qed.
Lemma means_text {I} (text : I -> str) param (t : I) s v :
  means text param [ExText t] s v <-> s = unescape (text t) /\ v = [].
Proof.
  split.
  - intros (l & H & -> & ->). inversion H; subst. inversion H4; subst. destruct y as [p w]. destruct H2 as [-> ->].
    cbn. now rewrite app_nil_r.
  - intros [-> ->]. exists [(unescape (text t), [])]. repeat split.
    + constructor; [split; reflexivity|constructor].
    + cbn. now rewrite app_nil_r.
Qed.
Lemma means_parameter {I} (text : I -> str) param (p : parameter I) s v :
  means text param [ExParameter p] s v <-> param p s v.
Proof.
  split.
  - intros (l & H & -> & ->). inversion H; subst. inversion H4; subst. destruct y as [q w]. cbn in *. now rewrite !app_nil_r.
  - intros H. exists [(s, v)]. repeat split.
    + constructor; [exact H|constructor].
    + cbn. now rewrite app_nil_r.
    + cbn. now rewrite app_nil_r.
Qed.
Lemma is_match_builtin digit space word e s : all_built_in frag e ->
  is_match digit space word (re_of frag e) s <->
  exists v, means frag (fun p => typed digit space (frag (par_input p))) e s v.
Proof.
  intros H. unfold is_match. split.
  - intros (p & m & q & c & -> & Hm). apply rm_builtin in Hm as (-> & -> & Hm); [|exact H].
    exists c. cbn. now rewrite app_nil_r.
  - intros [v Hv]. exists [], s, [], v. split; [cbn; now rewrite app_nil_r|]. now apply rm_builtin.
Qed.
Lemma literal_regex t : t <> [] -> addressable (escaped t) ->
  exists u r, expression_regex (escaped t) = XOk u r /\
    forall digit space word s, is_match digit space word r s <-> s = t.
Proof.
  intros Ht Ha. pose proof (literal_parses t Ht Ha) as Hp.
  assert (He : all_built_in frag [ExText (mkspan 0 1 (escaped t))]) by constructor.
  eexists _, _. split; [exact (regex_ok _ _ Ha Hp He)|]. intros digit space word s.
  rewrite is_match_builtin by exact He. setoid_rewrite means_text. cbn [frag]. rewrite unescape_escaped.
  split; [intros (v & -> & _); reflexivity|intros ->; eauto].
Qed.

(** The regex made by [EscapeForRegex]. *)
Lemma escape_regex t : exists r, regex_new (flat_map quote (unescape t)) = Done r /\
  forall digit space word p m q c, rm digit space word r p m q c <-> m = unescape t /\ c = [].
Proof.
  exists (mk_cat (map RLit (unescape t))). split.
  - unfold regex_new. rewrite (parse_syntax_reads _ _ (adds_reads _ _ (adds_quotes (unescape t)))). cbn [obind].
    unfold group_names. rewrite groups_mk_cat, groups_lits. reflexivity.
  - intros. rewrite rml_mk_cat. apply rml_lits.
Qed.

(** ** One parameter *)
Lemma parameter_regex n : In n [s_ "int"; s_ "float"; s_ "word"; s_ "string"; []] ->
  exists u r, expression_regex (s_ "{" ++ n ++ s_ "}") = XOk u r /\
    forall digit space word s, is_match digit space word r s <-> exists v, typed digit space n s v.
Proof.
  intros Hn.
  assert (Ha : addressable (s_ "{" ++ n ++ s_ "}")) by (repeat destruct Hn as [<-|Hn]; easy).
  assert (Hp : expression_parse (s_ "{" ++ n ++ s_ "}") = RetOk [ExParameter (mkParameter (mkspan 1 1 n) 0)])
    by (repeat destruct Hn as [<-|Hn]; try easy; vm_compute; reflexivity).
  assert (He : all_built_in frag [ExParameter (mkParameter (mkspan 1 1 n) 0)])
    by (constructor; [exact Hn|constructor]).
  eexists _, _. split; [exact (regex_ok _ _ Ha Hp He)|]. intros digit space word s.
  rewrite is_match_builtin by exact He. setoid_rewrite means_parameter. reflexivity.
Qed.

(** ** Size *)
Lemma text_size {I} (elements : I -> str) i : (List.length (text_of elements i) <= 2 * List.length (elements i))%nat.
Proof.
  unfold text_of. rewrite escape_for_regex_eq. pose proof (quotes_length (unescape (elements i))).
  pose proof (unescape_length (elements i)). lia.
Qed.
Lemma alternative_size a : (List.length (alternative_text frag a) <= 3 * List.length (src_alternative (map_alternative frag a)))%nat.
Proof.
  destruct a as [o|t]; cbn [alternative_text map_alternative src_alternative map_optional opt_input].
  - unfold optional_text. rewrite !app_length. pose proof (text_size frag (opt_input o)). cbn. lia.
  - pose proof (text_size frag t). lia.
Qed.
Lemma branch_size b : (List.length (branch_text frag b) <= 3 * List.length (src_branch (map (map_alternative frag) b)))%nat.
Proof.
  unfold branch_text, src_branch. induction b as [|x b IH]; cbn [flat_map map List.concat]; [cbn; lia|].
  rewrite !app_length. pose proof (alternative_size x). lia.
Qed.
Lemma removelast_length' {A} (l : list A) : List.length (removelast l) = Nat.pred (List.length l).
Proof. induction l as [|x [|y l] IH]; cbn in *; lia. Qed.
Lemma join_length sep l : l <> [] ->
  (List.length (join sep l) + List.length sep = List.length (List.concat l) + List.length l * List.length sep)%nat.
Proof.
  intros H. induction l as [|x [|y l] IH]; [easy|cbn; rewrite app_nil_r; lia|].
  change (join sep (x :: y :: l)) with (x ++ sep ++ join sep (y :: l)).
  change (List.concat (x :: y :: l)) with (x ++ List.concat (y :: l)).
  change (List.length (x :: y :: l)) with (S (List.length (y :: l))).
  rewrite !app_length. specialize (IH ltac:(easy)). lia.
Qed.
Lemma alternation_size a : (2 <= List.length a)%nat ->
  (List.length (alternation_text frag a) <= 15 * List.length (src_single (ExAlternation (map_alternation frag a))))%nat.
Proof.
  unfold alternation_text, map_alternation. cbn [src_single]. rewrite !app_length, removelast_length'.
  intros H. rewrite map_map.
  assert (H1 : (List.length (flat_map (fun b => branch_text frag b ++ s_ "|") a)
            <= 3 * List.length (List.concat (map (fun b => src_branch (map (map_alternative frag) b)) a)) + List.length a)%nat).
  { clear H. induction a as [|b a IH]; cbn [flat_map map List.concat List.length]; [cbn; lia|].
    rewrite !app_length. pose proof (branch_size b). change (List.length (s_ "|")) with 1%nat. lia. }
  pose proof (join_length (s_ "/") (map (fun b => src_branch (map (map_alternative frag) b)) a)) as H2.
  rewrite map_length in H2. change (List.length (s_ "/")) with 1%nat in H2.
  assert (H3 : map (fun b => src_branch (map (map_alternative frag) b)) a <> []) by (destruct a; [cbn in H; lia|easy]).
  specialize (H2 H3).
  change (List.length (s_ "(?:")) with 3%nat. change (List.length (s_ ")")) with 1%nat.
  match type of H2 with (List.length ?j + 1 = _)%nat => match goal with |- (_ <= 15 * ?k)%nat => change k with (List.length j) end end.
  match type of H2 with (?j + 1 = ?c + _)%nat => set (J := j) in *; set (C := c) in * end.
  match type of H1 with (?f <= _)%nat => match goal with |- context [Nat.pred ?g] => change g with f; set (F := f) in * end end.
  clearbody J F. match type of H1 with (_ <= 3 * ?c + ?n)%nat => change c with C in H1; change n with (List.length a) in H1 end. clearbody C.
  unfold single_alternation in *. lia.
Qed.
Lemma string_size id : id <= usize_max -> (List.length (string_regex id) <= 113)%nat.
Proof.
  intros H. unfold string_regex. rewrite !app_length.
  assert ((List.length (dec id) <= 20)%nat).
  { apply (decimal_length id); [apply dec_decimal|lia|]. unfold usize_max in H. change (N.of_nat 20) with 20. change (10 ^ 20) with 100000000000000000000. lia. }
  cbn [s_ List.length]. lia.
Qed.
Lemma parameter_size p : built_in (frag (par_input p)) -> par_id p <= usize_max ->
  (List.length (builtin_text frag p) <= 15 * List.length (src_single (ExParameter (map_parameter frag p))))%nat.
Proof.
  intros Hb Hid. unfold builtin_text. cbn [src_single map_parameter par_input]. rewrite !app_length.
  change (name frag p) with (frag (par_input p)).
  destruct Hb as [Hb|[Hb|[Hb|[Hb|[Hb|[]]]]]]; rewrite <- Hb.
  - vm_compute. lia.
  - vm_compute. lia.
  - vm_compute. lia.
  - change (str_eqb (s_ "string") (s_ "int")) with false. change (str_eqb (s_ "string") (s_ "float")) with false.
    change (str_eqb (s_ "string") (s_ "word")) with false. change (str_eqb (s_ "string") (s_ "string")) with true.
    cbv iota. pose proof (string_size _ Hid). cbn [s_ List.length]. lia.
  - vm_compute. lia.
Qed.
Lemma single_size x : wf_single (map_single frag x) ->
  (forall p, x = ExParameter p -> built_in (frag (par_input p)) /\ par_id p <= usize_max) ->
  (List.length (single_text frag (builtin_text frag) x) <= 15 * List.length (src_single (map_single frag x)))%nat.
Proof.
  destruct x as [a|o|p|t|t]; intros Hw Hp.
  - destruct Hw as [Hl _]. pose proof (alternation_size a) as H. unfold map_alternation in Hl. rewrite map_length in Hl.
    specialize (H Hl). cbn [single_text map_single]. lia.
  - cbn [single_text map_single src_single map_optional opt_input]. unfold optional_text. rewrite !app_length.
    pose proof (text_size frag (opt_input o)). cbn [s_ List.length]. lia.
  - apply parameter_size; now apply Hp.
  - cbn [single_text map_single src_single]. pose proof (text_size frag t). lia.
  - cbn [single_text map_single src_single]. pose proof (text_size frag t). lia.
Qed.
Lemma map_place_branch b : forall pre, map (map_alternative (fun x : text_at => snd x)) (place_branch pre b) = b.
Proof.
  induction b as [|y b IH]; intros pre; [reflexivity|]. cbn [place_branch map]. rewrite IH.
  destruct y as [[]|]; reflexivity.
Qed.
Lemma map_place e : forall pre, map_expression (fun x : text_at => snd x) (place pre e) = e.
Proof.
  induction e as [|x e IH]; intros pre; [reflexivity|]. cbn [place map_expression map]. f_equal; [|apply IH].
  destruct x as [a|o|p|t|t]; cbn [place_single map_single].
  - f_equal. revert pre. clear. unfold map_alternation. induction a as [|b a IH]; intros pre; [reflexivity|]. cbn [place_alternation map].
    rewrite IH, map_place_branch. reflexivity.
  - now destruct o.
  - now destruct p.
  - reflexivity.
  - reflexivity.
Qed.
Lemma map_single_map {A B C} (f : A -> B) (g : B -> C) x : map_single g (map_single f x) = map_single (fun y => g (f y)) x.
Proof.
  destruct x as [a|o|p|t|t]; cbn; try reflexivity. f_equal. unfold map_alternation. rewrite map_map. apply map_ext. intros b.
  rewrite map_map. apply map_ext. intros [[]|]; reflexivity.
Qed.
Lemma map_locate e : map_expression frag (locate 0 1 e) = e.
Proof.
  unfold locate, map_expression. rewrite map_map. erewrite map_ext; [apply (map_place e [])|]. intros x. rewrite map_single_map. reflexivity.
Qed.
Lemma parsed_wf s e : addressable s -> expression_parse s = RetOk e -> wf (map_expression frag e) /\ source (map_expression frag e) = s.
Proof. intros Hs H. apply parse_ok_iff in H as (x & Hw & Hsrc & ->); [|exact Hs]. now rewrite map_locate. Qed.
Lemma count_from_upper n k x : In x (count_from n k) -> x < n + N.of_nat k.
Proof. revert n; induction k as [|k IH]; intros n; cbn [count_from In]; [easy|]. intros [->|H]; [lia|]. apply IH in H. lia. Qed.
Lemma ids_length {I} (f : I -> str) (e : expression I) : (List.length (ids e) <= List.length (source (map_expression f e)))%nat.
Proof.
  unfold source, ids, map_expression. induction e as [|x e IH]; cbn [flat_map map List.concat]; [cbn; lia|].
  rewrite !app_length. destruct x; cbn [List.length map_single src_single]; rewrite ?app_length; change (List.length (s_ "{")) with 1%nat; cbn [List.length]; lia.
Qed.
Lemma regex_size s t r : addressable s -> expression_regex s = XOk t r ->
  (List.length t <= 15 * List.length s + 2)%nat.
Proof.
  intros Hs H. destruct (regex_total s Hs) as [(x & _ & E)|[(e & Hp & Hb & E)|(e1 & p & e2 & _ & _ & _ & E)]]; try congruence.
  rewrite E in H. injection H as <- _. destruct (parsed_wf s e Hs Hp) as [[Hw _] Hsrc].
  assert (Hids : forall p, In p (parameters e) -> built_in (frag (par_input p)) /\ par_id p <= usize_max).
  { intros p Hin. split; [unfold all_built_in in Hb; rewrite Forall_forall in Hb; now apply Hb|].
    assert (Hi : In (par_id p) (ids e)) by (rewrite ids_parameters; now apply in_map).
    rewrite (ids_count s e Hs Hp) in Hi. apply count_from_upper in Hi.
    pose proof (ids_length frag e) as Hl. rewrite Hsrc in Hl. unfold addressable in Hs. lia. }
  unfold builtin_regex, text_by. rewrite !app_length. cbn [s_ List.length].
  rewrite <- Hsrc. unfold source, map_expression. clear - Hw Hids. induction e as [|x e IH]; cbn [flat_map map List.concat]; [cbn; lia|].
  rewrite !app_length. inversion_clear Hw as [|? ? H1 H2].
  assert (Hx : (List.length (single_text frag (builtin_text frag) x) <= 15 * List.length (src_single (map_single frag x)))%nat).
  { apply single_size; [exact H1|]. intros p ->. apply Hids. now left. }
  assert (He : forall p, In p (parameters e) -> built_in (frag (par_input p)) /\ par_id p <= usize_max).
  { intros p Hin. apply Hids. change (x :: e) with ([x] ++ e). rewrite parameters_app. apply in_or_app. auto. }
  specialize (IH H2 He). lia.
Qed.
