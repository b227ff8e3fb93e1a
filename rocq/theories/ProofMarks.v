(** What can be read off an expression by looking for unescaped characters. *)
From Verif Require Export SpecMarks ProofConcat.

Lemma until_content special close t u : In close special -> In backslash special -> close <> backslash ->
  content special t -> until close false (t ++ close :: u) = t.
Proof.
  intros Hc Hb Hd H. induction H as [|c t H Ht IH|c t H Ht IH]; cbn [app until negb andb].
  - now rewrite N.eqb_refl.
  - destruct (N.eqb_spec c close) as [->|]; [contradiction|]. destruct (N.eqb_spec c backslash) as [->|]; [contradiction|].
    now rewrite IH.
  - destruct (N.eqb_spec backslash close) as [E|]; [now symmetry in E|]. rewrite N.eqb_refl; cbn [negb andb]. now rewrite IH.
Qed.

Section Opened.
  Context (open close : char) (Hd : open <> backslash).
  Notation opened := (opened open close false).
  Lemma opened_one c pre u : c <> open -> c <> backslash -> opened pre (c :: u) = opened (pre ++ [c]) u.
  Proof.
    intros H1 H2. cbn [SpecMarks.opened negb andb]. destruct (N.eqb_spec c open); [contradiction|].
    destruct (N.eqb_spec c backslash); [contradiction|]. reflexivity.
  Qed.
  Lemma opened_here pre u : opened pre (open :: u) = (pre ++ [open], until close false u) :: opened (pre ++ [open]) u.
  Proof.
    cbn [SpecMarks.opened negb andb]. rewrite N.eqb_refl. destruct (N.eqb_spec open backslash); [contradiction|]. reflexivity.
  Qed.
  Lemma opened_content special t : In open special -> In backslash special -> content special t ->
    forall pre u, opened pre (t ++ u) = opened (pre ++ t) u.
  Proof.
    intros Ho Hb H. induction H as [|c t H Ht IH|c t H Ht IH]; intros pre u.
    - now rewrite app_nil_r.
    - cbn [app]. rewrite opened_one by (intros ->; contradiction). rewrite IH, <- app_assoc. reflexivity.
    - cbn [app SpecMarks.opened negb andb]. destruct (N.eqb_spec backslash open) as [E|]; [now symmetry in E|].
      rewrite N.eqb_refl. cbn [negb andb app]. rewrite IH, <- !app_assoc. reflexivity.
  Qed.

  Context (Hn : In open name_special) (Ho : In open optional_special) (Ht : In open text_special).
  Lemma name_backslash : In backslash name_special. Proof. vm_compute. tauto. Qed.
  Lemma optional_backslash : In backslash optional_special. Proof. vm_compute. tauto. Qed.
  Lemma text_backslash : In backslash text_special. Proof. vm_compute. tauto. Qed.

  Lemma opened_spaces w : Forall (fun c => c = c_ " ") w -> c_ " " <> open ->
    forall pre u, opened pre (w ++ u) = opened (pre ++ w) u.
  Proof.
    intros H Hs. induction H as [|c w -> H IH]; intros pre u; [now rewrite app_nil_r|]. cbn [app].
    rewrite opened_one by (assumption || discriminate). rewrite IH, <- app_assoc. reflexivity.
  Qed.
  Lemma opened_wrapped special l t r : In open special -> In backslash special -> content special t ->
    l <> open -> l <> backslash -> r <> open -> r <> backslash ->
    forall pre u, opened pre (([l] ++ t ++ [r]) ++ u) = opened (pre ++ [l] ++ t ++ [r]) u.
  Proof.
    intros H1 H2 H3 H4 H5 H6 H7 pre u. cbn [app]. rewrite opened_one by assumption. rewrite <- app_assoc.
    rewrite (opened_content special) by assumption. cbn [app]. rewrite opened_one by assumption.
    f_equal. rewrite <- !app_assoc. reflexivity.
  Qed.
  Lemma opened_branch b : Forall wf_alternative b -> c_ "(" <> open -> c_ ")" <> open ->
    forall pre u, opened pre (src_branch b ++ u) = opened (pre ++ src_branch b) u.
  Proof.
    intros H Hp Hq. unfold src_branch. induction H as [|a b Ha H IH]; intros pre u; [now rewrite app_nil_r|].
    cbn [map List.concat]. rewrite <- app_assoc. transitivity (opened (pre ++ src_alternative a) (List.concat (map src_alternative b) ++ u)).
    2:{ rewrite IH, app_assoc. reflexivity. }
    destruct a as [o|t]; cbn [src_alternative wf_alternative] in *.
    - apply (opened_wrapped optional_special); auto using optional_backslash; try discriminate. apply Ha.
    - apply (opened_content text_special); auto using text_backslash. apply Ha.
  Qed.
  Lemma opened_branches a : Forall wf_branch a -> c_ "(" <> open -> c_ ")" <> open -> c_ "/" <> open ->
    forall pre u, opened pre (join (s_ "/") (map src_branch a) ++ u) = opened (pre ++ join (s_ "/") (map src_branch a)) u.
  Proof.
    intros H Hp Hq Hs. induction H as [|b a Hb H IH]; intros pre u; [now rewrite app_nil_r|].
    destruct Hb as [Hb _]. destruct a as [|b' a]; [now apply opened_branch|].
    change (join (s_ "/") (map src_branch (b :: b' :: a))) with (src_branch b ++ [c_ "/"] ++ join (s_ "/") (map src_branch (b' :: a))).
    rewrite <- !app_assoc. rewrite opened_branch by assumption. cbn [app]. rewrite opened_one by (assumption || discriminate).
    rewrite IH. f_equal. rewrite <- !app_assoc. reflexivity.
  Qed.
End Opened.

Lemma brace_backslash : c_ "{" <> backslash. Proof. discriminate. Qed.
Lemma paren_backslash : c_ "(" <> backslash. Proof. discriminate. Qed.
Lemma slash_backslash : c_ "/" <> backslash. Proof. discriminate. Qed.

(** ** Parameters *)
Lemma opened_braces w : Forall wf_single w -> forall pre u,
  opened (c_ "{") (c_ "}") false pre (source w ++ u) =
  map par_input (parameters (place pre w)) ++ opened (c_ "{") (c_ "}") false (pre ++ source w) u.
Proof.
  intros H. unfold source. induction H as [|x w Hx H IH]; intros pre u; [now rewrite app_nil_r|].
  cbn [map List.concat place]. unfold parameters in *. cbn [flat_map]. rewrite map_app, <- app_assoc.
  specialize (IH (pre ++ src_single x) u). rewrite <- app_assoc in IH.
  rewrite <- app_assoc, <- IH. destruct x as [a|o|p|t|s]; cbn [place_single src_single wf_single map app] in *.
  - apply opened_branches; auto; try discriminate; try apply Hx; vm_compute; tauto.
  - apply (opened_wrapped _ _ brace_backslash optional_special); auto using optional_backslash; try discriminate; [vm_compute; tauto|apply Hx].
  - change (s_ "{") with [c_ "{"]. change (s_ "}") with [c_ "}"]. cbn [app]. rewrite opened_here by discriminate.
    rewrite <- app_assoc. cbn [app par_input].
    rewrite (until_content name_special); auto using name_backslash; try discriminate; [|vm_compute; tauto]. apply (f_equal (cons _)).
    rewrite (opened_content _ _ brace_backslash name_special); auto using name_backslash; [|vm_compute; tauto].
      rewrite opened_one by discriminate. f_equal. rewrite <- !app_assoc. reflexivity.
  - apply (opened_content _ _ brace_backslash text_special); auto using text_backslash; [vm_compute; tauto|apply Hx].
  - apply opened_spaces; [apply Hx|discriminate].
Qed.

(** ** Optionals *)
Lemma opened_optional (o : optional str) : wf_optional o -> forall pre u,
  opened (c_ "(") (c_ ")") false pre ((s_ "(" ++ opt_input o ++ s_ ")") ++ u) =
  (pre ++ s_ "(", opt_input o) :: opened (c_ "(") (c_ ")") false (pre ++ s_ "(" ++ opt_input o ++ s_ ")") u.
Proof.
  intros [_ H] pre u. change (s_ "(") with [c_ "("]. change (s_ ")") with [c_ ")"]. cbn [app].
  rewrite opened_here by discriminate. rewrite <- app_assoc. cbn [app].
  rewrite (until_content optional_special); auto using optional_backslash; try discriminate; [|vm_compute; tauto]. apply (f_equal (cons _)).
  rewrite (opened_content _ _ paren_backslash optional_special); auto using optional_backslash; [|vm_compute; tauto].
    rewrite opened_one by discriminate. f_equal. rewrite <- !app_assoc. reflexivity.
Qed.
Lemma opened_parens_branch b : Forall wf_alternative b -> forall pre u,
  opened (c_ "(") (c_ ")") false pre (src_branch b ++ u) =
  map opt_input (branch_optionals (place_branch pre b)) ++ opened (c_ "(") (c_ ")") false (pre ++ src_branch b) u.
Proof.
  intros H. unfold src_branch. induction H as [|a b Ha H IH]; intros pre u; [now rewrite app_nil_r|].
  cbn [map List.concat place_branch]. unfold branch_optionals in *. cbn [flat_map]. rewrite map_app, <- app_assoc.
  specialize (IH (pre ++ src_alternative a) u). rewrite <- app_assoc in IH. rewrite <- app_assoc, <- IH.
  destruct a as [o|t]; cbn [place_alternative src_alternative wf_alternative map app] in *.
  - now apply opened_optional.
  - apply (opened_content _ _ paren_backslash text_special); auto using text_backslash; [vm_compute; tauto|apply Ha].
Qed.
Lemma opened_parens_branches a : Forall wf_branch a -> forall pre u,
  opened (c_ "(") (c_ ")") false pre (join (s_ "/") (map src_branch a) ++ u) =
  map opt_input (flat_map branch_optionals (place_alternation pre a)) ++
  opened (c_ "(") (c_ ")") false (pre ++ join (s_ "/") (map src_branch a)) u.
Proof.
  intros H. induction H as [|b a Hb H IH]; intros pre u; [now rewrite app_nil_r|].
  destruct Hb as [Hb _]. destruct a as [|b' a].
  { cbn [map join place_alternation flat_map]. rewrite app_nil_r. now apply opened_parens_branch. }
  change (join (s_ "/") (map src_branch (b :: b' :: a))) with (src_branch b ++ [c_ "/"] ++ join (s_ "/") (map src_branch (b' :: a))).
  change (place_alternation pre (b :: b' :: a)) with (place_branch pre b :: place_alternation (pre ++ src_branch b ++ s_ "/") (b' :: a)).
  cbn [flat_map]. fold (flat_map (@branch_optionals text_at)). rewrite map_app.
  rewrite <- !app_assoc. rewrite opened_parens_branch by assumption. cbn [app]. rewrite opened_one by discriminate.
  f_equal. rewrite <- app_assoc. rewrite IH. f_equal. f_equal. rewrite <- !app_assoc. reflexivity.
Qed.
Lemma opened_parens w : Forall wf_single w -> forall pre u,
  opened (c_ "(") (c_ ")") false pre (source w ++ u) =
  map opt_input (optionals (place pre w)) ++ opened (c_ "(") (c_ ")") false (pre ++ source w) u.
Proof.
  intros H. unfold source. induction H as [|x w Hx H IH]; intros pre u; [now rewrite app_nil_r|].
  cbn [map List.concat place]. unfold optionals in *. cbn [flat_map]. rewrite map_app, <- app_assoc.
  specialize (IH (pre ++ src_single x) u). rewrite <- app_assoc in IH.
  rewrite <- app_assoc, <- IH. destruct x as [a|o|p|t|s]; cbn [place_single src_single wf_single map app] in *.
  - apply opened_parens_branches. apply Hx.
  - now apply opened_optional.
  - apply (opened_wrapped _ _ paren_backslash name_special); auto using name_backslash; try discriminate; vm_compute; tauto.
  - apply (opened_content _ _ paren_backslash text_special); auto using text_backslash; [vm_compute; tauto|apply Hx].
  - apply opened_spaces; [apply Hx|discriminate].
Qed.

(** ** Slashes *)
Lemma start_placed pre b : b <> [] -> branch_start (map (map_alternative (span_at 0 1)) (place_branch pre b)) = blen pre.
Proof.
  destruct b as [|[o|t] b]; [easy| |]; intros _; cbn [place_branch map place_alternative map_alternative branch_start span_at off fst map_optional opt_input].
  - rewrite blen_app. change (blen (s_ "(")) with 1. lia.
  - lia.
Qed.
Lemma opened_slashes_branches close a : Forall wf_branch a -> forall pre u,
  map (fun x => blen (fst x)) (opened (c_ "/") close false pre (join (s_ "/") (map src_branch a) ++ u)) =
  map branch_start (tl (map_alternation (span_at 0 1) (place_alternation pre a))) ++
  map (fun x => blen (fst x)) (opened (c_ "/") close false (pre ++ join (s_ "/") (map src_branch a)) u).
Proof.
  intros H. induction H as [|b a Hb H IH]; intros pre u; [now rewrite app_nil_r|].
  destruct Hb as [Hb _]. destruct a as [|b' a].
  { cbn [map join place_alternation map_alternation tl app]. rewrite opened_branch; try assumption; try discriminate; try reflexivity; vm_compute; tauto. }
  change (join (s_ "/") (map src_branch (b :: b' :: a))) with (src_branch b ++ [c_ "/"] ++ join (s_ "/") (map src_branch (b' :: a))).
  change (place_alternation pre (b :: b' :: a)) with (place_branch pre b :: place_alternation (pre ++ src_branch b ++ s_ "/") (b' :: a)).
  rewrite <- !app_assoc. rewrite opened_branch; [|discriminate|vm_compute; tauto|vm_compute; tauto|assumption|discriminate|discriminate].
  cbn [app]. rewrite opened_here by discriminate. cbn [map fst]. rewrite IH. unfold map_alternation. cbn [map tl].
  cbn [place_alternation map tl]. fold place_alternation. change (map (map (map_alternative (span_at 0 1))) (?x :: ?y)) with (map (map_alternative (span_at 0 1)) x :: map (map (map_alternative (span_at 0 1))) y).
  cbn [map]. rewrite start_placed.
  - cbn [app]. rewrite <- !app_assoc. reflexivity.
  - inversion H as [|? ? [_ [He _]]]. intros ->. inversion He.
Qed.
Lemma opened_slashes close w : Forall wf_single w -> forall pre u,
  map (fun x => blen (fst x)) (opened (c_ "/") close false pre (source w ++ u)) =
  later_branches (map_expression (span_at 0 1) (place pre w)) ++
  map (fun x => blen (fst x)) (opened (c_ "/") close false (pre ++ source w) u).
Proof.
  intros H. unfold source. induction H as [|x w Hx H IH]; intros pre u; [now rewrite app_nil_r|].
  cbn [map List.concat place]. unfold later_branches, map_expression in *. cbn [map flat_map]. rewrite <- app_assoc.
  specialize (IH (pre ++ src_single x) u). rewrite <- app_assoc in IH.
  rewrite <- app_assoc, <- IH. destruct x as [a|o|p|t|s]; cbn [place_single src_single wf_single map_single app] in *.
  - apply opened_slashes_branches. apply Hx.
  - f_equal. apply (opened_wrapped _ _ slash_backslash optional_special); auto using optional_backslash; try discriminate; [vm_compute; tauto|apply Hx].
  - f_equal. apply (opened_wrapped _ _ slash_backslash name_special); auto using name_backslash; try discriminate; vm_compute; tauto.
  - f_equal. apply (opened_content _ _ slash_backslash text_special); auto using text_backslash; [vm_compute; tauto|apply Hx].
  - f_equal. apply opened_spaces; [apply Hx|discriminate].
Qed.

(** ** Of what was parsed *)
Lemma parameters_located {I J} (f : I -> J) e : map par_input (parameters (map_expression f e)) = map f (map par_input (parameters e)).
Proof.
  unfold parameters, map_expression. induction e as [|x e IH]; [reflexivity|]. cbn [map flat_map]. rewrite !map_app, IH. now destruct x.
Qed.
Lemma optionals_located {I J} (f : I -> J) e : map opt_input (optionals (map_expression f e)) = map f (map opt_input (optionals e)).
Proof.
  unfold optionals, map_expression. induction e as [|x e IH]; [reflexivity|]. cbn [map flat_map]. rewrite !map_app, IH. f_equal.
  destruct x as [a| | | |]; try reflexivity. cbn [map_single]. unfold map_alternation. clear IH.
  induction a as [|b a IH]; [reflexivity|]. cbn [map flat_map]. rewrite !map_app, IH. f_equal. clear IH.
  unfold branch_optionals. induction b as [|c b IH]; [reflexivity|]. cbn [map flat_map]. rewrite !map_app, IH. now destruct c.
Qed.
Lemma braces_of w : Forall wf_single w -> map par_input (parameters (locate 0 1 w)) = between (c_ "{") (c_ "}") (source w).
Proof.
  intros H. unfold locate, between. rewrite parameters_located. f_equal. pose proof (opened_braces w H [] []) as E.
  rewrite app_nil_r in E. rewrite E. cbn [app opened]. now rewrite app_nil_r.
Qed.
Lemma parens_of w : Forall wf_single w -> map opt_input (optionals (locate 0 1 w)) = between (c_ "(") (c_ ")") (source w).
Proof.
  intros H. unfold locate, between. rewrite optionals_located. f_equal. pose proof (opened_parens w H [] []) as E.
  rewrite app_nil_r in E. rewrite E. cbn [app opened]. now rewrite app_nil_r.
Qed.
Lemma slashes_of w : Forall wf_single w -> later_branches (locate 0 1 w) = map off (between (c_ "/") (c_ "/") (source w)).
Proof.
  intros H. unfold locate, between. pose proof (opened_slashes (c_ "/") w H [] []) as E. rewrite app_nil_r in E.
  rewrite map_map. cbn [app opened map] in E. rewrite app_nil_r in E. rewrite <- E. apply map_ext. intros []. reflexivity.
Qed.
Lemma parsed_braces s e : addressable s -> expression_parse s = RetOk e ->
  map par_input (parameters e) = between (c_ "{") (c_ "}") s.
Proof. intros Hs H. apply parse_ok_iff in H as (w & [Hw _] & <- & ->); [|assumption]. now apply braces_of. Qed.
Lemma parsed_parens s e : addressable s -> expression_parse s = RetOk e ->
  map opt_input (optionals e) = between (c_ "(") (c_ ")") s.
Proof. intros Hs H. apply parse_ok_iff in H as (w & [Hw _] & <- & ->); [|assumption]. now apply parens_of. Qed.
Lemma parsed_slashes s e : addressable s -> expression_parse s = RetOk e ->
  later_branches e = map off (between (c_ "/") (c_ "/") s).
Proof. intros Hs H. apply parse_ok_iff in H as (w & [Hw _] & <- & ->); [|assumption]. now apply slashes_of. Qed.

(** ** Of expressions one after the other *)
Lemma parameter_eq {I} (x y : list (parameter I)) : map par_input x = map par_input y -> map par_id x = map par_id y -> x = y.
Proof.
  revert y. induction x as [|[i n] x IH]; intros [|[j m] y] H1 H2; try discriminate; [reflexivity|].
  cbn in H1, H2. injection H1 as -> H1. injection H2 as -> H2. f_equal. now apply IH.
Qed.
Lemma parameters_ids {I} (e : expression I) : map par_id (parameters e) = ids e.
Proof. unfold parameters, ids. induction e as [|x e IH]; [reflexivity|]. cbn [flat_map]. rewrite map_app, IH. now destruct x. Qed.
Lemma add_ids_inputs {I} k (e : expression I) : map par_input (parameters (add_ids k e)) = map par_input (parameters e).
Proof. unfold parameters, add_ids. induction e as [|x e IH]; [reflexivity|]. cbn [map flat_map]. rewrite !map_app, IH. now destruct x. Qed.
Lemma parameters_app {I} (x y : expression I) : parameters (x ++ y) = parameters x ++ parameters y.
Proof. apply flat_map_app. Qed.
Lemma optionals_app {I} (x y : expression I) : optionals (x ++ y) = optionals x ++ optionals y.
Proof. apply flat_map_app. Qed.
Lemma optionals_ids {I} k (e : expression I) : optionals (add_ids k e) = optionals e.
Proof. unfold optionals, add_ids. induction e as [|x e IH]; [reflexivity|]. cbn [map flat_map]. rewrite IH. now destruct x. Qed.
Lemma optional_eq {I} (x y : list (optional I)) : map opt_input x = map opt_input y -> x = y.
Proof. revert y. induction x as [|[i] x IH]; intros [|[j] y] H; try discriminate; [reflexivity|]. cbn in H. injection H as -> H. f_equal. now apply IH. Qed.
Lemma concat_parameters a b ea eb ec : addressable (a ++ b) ->
  expression_parse a = RetOk ea -> expression_parse b = RetOk eb -> expression_parse (a ++ b) = RetOk ec ->
  parameters ec = parameters (one_after_the_other a ea eb).
Proof.
  intros Hs Ha Hb Hc. destruct (addressable_app _ _ Hs) as [Hsa Hsb]. pose proof (parsed_braces _ _ Hs Hc) as E.
  pose proof (ids_count _ _ Hs Hc) as Ic. pose proof (ids_count _ _ Hsa Ha) as Ia. pose proof (ids_count _ _ Hsb Hb) as Ib.
  assert (P : map par_input (parameters ec) = map par_input (parameters (one_after_the_other a ea eb))).
  { apply parse_ok_iff in Ha as (wa & [Hwa _] & <- & ->); [|assumption].
    apply parse_ok_iff in Hb as (wb & [Hwb _] & <- & ->); [|assumption].
    rewrite E, <- source_app_inv, <- braces_of by now apply Forall_app. rewrite locate_app. unfold one_after_the_other.
    now rewrite !parameters_app, !map_app, add_ids_inputs. }
  apply parameter_eq; [assumption|]. rewrite !parameters_ids, Ic.
  assert (L : List.length (ids ec) = List.length (ids (one_after_the_other a ea eb))).
  { rewrite <- !parameters_ids, !map_length. apply (f_equal (@List.length span)) in P. now rewrite !map_length in P. }
  rewrite L. unfold one_after_the_other. rewrite !ids_app, ids_add, ids_map, app_length, map_length, count_from_app. rewrite <- Ia. f_equal.
  rewrite Ib at 2. rewrite count_from_add. reflexivity.
Qed.
Lemma concat_optionals a b ea eb ec : addressable (a ++ b) ->
  expression_parse a = RetOk ea -> expression_parse b = RetOk eb -> expression_parse (a ++ b) = RetOk ec ->
  optionals ec = optionals (one_after_the_other a ea eb).
Proof.
  intros Hs Ha Hb Hc. destruct (addressable_app _ _ Hs) as [Hsa Hsb]. pose proof (parsed_parens _ _ Hs Hc) as E.
  apply optional_eq. rewrite E.
  apply parse_ok_iff in Ha as (wa & [Hwa _] & <- & ->); [|assumption].
  apply parse_ok_iff in Hb as (wb & [Hwb _] & <- & ->); [|assumption].
  rewrite <- source_app_inv, <- parens_of by now apply Forall_app. rewrite locate_app. unfold one_after_the_other.
  now rewrite !optionals_app, !map_app, optionals_ids.
Qed.
Lemma shifted_names {I} (f : I -> I) (P : I -> Prop) k e : (forall i, P (f i) <-> P i) ->
  Forall (fun p => P (par_input p)) (parameters (add_ids k (map_expression f e))) <-> Forall (fun p => P (par_input p)) (parameters e).
Proof.
  intros H. rewrite <- (Forall_map par_input P), <- (Forall_map par_input P (parameters e)), add_ids_inputs, parameters_located.
  rewrite !Forall_map. split; apply Forall_impl; intros p; apply H.
Qed.
Lemma compiles_iff s : addressable s -> (exists t r, expression_regex s = XOk t r) <->
  exists e, expression_parse s = RetOk e /\ Forall (fun p => built_in (frag (par_input p))) (parameters e).
Proof.
  intros Hs. rewrite <- regex_compiles by assumption. split; [|intros (t & r & E & _); eauto].
  intros (t & r & E). apply regex_compiles; [assumption|]. destruct (regex_parsed s t r Hs E) as (e & Hp & He & _). now exists e.
Qed.
Lemma concat_compiles a b : addressable (a ++ b) -> accepted a -> accepted b ->
  (exists t r, expression_regex (a ++ b) = XOk t r) <->
  (exists t r, expression_regex a = XOk t r) /\ (exists t r, expression_regex b = XOk t r).
Proof.
  intros Hs Ha Hb. pose proof (concat_accepted a b Hs Ha Hb) as [ec Hc]. destruct (addressable_app _ _ Hs) as [Hsa Hsb].
  destruct Ha as [ea Ha], Hb as [eb Hb]. pose proof (concat_parameters a b ea eb ec Hs Ha Hb Hc) as E.
  unfold one_after_the_other in E. rewrite parameters_app in E.
  rewrite !compiles_iff by assumption. split.
  - intros (e & He & F). rewrite Hc in He. injection He as <-. rewrite E in F. apply Forall_app in F as [F1 F2].
    split; [now exists ea|]. exists eb. split; [assumption|]. revert F2.
    apply (shifted_names _ (fun i => built_in (frag i))). reflexivity.
  - intros [(e1 & E1 & F1) (e2 & E2 & F2)]. rewrite Ha in E1. rewrite Hb in E2. injection E1 as <-. injection E2 as <-.
    exists ec. split; [assumption|]. rewrite E. apply Forall_app. split; [assumption|].
    apply (shifted_names _ (fun i => built_in (frag i))); [reflexivity|assumption].
Qed.
(** As many groups as both together. *)
Lemma groups_length (l : list (parameter span)) g : Forall2 (parameter_groups frag) l g ->
  List.length (List.concat g) =
  list_sum (map (fun i => if list_eq_dec N.eq_dec (frag i) (s_ "string") then 2 else 1)%nat (map par_input l)).
Proof.
  induction 1 as [|p x l g H _ IH]; [reflexivity|]. cbn [List.concat map]. rewrite app_length, IH. unfold list_sum. cbn [fold_right]. f_equal.
  unfold parameter_groups in H. destruct list_eq_dec; [destruct H as (? & ? & _ & _ & ->)|subst]; reflexivity.
Qed.
Lemma concat_groups a b ta tb tc ra rb rc : addressable (a ++ b) ->
  expression_regex a = XOk ta ra -> expression_regex b = XOk tb rb -> expression_regex (a ++ b) = XOk tc rc ->
  List.length (groups rc) = (List.length (groups ra) + List.length (groups rb))%nat.
Proof.
  intros Hs Ha Hb Hc. destruct (addressable_app _ _ Hs) as [Hsa Hsb].
  destruct (regex_parsed _ _ _ Hsa Ha) as (ea & Pa & _), (regex_parsed _ _ _ Hsb Hb) as (eb & Pb & _), (regex_parsed _ _ _ Hs Hc) as (ec & Pc & _).
  destruct (regex_groups _ _ _ _ Hsa Pa Ha) as (la & Fa & ->), (regex_groups _ _ _ _ Hsb Pb Hb) as (lb & Fb & ->),
    (regex_groups _ _ _ _ Hs Pc Hc) as (lc & Fc & ->).
  apply groups_length in Fa, Fb, Fc. rewrite Fa, Fb, Fc, (concat_parameters a b ea eb ec Hs Pa Pb Pc).
  unfold one_after_the_other. rewrite parameters_app, map_app, add_ids_inputs, parameters_located, map_app, list_sum_app. f_equal. f_equal. rewrite (map_map (shift_span _ _)). reflexivity.
Qed.
