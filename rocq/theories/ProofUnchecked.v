(** Matchers without an open parenthesis are not looked at: which of them give a regex. *)
From Verif Require Export ProofParams2 SpecUnchecked.

(** ** The outcome of the regex parser depends on little of its state *)
Definition opening (m : mode) : Prop :=
  match m with MOpen | MOpenQ | MOpenP | MOpenLt | MName _ => True | _ => False end.
Definition level (alts items : list re) : list (option str) := flat_map groups (rev alts) ++ flat_map groups (rev items).
Definition kind_groups (k : kind) : list (option str) := match k with KCapture n => [n] | KGroup => [] end.
Definition frame_groups (f : frame) : list (option str) := level (fr_alts f) (fr_items f) ++ kind_groups (fr_kind f).
Definition state_groups (s : state) : list (option str) :=
  flat_map frame_groups (rev (st_stack s)) ++ level (st_alts s) (st_items s).
Definition is_rep (l : list re) : Prop := match l with RRep _ _ _ _ :: _ => True | _ => False end.
(** [g1], [g2]: the groups the two had before. *)
Section Alike.
Context (g1 g2 : list (option str)).
Definition same_groups (s1 s2 : state) : Prop := exists l, state_groups s1 = g1 ++ l /\ state_groups s2 = g2 ++ l.
Definition alike (s1 s2 : state) : Prop :=
  st_mode s1 = st_mode s2 /\ List.length (st_stack s1) = List.length (st_stack s2) /\
  same_groups s1 s2 /\
  (opening (st_mode s1) \/ (st_items s1 = [] <-> st_items s2 = [])) /\
  (st_mode s1 = MRep -> is_rep (st_items s1) /\ is_rep (st_items s2)).
Definition alike_out (o1 o2 : outcome state) : Prop :=
  match o1, o2 with
  | Done a, Done b => alike a b
  | Invalid, Invalid | Unsupported, Unsupported => True
  | _, _ => False
  end.

Lemma level_item r alts items : level alts (r :: items) = level alts items ++ groups r.
Proof. unfold level. cbn [rev]. rewrite flat_map_app. cbn [flat_map]. now rewrite app_nil_r, app_assoc. Qed.
Lemma groups_body items alts : groups (body items alts) = level alts items.
Proof.
  unfold body, level. rewrite groups_mk_alt. cbn [rev]. rewrite flat_map_app. cbn [flat_map]. now rewrite groups_mk_cat, app_nil_r.
Qed.
Lemma state_groups_pop m i a f k r : groups r = kind_groups (fr_kind f) ++ level a i ->
  state_groups (mkState m (r :: fr_items f) (fr_alts f) k) = state_groups (mkState m i a (f :: k)).
Proof.
  intros H. unfold state_groups. cbn [st_stack st_alts st_items rev]. rewrite flat_map_app, level_item, H. cbn [flat_map].
  unfold frame_groups. now rewrite app_nil_r, !app_assoc.
Qed.

Ltac trivially := cbn [alike_out]; exact I.
Lemma alike_mode m s1 s2 : alike s1 s2 -> ~ opening (st_mode s1) \/ opening m -> m <> MRep -> alike (set_mode m s1) (set_mode m s2).
Proof.
  intros (H1 & H2 & H3 & H4 & H5) Hm Hr. repeat split; try assumption; cbn [set_mode st_mode st_items]; try contradiction.
  destruct H4 as [H4|H4]; [|now right]. destruct Hm; [contradiction|now left].
Qed.
Lemma alike_push r s1 s2 : alike s1 s2 -> alike (push_item r s1) (push_item r s2).
Proof.
  intros (H1 & H2 & H3 & H4 & H5). split; [reflexivity|]. split; [exact H2|]. split; [|split; [right; split; discriminate|discriminate]].
  destruct H3 as (l & E1 & E2). exists (l ++ groups r). unfold state_groups, push_item in *. cbn [st_stack st_alts st_items].
  rewrite !level_item, !app_assoc. now rewrite E1, E2.
Qed.
Lemma alike_frame k s1 s2 : List.length (st_stack s1) = List.length (st_stack s2) -> same_groups s1 s2 ->
  alike (push_frame k s1) (push_frame k s2).
Proof.
  intros H2 H3. split; [reflexivity|]. split; [cbn; now rewrite H2|]. split; [|split; [now right|discriminate]].
  destruct H3 as (l & E1 & E2). exists (l ++ kind_groups k).
  assert (E : forall s, state_groups (push_frame k s) = state_groups s ++ kind_groups k).
  { intros s. unfold state_groups. cbn [push_frame st_stack st_alts st_items rev]. rewrite flat_map_app. cbn [flat_map].
    unfold frame_groups at 2. cbn [fr_alts fr_items fr_kind]. unfold level at 2. cbn [rev flat_map]. now rewrite !app_nil_r, !app_assoc. }
  now rewrite !E, E1, E2, !app_assoc.
Qed.
Lemma alike_pop s1 s2 : alike s1 s2 -> alike_out (pop_frame s1) (pop_frame s2).
Proof.
  intros (H1 & H2 & H3 & H4 & H5). unfold pop_frame. destruct s1 as [m1 i1 a1 [|f1 k1]], s2 as [m2 i2 a2 [|f2 k2]];
    try discriminate H2; [trivially|]. cbn [st_stack alike_out st_items st_alts] in *.
  split; [reflexivity|]. split; [cbn in H2 |- *; lia|]. split; [|split; [right; split; discriminate|discriminate]].
  destruct H3 as (l & E1 & E2). exists l.
  rewrite (state_groups_pop MNormal i1 a1), (state_groups_pop MNormal i2 a2)
    by (destruct (fr_kind _); cbn [groups kind_groups app]; now rewrite groups_body). now split.
Qed.
Lemma alike_repeat a b s1 s2 : alike s1 s2 -> ~ opening (st_mode s1) -> alike_out (repeat_last a b s1) (repeat_last a b s2).
Proof.
  intros (H1 & H2 & H3 & H4 & H5) Hm. destruct H4 as [H4|H4]; [contradiction|]. unfold repeat_last.
  destruct s1 as [m1 i1 a1 k1], s2 as [m2 i2 a2 k2]. cbn [st_items st_mode st_stack st_alts] in *.
  destruct i1 as [|r1 i1], i2 as [|r2 i2]; [trivially|discriminate (proj1 H4 eq_refl)|discriminate (proj2 H4 eq_refl)|].
  split; [reflexivity|]. split; [exact H2|]. split; [|split; [right; split; discriminate|now split]].
  unfold same_groups, state_groups in *. cbn [st_stack st_alts st_items] in *. rewrite !level_item in *. exact H3.
Qed.
Lemma alike_lazy s1 s2 : alike s1 s2 -> st_mode s1 = MRep -> alike_out (make_lazy s1) (make_lazy s2).
Proof.
  intros (H1 & H2 & H3 & H4 & H5) Hm. destruct (H5 Hm) as [R1 R2]. unfold make_lazy.
  destruct s1 as [m1 i1 a1 k1], s2 as [m2 i2 a2 k2]. cbn [st_items st_mode st_stack st_alts] in *.
  destruct i1 as [|[] i1]; try contradiction. destruct i2 as [|[] i2]; try contradiction.
  split; [reflexivity|]. split; [exact H2|]. split; [|split; [right; split; discriminate|discriminate]].
  unfold same_groups, state_groups in *. cbn [st_stack st_alts st_items] in *. rewrite !level_item in *. exact H3.
Qed.
Lemma alike_alt s1 s2 : alike s1 s2 -> alike (push_alt s1) (push_alt s2).
Proof.
  intros (H1 & H2 & H3 & H4 & H5). split; [reflexivity|]. split; [exact H2|]. split; [|split; [now right|discriminate]].
  unfold same_groups, state_groups, level in *. cbn [push_alt st_stack st_alts st_items rev] in *. rewrite !flat_map_app. cbn [flat_map].
  rewrite !groups_mk_cat, !app_nil_r. exact H3.
Qed.
Lemma alike_normal s1 s2 c : alike s1 s2 -> st_mode s1 = MNormal -> alike_out (step_normal s1 c) (step_normal s2 c).
Proof.
  intros H Hm. assert (Ho : ~ opening (st_mode s1)) by now rewrite Hm. unfold step_normal.
  destruct (c =? c_ "("); [now apply alike_mode; [|now right|]|]. destruct (c =? c_ ")"); [now apply alike_pop|].
  destruct (c =? c_ "|"); [now apply alike_alt|]. destruct (c =? c_ "["); [now apply alike_mode; [|now left|]|].
  destruct (c =? c_ "?"); [now apply alike_repeat|]. destruct (c =? c_ "*"); [now apply alike_repeat|].
  destruct (c =? c_ "+"); [now apply alike_repeat|]. destruct (c =? c_ "{").
  { pose proof H as (_ & _ & _ & [H4|H4] & _); [contradiction|]. destruct (st_items s1) as [|r1 i1] eqn:E1, (st_items s2) as [|r2 i2] eqn:E2;
      [trivially|discriminate (proj1 H4 eq_refl)|discriminate (proj2 H4 eq_refl)|]. now apply alike_mode; [|now left|]. }
  destruct (c =? c_ "\"); [now apply alike_mode; [|now left|]|].
  destruct (c =? c_ "."); [now apply alike_push|]. destruct (c =? c_ "^"); [now apply alike_push|].
  destruct (c =? c_ "$"); now apply alike_push.
Qed.
Lemma alike_name s1 s2 n c : alike s1 s2 -> alike_out (step_name s1 n c) (step_name s2 n c).
Proof.
  intros H. pose proof H as (_ & H2 & H3 & _). unfold step_name.
  destruct (c =? c_ ">"); [destruct n; [trivially|now apply alike_frame]|]. destruct (128 <=? c); [trivially|].
  destruct ((c =? c_ "_") || is_letter c); [now apply alike_mode; [|now right|]|]. destruct n; [trivially|].
  destruct (is_digit_char c || contains (s_ ".[]") c); [now apply alike_mode; [|now right|]|trivially].
Qed.
Lemma alike_class n l s1 s2 c : alike s1 s2 -> ~ opening (st_mode s1) -> alike_out (step_class n l s1 c) (step_class n l s2 c).
Proof.
  intros H Ho. unfold step_class, close_class. destruct (c =? c_ "]"); [now apply alike_push|]. destruct (contains (s_ "[&~") c); [trivially|].
  destruct (c =? c_ "-"); [now apply alike_mode; [|now left|]|]. destruct (c =? c_ "\"); now apply alike_mode; [|now left|].
Qed.
Lemma alike_range n l s1 s2 a b : alike s1 s2 -> ~ opening (st_mode s1) -> alike_out (add_range n l s1 a b) (add_range n l s2 a b).
Proof. intros H Ho. unfold add_range. destruct (b <? a); [trivially|now apply alike_mode; [|now left|]]. Qed.
Lemma alike_lit n l a s1 s2 c : alike s1 s2 -> ~ opening (st_mode s1) -> alike_out (class_lit n l a s1 c) (class_lit n l a s2 c).
Proof. intros H Ho. unfold class_lit. destruct a; [now apply alike_range|now apply alike_mode; [|now left|]]. Qed.
Lemma alike_count s1 s2 n c : alike s1 s2 -> ~ opening (st_mode s1) -> alike_out (step_count s1 n c) (step_count s2 n c).
Proof.
  intros H Ho. unfold step_count. destruct (is_digit_char c); [now apply alike_mode; [|now left|]|]. destruct (contains (s_ "} ,") c).
  - destruct n as [n|]; [|destruct (c =? c_ "}"); trivially]. destruct (u32_max <? n); [trivially|].
    destruct (c =? c_ "}"); [now apply alike_repeat|]. destruct (c =? c_ ","); [now apply alike_mode; [|now left|]|trivially].
  - destruct (contains [9; 10; 11; 12; 13] c || (128 <=? c)); trivially.
Qed.
Lemma alike_step s1 s2 c : alike s1 s2 -> alike_out (step s1 c) (step s2 c).
Proof.
  intros H. pose proof H as (H1 & H2 & H3 & H4 & H5). unfold step. rewrite <- H1.
  destruct (st_mode s1) eqn:E; try (assert (Ho : ~ opening (st_mode s1)) by (rewrite E; exact (fun x => x)));
    try (assert (Md : forall m, m <> MRep -> alike (set_mode m s1) (set_mode m s2)) by (intros ? Hm; apply alike_mode; [exact H|now left|exact Hm]));
    try (assert (Mo : forall m, opening m -> m <> MRep -> alike (set_mode m s1) (set_mode m s2)) by (intros ? Hm; apply alike_mode; [exact H|now right])).
  - now apply alike_normal.
  - destruct (c =? c_ "?"); [now apply alike_lazy|]. apply alike_normal; [now apply Md|reflexivity].
  - destruct (escape_meaning c) as [[| |[]|]| |]; cbn [obind]; try trivially; try (now apply alike_push); [|now apply Md].
    apply (alike_mode MWord); [now apply alike_push|now left|discriminate].
  - destruct (c =? c_ "?"); [now apply Mo|]. apply alike_normal; [now apply alike_frame|reflexivity].
  - destruct (c =? c_ ":"); [now apply alike_frame|]. destruct (c =? c_ "P"); [now apply Mo|]. destruct (c =? c_ "<"); [now apply Mo|].
    destruct (contains (s_ "=!") c); trivially.
  - destruct (c =? c_ "<"); [now apply Mo|trivially].
  - destruct (contains (s_ "=!") c); [trivially|]. now apply alike_name.
  - now apply alike_name.
  - now apply alike_count.
  - destruct (is_digit_char c); [now apply Md|]. destruct (c =? c_ "}").
    + destruct m as [m|]; [|now apply alike_repeat].
      destruct ((u32_max <? m) || (m <? n)); [trivially|now apply alike_repeat].
    + destruct ((c =? c_ " ") || contains [9; 10; 11; 12; 13] c || (128 <=? c)); trivially.
  - destruct (c =? c_ "^"); [now apply Md|]. destruct (c =? c_ "-"); [now apply Md|]. destruct (c =? c_ "]"); [now apply Md|].
    now apply alike_class.
  - destruct (c =? c_ "-"); [now apply Md|]. destruct l; [destruct (c =? c_ "]"); [now apply Md|]|]; now apply alike_class.
  - now apply alike_class.
  - destruct (c =? c_ "-"); [trivially|now apply alike_class].
  - destruct (c =? c_ "-"); [now apply Md|]. destruct (_ && _ && _ && _); [now apply Md|now apply alike_class].
  - unfold close_class. destruct (c =? c_ "]"); [now apply alike_push|]. destruct (c =? c_ "-"); [trivially|]. destruct (c =? c_ "\"); [now apply Md|now apply alike_range].
  - destruct (escape_meaning c) as [[]| |]; cbn [obind]; try trivially; [now apply alike_lit|destruct a; [trivially|now apply Md]|now apply Md].
  - destruct (c =? c_ "-"); [now apply Md|now apply alike_class].
  - unfold close_class. destruct (c =? c_ "]"); [now apply alike_push|]. destruct (c =? c_ "-"); trivially.
  - destruct (c =? c_ "&"); [now apply Md|trivially].
  - destruct (c =? c_ "b"); [now apply Md|trivially].
  - unfold close_class. destruct (c =? c_ "]"); [now apply alike_push|trivially].
  - destruct (c =? c_ "{"); [now apply Md|]. apply alike_normal; [now apply Md|reflexivity].
  - destruct (step_hex h c) as [[]| |]; cbn [obind]; try trivially; [now apply Md|now apply alike_push].
  - destruct (step_hex h c) as [[]| |]; cbn [obind]; try trivially; [now apply Md|now apply alike_lit].
  - destruct (is_letter c || (c =? c_ "-")); [trivially|]. now apply alike_count.
Qed.
Lemma alike_run t : forall s1 s2, alike s1 s2 -> alike_out (run t s1) (run t s2).
Proof.
  induction t as [|c t IH]; intros s1 s2 H; cbn [run]; [exact H|]. pose proof (alike_step s1 s2 c H) as Hc.
  destruct (step s1 c), (step s2 c); try contradiction; cbn [obind]; try trivially. now apply IH.
Qed.
End Alike.

(** ** Inside of brackets *)
Definition inside (m : mode) : Prop :=
  match m with
  | MClass0 | MClass1 _ _ | MClassIn _ _ | MClassDash _ _ | MClassLit _ _ _ | MClassRange _ _ _ | MClassPerl _ _
  | MClassPerlDash _ _ | MClassHex _ _ _ _ | MFail1 | MFail2 | MFail3 => True
  | _ => False
  end.
Definition in_escape (m : mode) : Prop := match m with MClassEsc _ _ _ => True | _ => False end.
(** No closing bracket without a backslash. *)
Inductive units : str -> Prop :=
| units_nil : units []
| units_char c t : c <> c_ "]" -> c <> c_ "\" -> units t -> units (c :: t)
| units_pair c t : units t -> units (c_ "\" :: c :: t).
Lemma units_app a b : units a -> units b -> units (a ++ b).
Proof. intros Ha Hb. induction Ha; cbn [app]; [assumption|now apply units_char|now apply units_pair]. Qed.
Lemma units_flat_map {A} (f : A -> str) l : (forall x, In x l -> units (f x)) -> units (flat_map f l).
Proof. intros H. induction l as [|x l IH]; cbn [flat_map]; [constructor|]. apply units_app; [apply H; now left|]. apply IH. intros y Hy. apply H. now right. Qed.

Ltac got := let H := fresh in intros H; first [discriminate H | injection H as <-].
Ltac here := got; exact I.
Lemma class_inside n l s c s' : c <> c_ "]" -> c <> c_ "\" -> step_class n l s c = Done s' -> inside (st_mode s').
Proof.
  intros H1 H2. unfold step_class. destruct (N.eqb_spec c (c_ "]")); [contradiction|]. destruct (contains (s_ "[&~") c); [here|].
  destruct (c =? c_ "-"); [here|]. destruct (N.eqb_spec c (c_ "\")); [contradiction|here].
Qed.
Lemma lit_inside n l a s c s' : class_lit n l a s c = Done s' -> inside (st_mode s').
Proof. unfold class_lit, add_range. destruct a; [destruct (_ <? _)|]; here. Qed.
Lemma step_inside s c s' : c <> c_ "]" -> c <> c_ "\" -> inside (st_mode s) -> step s c = Done s' -> inside (st_mode s').
Proof.
  intros H1 H2 Hs. unfold step. destruct (st_mode s) eqn:E; try contradiction; clear Hs.
  - destruct (c =? c_ "^"); [here|]. destruct (c =? c_ "-"); [here|]. destruct (c =? c_ "]"); [here|]. now apply class_inside.
  - destruct (c =? c_ "-"); [here|]. destruct l; [destruct (c =? c_ "]"); [here|]|]; now apply class_inside.
  - now apply class_inside.
  - destruct (c =? c_ "-"); [here|now apply class_inside].
  - destruct (c =? c_ "-"); [here|]. destruct (_ && _ && _ && _); [here|now apply class_inside].
  - destruct (N.eqb_spec c (c_ "]")); [contradiction|]. destruct (c =? c_ "-"); [here|]. destruct (N.eqb_spec c (c_ "\")); [contradiction|].
    unfold add_range. destruct (_ <? _); here.
  - destruct (c =? c_ "-"); [here|now apply class_inside].
  - destruct (N.eqb_spec c (c_ "]")); [contradiction|]. destruct (c =? c_ "-"); here.
  - destruct (c =? c_ "&"); here.
  - destruct (c =? c_ "b"); here.
  - destruct (N.eqb_spec c (c_ "]")); [contradiction|here].
  - destruct (step_hex h c) as [[]| |]; cbn [obind]; try here. apply lit_inside.
Qed.
Lemma hex_backslash h : step_hex h (c_ "\") = Invalid.
Proof. now destruct h. Qed.
Lemma hex_close h : step_hex h (c_ ")") = Invalid.
Proof. now destruct h. Qed.
Lemma step_backslash s s' : inside (st_mode s) -> step s (c_ "\") = Done s' -> in_escape (st_mode s').
Proof.
  intros Hs. unfold step. destruct (st_mode s) eqn:E; try contradiction; clear Hs; cbn -[step_class]; try here; try (intros H; injection H as <-; exact I).
  all: try (unfold step_class; cbn; here).
  - destruct l; unfold step_class; cbn; here.
  - rewrite hex_backslash. discriminate.
Qed.
Lemma step_in_escape s c s' : in_escape (st_mode s) -> step s c = Done s' -> inside (st_mode s').
Proof.
  unfold step. destruct (st_mode s) eqn:E; try contradiction; intros _.
  destruct (escape_meaning c) as [[]| |]; cbn [obind]; try here; [apply lit_inside|destruct a; here].
Qed.
Lemma run_units t : units t -> forall s s', inside (st_mode s) -> run t s = Done s' -> inside (st_mode s').
Proof.
  induction 1 as [|c t H1 H2 _ IH|c t _ IH]; intros s s' Hs; cbn [run].
  - intros H. injection H as <-. exact Hs.
  - destruct (step s c) as [s1| |] eqn:E; cbn [obind]; [|discriminate..]. apply IH. eapply step_inside; eassumption.
  - destruct (step s (c_ "\")) as [s1| |] eqn:E; cbn [obind]; [|discriminate..].
    destruct (step s1 c) as [s2| |] eqn:E2; cbn [obind]; [|discriminate..]. apply IH. eapply step_in_escape; [|exact E2].
    eapply step_backslash; eassumption.
Qed.
(** After a closing parenthesis. *)
Lemma step_close s s' : step s (c_ ")") = Done s' -> st_mode s' = MNormal \/ inside (st_mode s').
Proof.
  unfold step. destruct (st_mode s) eqn:E; cbn -[step_class pop_frame add_range]; try discriminate;
    try (intros H; injection H as <-; cbn; auto; fail).
  all: try (unfold pop_frame; destruct (st_stack s); intros H; [discriminate H|injection H as <-; auto]; fail).
  all: try (unfold pop_frame; cbn; intros H; injection H as <-; auto; fail).
  all: try (unfold step_class; cbn; intros H; injection H as <-; cbn; auto; fail).
  all: try (intros H; right; revert H; here).
  all: try (destruct n; discriminate).
  - unfold pop_frame. cbn [set_mode st_stack]. destruct (st_stack s); intros H; [discriminate H|injection H as <-; auto].
  - destruct l; unfold step_class; cbn; intros H; injection H as <-; cbn; auto.
  - unfold add_range. destruct (_ <? _); intros H; [discriminate H|injection H as <-; cbn; auto].
  - intros H. right. exact (lit_inside _ _ _ _ _ _ H).
  - unfold pop_frame. cbn [set_mode st_stack]. destruct (st_stack s); intros H; [discriminate H|injection H as <-; auto].
  - rewrite hex_close. discriminate.
  - rewrite hex_close. discriminate.
Qed.

(** ** One parameter in a text without others *)
Lemma distinct_names r r' : groups r = groups r' -> distinct (group_names r) = distinct (group_names r').
Proof. unfold group_names. now intros ->. Qed.
Lemma is_regex_iff t : is_regex t <-> exists s, run t init = Done s /\ ready (st_mode s) /\ st_stack s = [] /\
  distinct (flat_map (fun n => match n with Some n => [n] | None => [] end) (state_groups s)) = true.
Proof.
  unfold is_regex, regex_new, parse_syntax. split.
  - intros (r & H). destruct (run t init) as [s| |]; cbn [obind] in H; try discriminate H. exists s. split; [reflexivity|].
    unfold finish in H. destruct s as [m i a k]. cbn [st_mode st_stack st_items st_alts] in *.
    assert (ready m /\ k = []) as [Hm ->] by (destruct m; try discriminate H; destruct k; try discriminate H; repeat constructor).
    split; [exact Hm|]. split; [reflexivity|].
    assert (E : (if distinct (group_names (body i a)) then Done (body i a) else Invalid) = Done r) by now destruct Hm.
    unfold group_names in E. rewrite groups_body in E. unfold state_groups. cbn [st_stack rev flat_map app st_alts st_items].
    now destruct (distinct _).
  - intros (s & -> & Hm & Hk & Hd). cbn [obind]. destruct s as [m i a k]. cbn [st_mode st_stack] in *. subst k.
    exists (body i a). unfold finish. cbn [st_mode st_stack st_items st_alts].
    assert (E : distinct (group_names (body i a)) = true).
    { unfold group_names. rewrite groups_body. exact Hd. }
    destruct Hm; cbn [obind]; now rewrite E.
Qed.
Lemma inside_not_ready m : inside m -> ~ ready m.
Proof. intros H Hr. destruct Hr; exact H. Qed.
Lemma one_parameter A B la lb v : adds A la -> flat_map groups la = [] -> adds B lb -> flat_map groups lb = [] -> units B ->
  is_regex (A ++ s_ "(" ++ v ++ s_ ")" ++ B) <-> is_regex (s_ "(" ++ v ++ s_ ")").
Proof.
  intros HA Ga HB Gb HU.
  destruct (HA MNormal [] [] [] ready_normal) as (ma & Hma & Ea). rewrite app_nil_r in Ea.
  set (s1 := mkState MOpen [] [] []). set (s2 := mkState MOpen (rev la) [] []).
  assert (Hs : alike [] [] s1 s2).
  { split; [reflexivity|]. split; [reflexivity|]. split; [|split; [left; exact I|discriminate]].
    exists []. unfold state_groups, level. cbn. now rewrite rev_involutive, Ga. }
  assert (E1 : run (s_ "(" ++ v ++ s_ ")") init = run (v ++ s_ ")") s1) by reflexivity.
  assert (E2 : run (A ++ s_ "(" ++ v ++ s_ ")" ++ B) init = obind (run (v ++ s_ ")") s2) (run B)).
  { rewrite run_app. unfold init. rewrite Ea. cbn [obind]. change (s_ "(" ++ v ++ s_ ")" ++ B) with (c_ "(" :: v ++ s_ ")" ++ B).
    rewrite run_cons. replace (step _ _) with (Done s2) by now destruct Hma. cbn [obind]. now rewrite app_assoc, run_app. }
  rewrite !is_regex_iff, E1, E2. pose proof (alike_run [] [] (v ++ s_ ")") s1 s2 Hs) as H.
  destruct (run (v ++ s_ ")") s1) as [t1| |] eqn:R1, (run (v ++ s_ ")") s2) as [t2| |] eqn:R2; try contradiction; cbn [obind];
    try (split; intros (? & E & _); discriminate E).
  destruct H as (H1 & H2 & (l & H3 & H3') & _).
  assert (Hm : st_mode t2 = MNormal \/ inside (st_mode t2)).
  { rewrite run_app in R2. destruct (run v s2) as [t0| |]; try discriminate R2. cbn [obind] in R2. unfold s_ in R2. cbn [map] in R2.
    apply (step_close t0). revert R2. change (s_ ")") with [c_ ")"]. cbn [run]. destruct (step t0 (c_ ")")) as [t3| |]; cbn [obind]; easy. }
  destruct Hm as [Hm|Hm].
  - destruct t2 as [m2 i2 a2 k2]. cbn [st_mode] in *. rewrite Hm in *. destruct (HB MNormal i2 a2 k2 ready_normal) as (mb & Hmb & Eb). rewrite Eb.
    assert (Eg : state_groups (mkState mb (rev lb ++ i2) a2 k2) = state_groups (mkState MNormal i2 a2 k2)).
    { unfold state_groups, level. cbn [st_stack st_alts st_items]. rewrite rev_app_distr, rev_involutive, flat_map_app, Gb.
      now rewrite app_nil_r. }
    assert (Ek : k2 = [] <-> st_stack t1 = []).
    { cbn [st_stack] in H2. destruct (st_stack t1), k2; try discriminate H2; split; easy. }
    split.
    + intros (s & E & Hr & Hk & Hd). injection E as <-. cbn [st_stack] in Hk. exists t1. split; [reflexivity|].
      rewrite H1. split; [constructor|]. split; [now apply Ek|]. now rewrite H3, <- H3', <- Eg.
    + intros (s & E & Hr & Hk & Hd). injection E as <-. eexists. split; [reflexivity|]. split; [exact Hmb|].
      split; [now apply Ek|]. now rewrite Eg, H3', <- H3.
  - split.
    + intros (s & E & Hr & _). apply run_units in E; [|exact HU|exact Hm]. now apply inside_not_ready in E.
    + intros (s & E & Hr & _). injection E as <-. rewrite H1 in Hr. now apply inside_not_ready in Hm.
Qed.

(** ** The texts of the other nodes *)
Lemma units_quote c : units (quote c).
Proof.
  unfold quote. destruct (in_dec N.eq_dec c regex_special) as [H|H]; [apply units_pair; constructor|].
  apply units_char; [| |constructor]; intros ->; apply H; cbn; auto 20.
Qed.
Lemma units_literal t : forallb (fun c => negb (c =? c_ "]") && negb (c =? c_ "\")) t = true -> units t.
Proof.
  induction t as [|c t IH]; cbn [forallb]; intros H; [constructor|]. apply andb_prop in H as [H1 H2]. apply andb_prop in H1 as [H0 H1].
  apply negb_true_iff, N.eqb_neq in H0, H1. now apply units_char; [| |apply IH].
Qed.
Section Nodes.
  Context {I : Type} (elements : I -> str) (tf : parameter I -> str) (rf : parameter I -> list re).
  Lemma units_text i : units (text_of elements i).
  Proof. unfold text_of. rewrite escape_for_regex_eq. apply units_flat_map. intros c _. apply units_quote. Qed.
  Lemma units_optional o : units (optional_text elements o).
  Proof. unfold optional_text. apply units_app; [now apply units_literal|]. apply units_app; [apply units_text|now apply units_literal]. Qed.
  Lemma units_branch b : units (branch_text elements b).
  Proof. apply units_flat_map. intros [o|t] _; [apply units_optional|apply units_text]. Qed.
  Lemma units_alternation a : units (alternation_text elements a).
  Proof.
    unfold alternation_text. apply units_app; [now apply units_literal|]. apply units_app; [|now apply units_literal].
    destruct a as [|b a]; [constructor|]. rewrite removelast_bars. apply units_app; [apply units_branch|].
    unfold bars. apply units_flat_map. intros x Hx. apply in_map_iff in Hx as (b' & <- & _). cbn [fst].
    apply units_app; [now apply units_literal|apply units_branch].
  Qed.
  Lemma no_parameters_text e : parameters e = [] ->
    units (flat_map (single_text elements tf) e) /\ adds (flat_map (single_text elements tf) e) (flat_map (re_single elements rf) e) /\
    flat_map groups (flat_map (re_single elements rf) e) = [].
  Proof.
    intros H. assert (Hx : forall x, In x e -> forall p, x <> ExParameter p).
    { intros x Hx p ->. apply in_parameters in Hx. now rewrite H in Hx. }
    split; [|split].
    - apply units_flat_map. intros x Hi. specialize (Hx x Hi). destruct x; cbn [single_text].
      + apply units_alternation.
      + apply units_optional.
      + now destruct (Hx p).
      + apply units_text.
      + apply units_text.
    - apply adds_flat_map. intros x Hi. specialize (Hx x Hi). destruct x; cbn [single_text re_single].
      + apply adds_one_adds, adds_alternation.
      + apply adds_optional.
      + now destruct (Hx p).
      + apply adds_text.
      + apply adds_text.
    - clear H. induction e as [|x e IH]; [reflexivity|]. cbn [flat_map]. rewrite flat_map_app, IH by (intros y Hy; apply Hx; now right).
      specialize (Hx x (or_introl eq_refl)). rewrite app_nil_r. destruct x; cbn [re_single]; try now destruct (Hx p).
      + cbn [flat_map]. now rewrite groups_alternation.
      + cbn [flat_map re_optional groups]. now rewrite groups_mk_cat, groups_text.
      + apply groups_text.
      + apply groups_text.
  Qed.
End Nodes.

Section Whole.
  Context (digits spaces words : ranges) (to_string : hir -> str) (get : provider span).
  Notation whole := (regex_with_parameters digits spaces words to_string get).
  Lemma one_unchecked s e1 p e2 v : expression_parse s = RetOk (e1 ++ ExParameter p :: e2) ->
    parameters e1 = [] -> parameters e2 = [] -> get (par_input p) = Some v -> ~ In (c_ "(") v ->
    (exists t r, whole s = XOk t r) <-> is_regex (s_ "(" ++ v ++ s_ ")").
  Proof.
    intros H H1 H2 Hv Hp.
    assert (Hc : Forall (custom_checked frag get) (parameters (e1 ++ ExParameter p :: e2))).
    { rewrite parameters_app, H1. change (ExParameter p :: e2) with ([ExParameter p] ++ e2). rewrite parameters_app, H2. constructor; [|constructor].
      unfold custom_checked. rewrite Hv. contradiction. }
    rewrite (whole_checked digits spaces words to_string get s _ H Hc).
    set (tf := custom_text frag digits spaces words to_string get). set (rf := fun _ : parameter span => @nil re).
    destruct (no_parameters_text frag tf rf e1 H1) as (_ & A1 & G1). destruct (no_parameters_text frag tf rf e2 H2) as (U2 & A2 & G2).
    assert (Et : text_by frag tf (e1 ++ ExParameter p :: e2) =
      (s_ "^" ++ flat_map (single_text frag tf) e1) ++ s_ "(" ++ v ++ s_ ")" ++ flat_map (single_text frag tf) e2 ++ s_ "$").
    { unfold text_by. rewrite flat_map_app. cbn [flat_map]. replace (single_text frag tf (ExParameter p)) with (s_ "(" ++ v ++ s_ ")").
      - rewrite <- !app_assoc. reflexivity.
      - cbn [single_text]. unfold tf, custom_text, matcher_text. rewrite Hv. apply contains_false in Hp. rewrite Hp. now destruct (regex_new v). }
    rewrite Et. etransitivity; [|eapply (one_parameter (s_ "^" ++ flat_map (single_text frag tf) e1) (flat_map (single_text frag tf) e2 ++ s_ "$") (RLook LStart :: _) (_ ++ [RLook LEnd]) v)].
    - unfold is_regex. destruct (regex_new _) as [r| |].
      + split; intros _; [now exists r|eauto].
      + split; [intros (? & ? & E)|intros (? & E)]; discriminate E.
      + split; [intros (? & ? & E)|intros (? & E)]; discriminate E.
    - apply (adds_app (s_ "^") _ [RLook LStart]); [|exact A1]. apply adds_one_adds. intros m i a k Hm. now destruct Hm.
    - cbn [flat_map groups app]. exact G1.
    - apply adds_app; [exact A2|]. apply adds_one_adds. intros m i a k Hm. now destruct Hm.
    - rewrite flat_map_app, G2. reflexivity.
    - apply units_app; [exact U2|now apply units_literal].
  Qed.
End Whole.

(** ** Matchers in parentheses *)
Definition omap {A B} (f : A -> B) (o : outcome A) : outcome B := obind o (fun a => Done (f a)).
Notation lift := ProofFrame.lift.
(** A character that neither opens nor closes a group. *)
Definition quiet (k : list frame) (s : state) (c : char) : Prop :=
  step (lift k s) c = omap (lift k) (step s c) /\
  forall s', step s c = Done s' -> st_stack s' = st_stack s /\ ~ opening (st_mode s').
Section Quiet.
  Context (k : list frame).
  Ltac fine := split; [reflexivity|intros ? H; first [discriminate H|injection H as <-; split; [reflexivity|exact (fun x => x)]]].
  Definition calm (f : state -> outcome state) (s : state) : Prop :=
    f (lift k s) = omap (lift k) (f s) /\ forall s', f s = Done s' -> st_stack s' = st_stack s /\ ~ opening (st_mode s').
  Lemma calm_repeat a b s : calm (repeat_last a b) s.
  Proof. unfold calm, repeat_last, lift. destruct s as [m [|i l] al st]; cbn; fine. Qed.
  Lemma calm_lazy s : calm make_lazy s.
  Proof. unfold calm, make_lazy, lift. destruct s as [m [|[] l] al st]; cbn; fine. Qed.
  Lemma calm_normal s c : c <> c_ "(" -> c <> c_ ")" -> calm (fun s => step_normal s c) s.
  Proof.
    intros H1 H2. unfold calm, step_normal. destruct (N.eqb_spec c (c_ "(")); [contradiction|]. destruct (N.eqb_spec c (c_ ")")); [contradiction|].
    destruct (c =? c_ "|"); [fine|]. destruct (c =? c_ "["); [fine|].
    destruct (c =? c_ "?"); [apply calm_repeat|]. destruct (c =? c_ "*"); [apply calm_repeat|].
    destruct (c =? c_ "+"); [apply calm_repeat|].
    destruct (c =? c_ "{"); [destruct s as [m [|i l] al st]; cbn; fine|].
    destruct (c =? c_ "\"); [fine|]. destruct (c =? c_ "."); [fine|].
    destruct (c =? c_ "^"); [fine|]. destruct (c =? c_ "$"); fine.
  Qed.
  Lemma calm_class n l s c : calm (fun s => step_class n l s c) s.
  Proof.
    unfold calm, step_class. destruct (c =? c_ "]"); [fine|]. destruct (contains (s_ "[&~") c); [fine|].
    destruct (c =? c_ "-"); [fine|]. destruct (c =? c_ "\"); fine.
  Qed.
  Lemma calm_range n l s a b : calm (fun s => add_range n l s a b) s.
  Proof. unfold calm, add_range. destruct (b <? a); fine. Qed.
  Lemma calm_lit n l a s c : calm (fun s => class_lit n l a s c) s.
  Proof. unfold class_lit. destruct a; [apply calm_range|]. unfold calm. fine. Qed.
  Lemma calm_count n s c : calm (fun s => step_count s n c) s.
  Proof.
    unfold calm, step_count. destruct (is_digit_char c); [fine|]. destruct (contains (s_ "} ,") c).
    - destruct n as [n|]; [|destruct (c =? c_ "}"); fine]. destruct (u32_max <? n); [fine|].
      destruct (c =? c_ "}"); [apply calm_repeat|]. destruct (c =? c_ ","); fine.
    - destruct (contains [9; 10; 11; 12; 13] c || (128 <=? c)); fine.
  Qed.
  Lemma step_quiet s c : c <> c_ "(" -> ~ opening (st_mode s) -> ~ (ready (st_mode s) /\ c = c_ ")") -> quiet k s c.
  Proof.
    intros H1 Ho Hr. unfold quiet, step. change (st_mode (lift k s)) with (st_mode s).
    destruct (st_mode s) eqn:E; try (exfalso; apply Ho; exact I).
    - apply (calm_normal s); [exact H1|]. intros ->. apply Hr. repeat constructor.
    - destruct (c =? c_ "?"); [apply calm_lazy|].
      change (set_mode MNormal (lift k s)) with (lift k (set_mode MNormal s)). apply (calm_normal (set_mode MNormal s)); [exact H1|].
      intros ->. apply Hr. repeat constructor.
    - destruct (escape_meaning c) as [[| |[]|]| |]; cbn [obind omap]; fine.
    - apply (calm_count _ s).
    - destruct (is_digit_char c); [fine|]. destruct (c =? c_ "}").
      + destruct m as [m|]; [|apply calm_repeat].
        destruct ((u32_max <? m) || (m <? n)); [fine|apply calm_repeat].
      + destruct ((c =? c_ " ") || contains [9; 10; 11; 12; 13] c || (128 <=? c)); fine.
    - destruct (c =? c_ "^"); [fine|]. destruct (c =? c_ "-"); [fine|]. destruct (c =? c_ "]"); [fine|].
      apply (calm_class _ _ s).
    - destruct (c =? c_ "-"); [fine|]. destruct l; [destruct (c =? c_ "]"); [fine|]|]; apply (calm_class _ _ s).
    - apply (calm_class _ _ s).
    - destruct (c =? c_ "-"); [fine|apply (calm_class _ _ s)].
    - destruct (c =? c_ "-"); [fine|]. destruct (_ && _ && _ && _); [fine|apply (calm_class _ _ s)].
    - destruct (c =? c_ "]"); [fine|]. destruct (c =? c_ "-"); [fine|]. destruct (c =? c_ "\"); [fine|apply (calm_range _ _ s)].
    - destruct (escape_meaning c) as [[]| |]; cbn [obind]; try fine; [apply (calm_lit _ _ _ s)|destruct a; fine].
    - destruct (c =? c_ "-"); [fine|apply (calm_class _ _ s)].
    - destruct (c =? c_ "]"); [fine|]. destruct (c =? c_ "-"); fine.
    - destruct (c =? c_ "&"); fine.
    - destruct (c =? c_ "b"); fine.
    - destruct (c =? c_ "]"); fine.
    - destruct (c =? c_ "{"); [fine|].
      change (set_mode MNormal (lift k s)) with (lift k (set_mode MNormal s)). apply (calm_normal (set_mode MNormal s)); [exact H1|].
      intros ->. apply Hr. repeat constructor.
    - destruct (step_hex h c) as [[]| |]; cbn [obind]; fine.
    - destruct (step_hex h c) as [[]| |]; cbn [obind]; try fine. apply (calm_lit _ _ _ s).
    - destruct (is_letter c || (c =? c_ "-")); [fine|]. apply (calm_count _ s).
  Qed.
End Quiet.
Lemma ready_dec m : {ready m} + {~ ready m}.
Proof. destruct m; (left; constructor) || (right; intros H; inversion H). Qed.
Lemma ready_opening m : ready m -> ~ opening m.
Proof. intros [] H; exact H. Qed.

Definition popped (f : frame) (s : state) : state :=
  mkState MNormal (match fr_kind f with KCapture n => RCap n (body (st_items s) (st_alts s)) | KGroup => body (st_items s) (st_alts s) end :: fr_items f)
    (fr_alts f) [].
(** Reading the inside of a group and a closing parenthesis. *)
Lemma close_lift f s : ready (st_mode s) -> st_stack s = [] -> step (lift [f] s) (c_ ")") = Done (popped f s).
Proof. destruct s as [m i a k]. cbn [st_mode st_stack]. intros [] ->; reflexivity. Qed.
Lemma run_group f u : ~ In (c_ "(") u -> forall s s2, st_stack s = [] -> ~ opening (st_mode s) ->
  run (u ++ s_ ")") (lift [f] s) = Done s2 -> ready (st_mode s2) -> st_stack s2 = [] ->
  (exists s', run u s = Done s' /\ ready (st_mode s') /\ st_stack s' = []) \/
  exists x w s', u = x ++ s_ ")" ++ w /\ run x s = Done s' /\ ready (st_mode s') /\ st_stack s' = [] /\
    run (w ++ s_ ")") (popped f s') = Done s2.
Proof.
  induction u as [|c u IH]; intros Hu s s2 Hk Ho H Hr Hk2.
  - left. exists s. split; [reflexivity|]. split; [|exact Hk]. destruct (ready_dec (st_mode s)) as [|Hn]; [assumption|exfalso].
    destruct (step_quiet [f] s (c_ ")")) as [E Hs]; [easy|exact Ho|tauto|]. cbn [app] in H. change (s_ ")") with [c_ ")"] in H. cbn [run] in H.
    rewrite E in H. destruct (step s (c_ ")")) as [s1| |] eqn:E1; cbn [omap obind] in H; try discriminate H. injection H as <-.
    destruct (Hs s1 eq_refl) as [Hs1 _]. cbn [lift st_stack] in Hk2. now rewrite Hs1, Hk in Hk2.
  - destruct (ready_dec (st_mode s)) as [Hn|Hn]; [destruct (N.eq_dec c (c_ ")")) as [->|Hc]|].
    + right. exists [], u, s. split; [reflexivity|]. split; [reflexivity|]. split; [exact Hn|]. split; [exact Hk|].
      cbn [app run] in H. now rewrite (close_lift f s Hn Hk) in H.
    + destruct (step_quiet [f] s c) as [E Hs]; [intros ->; apply Hu; now left|exact Ho|tauto|].
      cbn [app run] in H. rewrite E in H. destruct (step s c) as [s1| |] eqn:E1; cbn [omap obind] in H; try discriminate H.
      destruct (Hs s1 eq_refl) as [Hs1 Ho1]. apply IH in H; [|intros Hi; apply Hu; now right|congruence|exact Ho1|exact Hr|exact Hk2].
      destruct H as [(s' & H)|(x & w & s' & -> & H & H')].
      * left. exists s'. cbn [run]. now rewrite E1.
      * right. exists (c :: x), w, s'. split; [reflexivity|]. cbn [run]. now rewrite E1.
    + destruct (step_quiet [f] s c) as [E Hs]; [intros ->; apply Hu; now left|exact Ho|tauto|].
      cbn [app run] in H. rewrite E in H. destruct (step s c) as [s1| |] eqn:E1; cbn [omap obind] in H; try discriminate H.
      destruct (Hs s1 eq_refl) as [Hs1 Ho1]. apply IH in H; [|intros Hi; apply Hu; now right|congruence|exact Ho1|exact Hr|exact Hk2].
      destruct H as [(s' & H)|(x & w & s' & -> & H & H')].
      * left. exists s'. cbn [run]. now rewrite E1.
      * right. exists (c :: x), w, s'. split; [reflexivity|]. cbn [run]. now rewrite E1.
Qed.

Lemma run_flat w : ~ In (c_ "(") w -> forall s s', st_stack s = [] -> ~ opening (st_mode s) -> run w s = Done s' ->
  st_stack s' = [] /\ ~ opening (st_mode s').
Proof.
  induction w as [|c w IH]; intros Hw s s' Hk Ho; cbn [run]; [intros H; injection H as <-; now split|].
  destruct (step s c) as [s1| |] eqn:E; cbn [obind]; [|discriminate..]. intros H.
  assert (Hq : quiet [] s c).
  { apply step_quiet; [intros ->; apply Hw; now left|exact Ho|]. intros [Hr ->]. destruct s as [m i a k]. cbn [st_stack st_mode] in *. subst k.
    destruct Hr; discriminate E. }
  destruct (proj2 Hq s1 E) as [H1 H2]. apply IH in H; [exact H|intros Hi; apply Hw; now right|congruence|exact H2].
Qed.
Lemma close_escaped s s' : step s (c_ ")") = Done s' -> st_stack s = [] -> ~ opening (st_mode s) -> ready (st_mode s') -> st_mode s = MEsc.
Proof.
  intros H Hk Ho Hr. destruct (st_mode s) eqn:E; try reflexivity; try (exfalso; apply Ho; exact I);
    try (exfalso; assert (Hi : inside (st_mode s)) by (rewrite E; exact I); apply (inside_not_ready (st_mode s')); [|exact Hr]; apply (step_inside s (c_ ")")); [discriminate|discriminate|exact Hi|exact H]).
  - exfalso. unfold step in H. rewrite E in H. cbn in H. unfold pop_frame in H. now rewrite Hk in H.
  - exfalso. unfold step in H. rewrite E in H. cbn in H. unfold pop_frame in H. cbn [set_mode st_stack] in H. now rewrite Hk in H.
  - exfalso. unfold step in H. rewrite E in H. discriminate H.
  - exfalso. unfold step in H. rewrite E in H. discriminate H.
  - exfalso. assert (Hi : in_escape (st_mode s)) by (rewrite E; exact I). apply (step_in_escape _ (c_ ")") s') in Hi; [|exact H]. now apply inside_not_ready in Hi.
  - exfalso. unfold step in H. rewrite E in H. cbn in H. unfold pop_frame in H. cbn [set_mode st_stack] in H. now rewrite Hk in H.
  - exfalso. unfold step in H. rewrite E, hex_close in H. discriminate H.
  - exfalso. unfold step in H. rewrite E in H. discriminate H.
Qed.
Lemma normal_escape s c s' : step_normal s c = Done s' -> st_mode s' = MEsc -> c = c_ "\".
Proof.
  unfold step_normal, pop_frame, repeat_last.
  destruct (c =? c_ "("); [got; discriminate|]. destruct (c =? c_ ")"); [destruct (st_stack s); got; discriminate|].
  destruct (c =? c_ "|"); [got; discriminate|]. destruct (c =? c_ "["); [got; discriminate|].
  destruct (c =? c_ "?"); [destruct (st_items s); got; discriminate|]. destruct (c =? c_ "*"); [destruct (st_items s); got; discriminate|].
  destruct (c =? c_ "+"); [destruct (st_items s); got; discriminate|].
  destruct (c =? c_ "{"); [destruct (st_items s); got; discriminate|].
  destruct (N.eqb_spec c (c_ "\")); [auto|]. destruct (c =? c_ "."); [got; discriminate|].
  destruct (c =? c_ "^"); [got; discriminate|]. destruct (c =? c_ "$"); got; discriminate.
Qed.
Lemma class_escape n l s c s' : step_class n l s c = Done s' -> st_mode s' = MEsc -> c = c_ "\".
Proof.
  unfold step_class. destruct (c =? c_ "]"); [got; discriminate|]. destruct (contains (s_ "[&~") c); [got|].
  destruct (c =? c_ "-"); [got; discriminate|]. destruct (N.eqb_spec c (c_ "\")); [auto|]. got; discriminate.
Qed.
Lemma count_escape s n c s' : step_count s n c = Done s' -> st_mode s' = MEsc -> c = c_ "\".
Proof.
  unfold step_count. destruct (is_digit_char c); [got; discriminate|]. unfold repeat_last. destruct (contains (s_ "} ,") c).
  - destruct n as [n|]; [|destruct (c =? c_ "}"); got]. destruct (u32_max <? n); [got|].
    destruct (c =? c_ "}"); [destruct (st_items s); got; discriminate|]. destruct (c =? c_ ","); got; discriminate.
  - destruct (contains [9; 10; 11; 12; 13] c || (128 <=? c)); got.
Qed.
Lemma lit_escape n l a s c c' s' : class_lit n l a s c = Done s' -> st_mode s' = MEsc -> c' = c_ "\".
Proof. unfold class_lit, add_range. destruct a; [destruct (_ <? _)|]; got; discriminate. Qed.
Lemma step_escape s c s' : step s c = Done s' -> st_mode s' = MEsc -> c = c_ "\".
Proof.
  unfold step. destruct (st_mode s) eqn:E.
  - apply normal_escape.
  - destruct (c =? c_ "?"); [|apply normal_escape]. unfold make_lazy. destruct (st_items s) as [|[] ?]; got; discriminate.
  - destruct (escape_meaning c) as [[| |[]|]| |]; cbn [obind]; got; discriminate.
  - destruct (c =? c_ "?"); [got; discriminate|apply normal_escape].
  - destruct (c =? c_ ":"); [got; discriminate|]. destruct (c =? c_ "P"); [got; discriminate|]. destruct (c =? c_ "<"); [got; discriminate|].
    destruct (contains (s_ "=!") c); got.
  - destruct (c =? c_ "<"); got; discriminate.
  - destruct (contains (s_ "=!") c); [got|]. unfold step_name. destruct (c =? c_ ">"); [got|]. destruct (128 <=? c); [got|].
    destruct (_ || _); got; discriminate.
  - unfold step_name. destruct (c =? c_ ">"); [destruct n; got; discriminate|]. destruct (128 <=? c); [got|].
    destruct (_ || _); [got; discriminate|]. destruct n; [got|]. destruct (_ || _); got; discriminate.
  - apply count_escape.
  - destruct (is_digit_char c); [got; discriminate|]. unfold repeat_last. destruct (c =? c_ "}").
    + destruct m as [m|]; [|destruct (st_items s); got; discriminate].
      destruct ((u32_max <? m) || (m <? n)); [got|destruct (st_items s); got; discriminate].
    + destruct ((c =? c_ " ") || contains [9; 10; 11; 12; 13] c || (128 <=? c)); got.
  - destruct (c =? c_ "^"); [got; discriminate|]. destruct (c =? c_ "-"); [got; discriminate|]. destruct (c =? c_ "]"); [got; discriminate|].
    apply class_escape.
  - destruct (c =? c_ "-"); [got; discriminate|]. destruct l; [destruct (c =? c_ "]"); [got; discriminate|]|]; apply class_escape.
  - apply class_escape.
  - destruct (c =? c_ "-"); [got|apply class_escape].
  - destruct (c =? c_ "-"); [got; discriminate|]. destruct (_ && _ && _ && _); [got; discriminate|apply class_escape].
  - destruct (c =? c_ "]"); [got; discriminate|]. destruct (c =? c_ "-"); [got|]. destruct (c =? c_ "\"); [got; discriminate|].
    unfold add_range. destruct (_ <? _); got; discriminate.
  - destruct (escape_meaning c) as [[]| |]; cbn [obind]; try got; try discriminate; [apply lit_escape|destruct a; got; discriminate].
  - destruct (c =? c_ "-"); [got; discriminate|apply class_escape].
  - destruct (c =? c_ "]"); [got; discriminate|]. destruct (c =? c_ "-"); got.
  - destruct (c =? c_ "&"); got; discriminate.
  - destruct (c =? c_ "b"); got; discriminate.
  - destruct (c =? c_ "]"); got; discriminate.
  - destruct (c =? c_ "{"); [got; discriminate|apply normal_escape].
  - destruct (step_hex h c) as [[]| |]; cbn [obind]; got; discriminate.
  - destruct (step_hex h c) as [[]| |]; cbn [obind]; try got; [discriminate|apply lit_escape].
  - destruct (is_letter c || (c =? c_ "-")); [got|apply count_escape].
Qed.
Lemma run_tail w s s2 : ~ In (c_ "(") w -> st_stack s = [] -> st_mode s = MNormal -> run (w ++ s_ ")") s = Done s2 -> ready (st_mode s2) ->
  exists w', w = w' ++ s_ "\".
Proof.
  intros Hw Hk Hm. rewrite run_app. destruct (run w s) as [s4| |] eqn:E; cbn [obind]; [|discriminate..].
  change (s_ ")") with [c_ ")"]. cbn [run]. destruct (step s4 (c_ ")")) as [s5| |] eqn:E5; cbn [obind]; [|discriminate..].
  intros H Hr. injection H as <-. destruct (run_flat w Hw s s4 Hk) as [Hk4 Ho4]; [now rewrite Hm|exact E|].
  pose proof (close_escaped s4 s5 E5 Hk4 Ho4 Hr) as Hm4. destruct w as [|c w] using rev_ind.
  - cbn [run] in E. injection E as <-. congruence.
  - clear IHw. rewrite run_app in E. destruct (run w s) as [s0| |]; cbn [obind run] in E; try discriminate E.
    destruct (step s0 c) as [s6| |] eqn:E6; cbn [obind] in E; try discriminate E. injection E as <-.
    apply step_escape in E6; [|exact Hm4]. subst c. now exists w.
Qed.

(** Openers. *)
Definition open_state : state := mkState MOpen [] [] [].
Definition in_group (k : kind) : state := lift [mkFrame k [] []] init.
Lemma run_capture t : t <> [] -> (forall u, t <> c_ "?" :: u) -> run t open_state = run t (in_group (KCapture None)).
Proof.
  destruct t as [|c t]; [easy|]. intros _ H. cbn [run]. f_equal. unfold open_state. cbn [step st_mode].
  destruct (N.eqb_spec c (c_ "?")) as [->|_]; [now destruct (H t)|]. reflexivity.
Qed.
Lemma below_128 (P : char -> bool) : forallb (fun n => P (N.of_nat n)) (List.seq 0 128) = true -> forall c, c < 128 -> P c = true.
Proof.
  intros H c Hc. rewrite forallb_forall in H. specialize (H (N.to_nat c)). rewrite N2Nat.id in H. apply H. apply in_seq. lia.
Qed.
Lemma name_start_iff c : c < 128 /\ (c =? c_ "_") || is_letter c = true <-> In c name_start.
Proof.
  split.
  - intros [Hc H]. apply contains_In. revert c Hc H.
    assert (E : forall c, c < 128 -> implb ((c =? c_ "_") || is_letter c) (contains name_start c) = true) by (apply below_128; vm_compute; reflexivity).
    intros c Hc H. specialize (E c Hc). now rewrite H in E.
  - intros H. assert (E : forallb (fun c => (c <? 128) && ((c =? c_ "_") || is_letter c)) name_start = true) by (vm_compute; reflexivity).
    rewrite forallb_forall in E. apply E in H. apply andb_prop in H as [H1 H2]. apply N.ltb_lt in H1. now split.
Qed.
Lemma name_more_iff c : c < 128 /\ ((c =? c_ "_") || is_letter c) || (is_digit_char c || contains (s_ ".[]") c) = true <-> In c name_more.
Proof.
  split.
  - intros [Hc H]. apply contains_In. revert c Hc H.
    assert (E : forall c, c < 128 -> implb (((c =? c_ "_") || is_letter c) || (is_digit_char c || contains (s_ ".[]") c)) (contains name_more c) = true)
      by (apply below_128; vm_compute; reflexivity).
    intros c Hc H. specialize (E c Hc). now rewrite H in E.
  - intros H. assert (E : forallb (fun c => (c <? 128) && (((c =? c_ "_") || is_letter c) || (is_digit_char c || contains (s_ ".[]") c))) name_more = true) by (vm_compute; reflexivity).
    rewrite forallb_forall in E. apply E in H. apply andb_prop in H as [H1 H2]. apply N.ltb_lt in H1. now split.
Qed.
Lemma not_more c : In c name_more -> c <> c_ ">".
Proof. intros H ->. apply contains_In in H. vm_compute in H. discriminate. Qed.
(** A step within a name. *)
Lemma step_name_iff n c s s' : c <> c_ ">" -> step_name s n c = Done s' <->
  s' = set_mode (MName (c :: n)) s /\ (In c name_start \/ n <> [] /\ In c name_more).
Proof.
  intros Hc. unfold step_name. destruct (N.eqb_spec c (c_ ">")); [contradiction|]. rewrite <- name_start_iff, <- name_more_iff.
  destruct (N.leb_spec 128 c) as [Hl|Hl].
  - split; [discriminate|]. intros (_ & [[H _]|[_ [H _]]]); lia.
  - destruct ((c =? c_ "_") || is_letter c) eqn:E.
    + split; [intros H; injection H as <-; split; [reflexivity|now left]|now intros [-> _]].
    + cbn [orb]. destruct n as [|d n].
      * split; [discriminate|]. intros (_ & [[_ H]|[H _]]); [discriminate H|easy].
      * destruct (is_digit_char c || contains (s_ ".[]") c).
        -- split; [intros H; injection H as <-; split; [reflexivity|now right]|now intros [-> _]].
        -- split; [discriminate|]. intros (_ & [[_ H]|[_ [_ H]]]); discriminate H.
Qed.
Lemma step_name_end n s : n <> [] -> step_name s n (c_ ">") = Done (push_frame (KCapture (Some (rev n))) s).
Proof. intros H. unfold step_name. rewrite N.eqb_refl. now destruct n. Qed.
Lemma run_name_back u : forall n s', run (u ++ s_ ")") (mkState (MName n) [] [] []) = Done s' ->
  exists m v, u = m ++ s_ ">" ++ v /\ rev n ++ m <> [] /\ (n = [] -> name_of_group m) /\ (n <> [] -> Forall (fun c => In c name_more) m) /\
    run (v ++ s_ ")") (in_group (KCapture (Some (rev n ++ m)))) = Done s'.
Proof.
  induction u as [|c u IH]; intros n s'.
  - change ([] ++ s_ ")") with [c_ ")"]. cbn [run step st_mode].
    destruct (step_name (mkState (MName n) [] [] []) n (c_ ")")) as [s1| |] eqn:E; cbn [obind]; [|discriminate..].
    apply step_name_iff in E; [|discriminate]. destruct E as [_ [E|[_ E]]]; apply contains_In in E; vm_compute in E; discriminate E.
  - cbn [app run]. change (step (mkState (MName n) [] [] []) c) with (step_name (mkState (MName n) [] [] []) n c).
    destruct (N.eq_dec c (c_ ">")) as [->|Hc].
    + destruct n as [|d n]; [discriminate|]. rewrite step_name_end by easy. cbn [obind]. intros H. exists [], u.
      split; [reflexivity|]. split; [cbn; intros E; apply app_eq_nil in E as [E _]; now apply app_eq_nil in E as [_ E]|].
      split; [discriminate|]. split; [constructor|]. rewrite app_nil_r. exact H.
    + destruct (step_name (mkState (MName n) [] [] []) n c) as [s1| |] eqn:E; cbn [obind]; [|discriminate..].
      apply step_name_iff in E as [-> E]; [|exact Hc]. cbn [set_mode st_items st_alts st_stack]. intros H.
      apply IH in H as (m & v & -> & H1 & _ & H3 & H4). exists (c :: m), v. split; [reflexivity|]. cbn [rev] in H1, H4.
      rewrite <- app_assoc in H1, H4. split; [exact H1|].
      assert (Hm : Forall (fun c => In c name_more) m) by now apply H3.
      split; [|split; [|exact H4]].
      * intros ->. destruct E as [E|[E _]]; [now constructor|easy].
      * intros Hn. constructor; [|exact Hm]. destruct E as [E|[_ E]]; [apply in_or_app; now left|exact E].
Qed.
Lemma run_name_forth m : forall n v, rev n ++ m <> [] -> (n = [] -> name_of_group m) -> Forall (fun c => In c name_more) m ->
  run (m ++ s_ ">" ++ v) (mkState (MName n) [] [] []) = run v (in_group (KCapture (Some (rev n ++ m)))).
Proof.
  induction m as [|c m IH]; intros n v H1 H2 H3; cbn [app].
  - change (s_ ">" ++ v) with (c_ ">" :: v). cbn [run]. change (step (mkState (MName n) [] [] []) (c_ ">")) with (step_name (mkState (MName n) [] [] []) n (c_ ">")).
    rewrite app_nil_r in *. rewrite step_name_end; [reflexivity|]. now intros ->.
  - cbn [run]. inversion_clear H3 as [|? ? Hc Hm]. change (step (mkState (MName n) [] [] []) c) with (step_name (mkState (MName n) [] [] []) n c).
    replace (step_name _ n c) with (Done (mkState (MName (c :: n)) [] [] [])).
    + cbn [obind]. rewrite IH; [cbn [rev]; now rewrite <- app_assoc| |discriminate|exact Hm].
      cbn [rev]. intros E. apply app_eq_nil in E as [E _]. now apply app_eq_nil in E as [_ E].
    + symmetry. apply step_name_iff; [now apply not_more|]. split; [reflexivity|]. destruct n as [|d n]; [|right; easy].
      left. specialize (H2 eq_refl). now inversion H2.
Qed.
Lemma name_forall m : name_of_group m -> m <> [] /\ Forall (fun c => In c name_more) m.
Proof. intros [c n H1 H2]. split; [easy|]. constructor; [apply in_or_app; now left|exact H2]. Qed.
(** What follows an open parenthesis. *)
Lemma open_back v s : run (v ++ s_ ")") open_state = Done s ->
  exists q u k, v = q ++ u /\ opener q /\ run (u ++ s_ ")") (in_group k) = Done s.
Proof.
  intros H. destruct v as [|c v]; [exists [], [], (KCapture None); repeat split; [constructor|exact H]|].
  destruct (N.eq_dec c (c_ "?")) as [->|Hc].
  - destruct v as [|c v]; [discriminate H|]. cbn [app run] in H. change (step open_state (c_ "?")) with (Done (mkState MOpenQ [] [] [])) in H.
    cbn [obind step st_mode] in H.
    destruct (N.eqb_spec c (c_ ":")) as [->|_]; [|destruct (N.eqb_spec c (c_ "P")) as [->|_]; [|destruct (N.eqb_spec c (c_ "<")) as [->|_]]].
    + exists (s_ "?:"), v, KGroup. split; [reflexivity|]. split; [constructor|]. exact H.
    + destruct v as [|c v]; [discriminate H|]. cbn [app run obind step set_mode st_mode] in H.
      destruct (N.eqb_spec c (c_ "<")) as [->|_]; [|discriminate H]. cbn [obind set_mode st_items st_alts st_stack] in H.
      apply run_name_back in H as (m & u & -> & _ & Hm & _ & H). specialize (Hm eq_refl).
      exists (s_ "?P<" ++ m ++ s_ ">"), u, (KCapture (Some m)). split; [now rewrite <- !app_assoc|]. split; [now constructor|exact H].
    + destruct v as [|c v]; [discriminate H|]. cbn [app run obind step set_mode st_mode] in H.
      destruct (contains (s_ "=!") c); [discriminate H|].
      change (run ((c :: v) ++ s_ ")") (mkState (MName []) [] [] []) = Done s) in H.
      apply run_name_back in H as (m & u & E & _ & Hm & _ & H). specialize (Hm eq_refl).
      exists (s_ "?<" ++ m ++ s_ ">"), u, (KCapture (Some m)). split; [rewrite <- !app_assoc; now rewrite <- E|]. split; [now constructor|exact H].
    + destruct (contains (s_ "=!") c); discriminate H.
  - exists [], (c :: v), (KCapture None). split; [reflexivity|]. split; [constructor|]. rewrite <- run_capture; [exact H|easy|].
    intros u E. injection E as E _. contradiction.
Qed.
Lemma open_forth q t : opener q -> t <> [] -> (forall u, t <> c_ "?" :: u) -> exists k, run (q ++ t) open_state = run t (in_group k).
Proof.
  intros [| |n Hn|n Hn] H1 H2.
  - exists (KCapture None). now apply run_capture.
  - now exists KGroup.
  - exists (KCapture (Some n)). destruct (name_forall n Hn) as [Hn0 Hf]. rewrite <- !app_assoc.
    change (run (s_ "?P<" ++ n ++ s_ ">" ++ t) open_state) with (run (n ++ s_ ">" ++ t) (mkState (MName []) [] [] [])).
    now rewrite run_name_forth.
  - exists (KCapture (Some n)). destruct (name_forall n Hn) as [Hn0 Hf]. rewrite <- !app_assoc.
    replace (run (s_ "?<" ++ n ++ s_ ">" ++ t) open_state) with (run (n ++ s_ ">" ++ t) (mkState (MName []) [] [] [])).
    + now rewrite run_name_forth.
    + destruct Hn as [c n Hc Hn]. cbn [app]. change (run (s_ "?<" ++ c :: n ++ s_ ">" ++ t) open_state) with
        (obind (step (mkState MOpenLt [] [] []) c) (run (n ++ s_ ">" ++ t))). cbn [run]. f_equal. cbn [step st_mode].
      destruct (contains (s_ "=!") c) eqn:E; [|reflexivity]. apply contains_In in E. exfalso. apply contains_In in Hc.
      cbn [In s_] in E. destruct E as [<-|[<-|[]]]; vm_compute in Hc; discriminate Hc.
Qed.

Lemma run_parens v : run (s_ "(" ++ v ++ s_ ")") init = run (v ++ s_ ")") open_state.
Proof. reflexivity. Qed.
Lemma no_paren_regex t s : ~ In (c_ "(") t -> run t init = Done s -> ready (st_mode s) -> st_stack s = [] ->
  is_regex t /\ state_groups s = [].
Proof.
  intros Ht E Hr Hk. assert (Ep : parse_syntax t = Done (body (st_items s) (st_alts s))).
  { unfold parse_syntax. rewrite E. cbn [obind]. unfold finish. rewrite Hk. now destruct Hr. }
  assert (G : state_groups s = []).
  { rewrite <- (no_paren_no_groups t _ Ht Ep), groups_body. unfold state_groups. now rewrite Hk. }
  split; [|exact G]. apply is_regex_iff. exists s. repeat (split; [assumption|]). now rewrite G.
Qed.
(** The state after [x], and the one after a closed group. *)
Definition after_x : state := mkState MNormal [RLit (c_ "x")] [] [].
Lemma alike_popped k s : alike [] (kind_groups k ++ state_groups s) after_x (popped (mkFrame k [] []) (set_mode (st_mode s) s)) \/ st_stack s <> [].
Proof.
  destruct (st_stack s) as [|f l] eqn:Hk; [left|now right]. split; [reflexivity|]. split; [reflexivity|].
  split; [|split; [right; split; discriminate|discriminate]]. exists []. split; [reflexivity|]. rewrite app_nil_r.
  unfold state_groups at 1. cbn [popped st_stack rev flat_map app st_alts st_items fr_alts fr_items fr_kind set_mode].
  rewrite level_item. unfold level at 1. cbn [rev flat_map app]. unfold state_groups. rewrite Hk. cbn [rev flat_map app].
  destruct k; cbn [groups kind_groups]; now rewrite groups_body.
Qed.
Lemma closed_alike k s : st_stack s = [] -> state_groups s = [] -> alike [] (kind_groups k) after_x (popped (mkFrame k [] []) s).
Proof.
  intros Hk Hg. destruct (alike_popped k s) as [H|H]; [|contradiction]. rewrite Hg, app_nil_r in H. now destruct s.
Qed.
Lemma distinct_kind k : distinct (flat_map (fun n => match n with Some n => [n] | None => [] end) (kind_groups k)) = true.
Proof. now destruct k as [[]|]. Qed.

Lemma no_paren_tail w : ~ In (c_ "(") w -> ~ In (c_ "(") (s_ "x" ++ w ++ s_ "\)").
Proof. intros H. rewrite !in_app_iff. intros [[Hi|[]]|[Hi|[Hi|[Hi|[]]]]]; try discriminate Hi. contradiction. Qed.
Lemma in_parens v : ~ In (c_ "(") v -> is_regex (s_ "(" ++ v ++ s_ ")") <-> exists q u, v = q ++ u /\ opener q /\ closes u.
Proof.
  intros Hv. rewrite is_regex_iff, run_parens. split.
  - intros (s & H & Hr & Hk & _). apply open_back in H as (q & u & k & -> & Hq & H). exists q, u. split; [reflexivity|]. split; [exact Hq|].
    assert (Hu : ~ In (c_ "(") u) by (intros Hi; apply Hv, in_or_app; now right).
    apply run_group in H; [|exact Hu|reflexivity|exact (fun x => x)|exact Hr|exact Hk].
    destruct H as [(s' & H1 & H2 & H3)|(x & w & s' & -> & H1 & H2 & H3 & H4)].
    + left. now apply (no_paren_regex u s').
    + assert (Hx : ~ In (c_ "(") x) by (intros Hi; apply Hu, in_or_app; now left).
      assert (Hw : ~ In (c_ "(") w) by (intros Hi; apply Hu, in_or_app; right; now right).
      destruct (no_paren_regex x s' Hx H1 H2 H3) as [Rx Gx].
      destruct (run_tail w (popped (mkFrame k [] []) s') s Hw eq_refl eq_refl H4 Hr) as (w' & ->). right. exists x, w'. split; [reflexivity|]. split; [exact Rx|].
      pose proof (alike_run _ _ ((w' ++ s_ "\") ++ s_ ")") _ _ (closed_alike k s' H3 Gx)) as Ha. rewrite H4 in Ha.
      destruct (run ((w' ++ s_ "\") ++ s_ ")") after_x) as [s1| |] eqn:E1; try contradiction.
      destruct Ha as (A1 & A2 & _).
      apply (no_paren_regex (s_ "x" ++ w' ++ s_ "\)") s1).
      * apply no_paren_tail. intros Hi. apply Hw, in_or_app. now left.
      * rewrite <- app_assoc in E1. exact E1.
      * now rewrite A1.
      * rewrite Hk in A2. now destruct (st_stack s1).
  - intros (q & u & -> & Hq & Hu). rewrite <- app_assoc.
    assert (Hnu : ~ In (c_ "(") u) by (intros Hi; apply Hv, in_or_app; now right).
    assert (Hstart : forall x t, is_regex x -> forall u, x ++ s_ ")" ++ t <> c_ "?" :: u).
    { intros x t (r & Hr) u' E. apply regex_new_inv in Hr as [Hr _]. destruct x as [|c x]; [discriminate E|]. cbn [app] in E. injection E as -> _.
      now apply (parse_no_question _ _ Hr x). }
    assert (Hin : forall x k, is_regex x -> ~ In (c_ "(") x -> exists s, run (x ++ s_ ")") (in_group k) = Done (popped (mkFrame k [] []) s) /\
      st_stack s = [] /\ state_groups s = []).
    { intros x k Hx Hn. pose proof Hx as Hx'. apply is_regex_iff in Hx as (s & E & Hr & Hk & _). exists s.
      destruct (no_paren_regex x s Hn E Hr Hk) as [_ Hg]. split; [|now split]. rewrite run_app. unfold in_group.
      rewrite (run_lift _ x init s E). cbn [obind]. change (s_ ")") with [c_ ")"]. cbn [run]. now rewrite close_lift. }
    destruct Hu as [Hu|(x & w & -> & Hx & Hw)].
    + destruct (open_forth q (u ++ s_ ")") Hq) as (k & E); [destruct u; discriminate| |].
      { specialize (Hstart u [] Hu). exact Hstart. }
      destruct (Hin u k Hu Hnu) as (s & E' & Hk & Hg). eexists. rewrite E, E'. split; [reflexivity|]. split; [constructor|]. split; [reflexivity|].
      destruct (closed_alike k s Hk Hg) as (_ & _ & (l & G1 & G2) & _). cbn in G1. subst l. rewrite G2, app_nil_r. apply distinct_kind.
    + assert (Hnx : ~ In (c_ "(") x) by (intros Hi; apply Hnu, in_or_app; now left).
      assert (Hnw : ~ In (c_ "(") w) by (intros Hi; apply Hnu; rewrite !in_app_iff; tauto).
      rewrite <- !app_assoc. destruct (open_forth q (x ++ s_ ")" ++ w ++ s_ "\" ++ s_ ")") Hq) as (k & E); [now destruct x|now apply Hstart|].
      destruct (Hin x k Hx Hnx) as (s & E' & Hk & Hg).
      apply is_regex_iff in Hw as (s1 & E1 & Hr1 & Hk1 & _).
      pose proof (alike_run _ _ (w ++ s_ "\)") _ _ (closed_alike k s Hk Hg)) as Ha.
      change (run (s_ "x" ++ w ++ s_ "\)") init) with (run (w ++ s_ "\)") after_x) in E1. rewrite E1 in Ha.
      destruct (run (w ++ s_ "\)") (popped (mkFrame k [] []) s)) as [s2| |] eqn:E2; try contradiction.
      destruct Ha as (A1 & A2 & (l & G1 & G2) & _). exists s2. rewrite E, app_assoc, run_app, E'. cbn [obind]. split; [exact E2|].
      rewrite <- A1. split; [exact Hr1|]. split; [rewrite Hk1 in A2; now destruct (st_stack s2)|]. rewrite G2.
      destruct (no_paren_regex (s_ "x" ++ w ++ s_ "\)") s1) as [_ G]; [| |exact Hr1|exact Hk1|].
      * now apply no_paren_tail.
      * exact E1.
      * rewrite G in G1. cbn [app] in G1. subst l. rewrite app_nil_r. apply distinct_kind.
Qed.

Lemma two_unchecked : exists get s v w t r, forall digits spaces words to_string,
  s = s_ "{p}{q}" /\ get (mkspan 1 1 (s_ "p")) = Some v /\ get (mkspan 4 1 (s_ "q")) = Some w /\
  ~ In (c_ "(") (v ++ w) /\ ~ is_regex (s_ "(" ++ v ++ s_ ")") /\ ~ is_regex (s_ "(" ++ w ++ s_ ")") /\
  regex_with_parameters digits spaces words to_string get s = XOk t r.
Proof.
  eexists (hash_map_get iter_elements [(s_ "p", s_ "a)["); (s_ "q", s_ "]\")]), (s_ "{p}{q}"), (s_ "a)["), (s_ "]\"), _, _. intros.
  split; [reflexivity|]. split; [vm_compute; reflexivity|]. split; [vm_compute; reflexivity|].
  split; [apply contains_false; vm_compute; reflexivity|]. split; [intros (r & H); vm_compute in H; discriminate H|].
  split; [intros (r & H); vm_compute in H; discriminate H|]. vm_compute. reflexivity.
Qed.
