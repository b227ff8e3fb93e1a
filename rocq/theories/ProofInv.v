(** What the regex parser guarantees of the syntax trees it returns. *)
From Verif Require Export ProofFrame.

(** A name as the parser reads it. *)
Definition readable_name (n : str) : Prop :=
  n <> [] /\ forall s, run n (set_mode (MName []) s) = Done (set_mode (MName (rev n)) s).
Definition range_ok (i : class_item) : Prop := match i with CRange a b => a <= b | CPerl _ _ => True end.
Definition class_ok (k : class) : Prop := Forall range_ok (cl_items k).
Definition rep_ok (min : N) (max : option N) : Prop :=
  min <= u32_max /\ match max with Some n => min <= n <= u32_max | None => True end.
Definition name_ok (n : option str) : Prop := match n with Some n => readable_name n | None => True end.

Section Invariant.
  (** [paren]: whether the text may have an opening parenthesis. *)
  Context (paren : bool) (P : re -> Prop).
  Hypothesis P_empty : P REmpty.
  Hypothesis P_lit : forall c, P (RLit c).
  Hypothesis P_dot : P RDot.
  Hypothesis P_class : forall k, class_ok k -> P (RClass k).
  Hypothesis P_look : forall l, P (RLook l).
  Hypothesis P_rep : forall min max g r, rep_ok min max -> P r -> P (RRep min max g r).
  Hypothesis P_lazy : forall min max g r, P (RRep min max g r) -> P (RRep min max false r).
  Hypothesis P_cap : forall n r, paren = true -> name_ok n -> P r -> P (RCap n r).
  Hypothesis P_cat : forall a b, P a -> P b -> P (RCat a b).
  Hypothesis P_alt : forall a b, P a -> P b -> P (RAlt a b).

  Definition mode_inv (m : mode) : Prop :=
    match m with
    | MNormal | MRep | MEsc | MClass0 | MFail1 | MFail2 | MFail3 | MWord | MWordCount | MHex _ => True
    | MOpen | MOpenQ | MOpenP | MOpenLt => paren = true
    | MName n => paren = true /\ forall s, run (rev n) (set_mode (MName []) s) = Done (set_mode (MName n) s)
    | MCount _ => True
    | MCountTo n _ => n <= u32_max
    | MClass1 _ l | MClassIn _ l | MClassDash _ l | MClassLit _ l _ | MClassRange _ l _ | MClassEsc _ l _
    | MClassPerl _ l | MClassPerlDash _ l | MClassHex _ l _ _ => Forall range_ok l
    end.
  Definition frame_inv (f : frame) : Prop :=
    paren = true /\ Forall P (fr_items f) /\ Forall P (fr_alts f) /\
    match fr_kind f with KCapture n => name_ok n | KGroup => True end.
  Definition inv (s : state) : Prop :=
    mode_inv (st_mode s) /\ Forall P (st_items s) /\ Forall P (st_alts s) /\ Forall frame_inv (st_stack s).

  Lemma P_mk_cat l : Forall P l -> P (mk_cat l).
  Proof. induction 1 as [|x [|y l] Hx Hl IH]; [exact P_empty|exact Hx|]. now apply P_cat. Qed.
  Lemma P_mk_alt l : Forall P l -> P (mk_alt l).
  Proof. induction 1 as [|x [|y l] Hx Hl IH]; [exact P_empty|exact Hx|]. now apply P_alt. Qed.
  Lemma P_body i a : Forall P i -> Forall P a -> P (body i a).
  Proof.
    intros Hi Ha. apply P_mk_alt. apply Forall_rev. constructor; [|exact Ha]. apply P_mk_cat. now apply Forall_rev.
  Qed.
  Lemma inv_mode m s : mode_inv m -> inv s -> inv (set_mode m s).
  Proof. intros Hm (_ & H). split; [exact Hm|exact H]. Qed.
  Lemma inv_push r s : P r -> inv s -> inv (push_item r s).
  Proof. intros Hr (_ & H1 & H2). split; [exact I|]. split; [constructor; assumption|exact H2]. Qed.
  Lemma inv_frame k s : paren = true -> match k with KCapture n => name_ok n | KGroup => True end -> inv s -> inv (push_frame k s).
  Proof.
    intros Hp Hk (_ & H1 & H2 & H3). split; [exact I|]. split; [constructor|]. split; [constructor|].
    constructor; [|exact H3]. repeat split; assumption.
  Qed.
  Lemma inv_pop s s' : inv s -> pop_frame s = Done s' -> inv s'.
  Proof.
    intros (_ & H1 & H2 & H3). unfold pop_frame. destruct s as [m i a [|f st]]; cbn in *; [discriminate|].
    intros H. injection H as <-. inversion_clear H3 as [|? ? (Hp & Hi & Ha & Hk) Hs]. split; [exact I|].
    split; [|split; assumption]. constructor; [|exact Hi]. pose proof (P_body i a H1 H2).
    destruct (fr_kind f); [now apply P_cap|assumption].
  Qed.
  Lemma inv_repeat min max s s' : rep_ok min max -> inv s -> repeat_last min max s = Done s' -> inv s'.
  Proof.
    intros Hr (_ & H1 & H2 & H3). unfold repeat_last. destruct s as [m [|r l] a st]; cbn in *; [discriminate|].
    intros H. injection H as <-. inversion_clear H1. split; [exact I|]. split; [|split; assumption].
    constructor; [now apply P_rep|assumption].
  Qed.
  Lemma inv_lazy s s' : inv s -> make_lazy s = Done s' -> inv s'.
  Proof.
    intros (_ & H1 & H2 & H3). unfold make_lazy. destruct s as [m [|[] l] a st]; cbn in *; try discriminate.
    intros H. injection H as <-. inversion_clear H1. split; [exact I|]. split; [|split; assumption].
    constructor; [eapply P_lazy; eassumption|assumption].
  Qed.
  Ltac got := let H := fresh in intros H; first [discriminate H | injection H as <-].
  Lemma inv_normal s c s' : (c = c_ "(" -> paren = true) -> inv s -> step_normal s c = Done s' -> inv s'.
  Proof.
    intros Hc Hs. unfold step_normal.
    destruct (N.eqb_spec c (c_ "(")); [got; apply inv_mode; cbn; auto|]. destruct (c =? c_ ")"); [now apply inv_pop|].
    destruct (c =? c_ "|").
    { got. destruct Hs as (_ & H1 & H2 & H3). split; [exact I|]. split; [constructor|]. split; [|exact H3].
      constructor; [apply P_mk_cat; now apply Forall_rev|exact H2]. }
    destruct (c =? c_ "["); [got; now apply inv_mode|].
    destruct (c =? c_ "?"); [apply inv_repeat; [cbv beta iota delta [rep_ok u32_max]; lia|exact Hs]|].
    destruct (c =? c_ "*"); [apply inv_repeat; [cbv beta iota delta [rep_ok u32_max]; lia|exact Hs]|].
    destruct (c =? c_ "+"); [apply inv_repeat; [cbv beta iota delta [rep_ok u32_max]; lia|exact Hs]|].
    destruct (c =? c_ "{"); [destruct (st_items s); got; now apply inv_mode|].
    destruct (c =? c_ "\"); [got; now apply inv_mode|]. destruct (c =? c_ "."); [got; now apply inv_push|].
    destruct (c =? c_ "^"); [got; now apply inv_push|]. destruct (c =? c_ "$"); got; now apply inv_push.
  Qed.
  Lemma inv_name s n c s' : paren = true ->
    (forall s, run (rev n) (set_mode (MName []) s) = Done (set_mode (MName n) s)) ->
    inv s -> step_name s n c = Done s' -> inv s'.
  Proof.
    intros Hp Hn Hs H.
    assert (Hnext : step_name s n c = Done (set_mode (MName (c :: n)) s) -> inv (set_mode (MName (c :: n)) s)).
    { intros E. apply inv_mode; [|exact Hs]. split; [exact Hp|]. intros s0. cbn [rev]. rewrite run_app, Hn. cbn [obind run].
      replace (step (set_mode (MName n) s0) c) with (Done (set_mode (MName (c :: n)) s0)); [reflexivity|].
      cbn [step set_mode st_mode]. unfold step_name in *. destruct (c =? c_ ">"); [destruct n; discriminate E|].
      destruct (128 <=? c); [discriminate E|]. destruct (_ || _); [reflexivity|]. destruct n; [discriminate E|].
      destruct (_ || _); [reflexivity|discriminate E]. }
    pose proof H as E. unfold step_name in H. destruct (c =? c_ ">").
    - destruct n as [|x n]; [discriminate H|]. injection H as <-. apply inv_frame; [exact Hp| |exact Hs]. cbn [name_ok].
      split.
      + intros Hx. cbn in Hx. apply app_eq_nil in Hx as [_ Hx]. discriminate Hx.
      + intros s0. specialize (Hn s0). rewrite rev_app_distr, rev_involutive. exact Hn.
    - destruct (128 <=? c); [discriminate H|]. destruct (_ || _); [injection H as <-; now apply Hnext|].
      destruct n; [discriminate H|]. destruct (_ || _); [injection H as <-; now apply Hnext|discriminate H].
  Qed.
  Lemma inv_class neg l s c s' : Forall range_ok l -> inv s -> step_class neg l s c = Done s' -> inv s'.
  Proof.
    intros Hl Hs. unfold step_class. destruct (c =? c_ "]").
    { got. apply inv_push; [|exact Hs]. apply P_class. now apply Forall_rev. }
    destruct (contains (s_ "[&~") c); [got|]. destruct (c =? c_ "-"); [got; now apply inv_mode|].
    destruct (c =? c_ "\"); got; now apply inv_mode.
  Qed.
  Lemma inv_range neg l s a b s' : Forall range_ok l -> inv s -> add_range neg l s a b = Done s' -> inv s'.
  Proof.
    intros Hl Hs. unfold add_range. destruct (N.ltb_spec b a); got. apply inv_mode; [|exact Hs]. constructor; [exact H|exact Hl].
  Qed.
  Lemma inv_class_lit neg l a s c s' : Forall range_ok l -> inv s -> class_lit neg l a s c = Done s' -> inv s'.
  Proof. intros Hl Hs. destruct a as [a|]; cbn [class_lit]; [now apply inv_range|]. got. now apply inv_mode. Qed.
  Lemma P_class_rev neg l : Forall range_ok l -> P (RClass (mkClass neg (rev l))).
  Proof. intros H. apply P_class. now apply Forall_rev. Qed.
  Lemma range_one c : range_ok (CRange c c).
  Proof. cbn. lia. Qed.
  Lemma inv_count s n c s' : inv s -> step_count s n c = Done s' -> inv s'.
  Proof.
    intros Hs. unfold step_count. destruct (is_digit_char c); [got; now apply inv_mode|]. destruct (contains (s_ "} ,") c).
    - destruct n as [n|]; [|destruct (c =? c_ "}"); got]. destruct (N.ltb_spec u32_max n); [got|].
      destruct (c =? c_ "}"); [apply inv_repeat; [split; lia|exact Hs]|]. destruct (c =? c_ ","); got. now apply inv_mode.
    - destruct (contains [9; 10; 11; 12; 13] c || (128 <=? c)); got.
  Qed.
  Lemma inv_step s c s' : (c = c_ "(" -> paren = true) -> inv s -> step s c = Done s' -> inv s'.
  Proof.
    intros Hc Hs. pose proof (proj1 Hs) as Hm. unfold step. destruct (st_mode s) eqn:E; cbn [mode_inv] in Hm.
    - now apply inv_normal.
    - destruct (c =? c_ "?"); [now apply inv_lazy|]. apply inv_normal; [exact Hc|]. now apply inv_mode.
    - destruct (escape_meaning c) as [[d|n p|l|n]| |]; cbn [obind]; [| |destruct l|got; now apply inv_mode| |]; got; try apply (inv_mode MWord); try exact I; (apply inv_push; [|exact Hs]); auto.
      apply P_class. repeat constructor.
    - destruct (c =? c_ "?"); [got; now apply inv_mode|]. apply inv_normal; [exact Hc|]. now apply inv_frame.
    - destruct (c =? c_ ":"); [got; now apply inv_frame|]. destruct (c =? c_ "P"); [got; now apply inv_mode|].
      destruct (c =? c_ "<"); [got; now apply inv_mode|]. destruct (contains (s_ "=!") c); got.
    - destruct (c =? c_ "<"); got. apply inv_mode; [|exact Hs]. split; [exact Hm|]. reflexivity.
    - destruct (contains (s_ "=!") c); [got|]. apply inv_name; [exact Hm|reflexivity|exact Hs].
    - apply inv_name; [apply Hm|apply Hm|exact Hs].
    - now apply inv_count.
    - destruct (is_digit_char c); [got; now apply inv_mode|]. destruct (c =? c_ "}").
      + destruct m as [m|]; [|apply inv_repeat; [split; [exact Hm|exact I]|exact Hs]].
        destruct (N.ltb_spec u32_max m); [got|]. destruct (N.ltb_spec m n); cbn [orb]; [got|apply inv_repeat; [split; lia|exact Hs]].
      + destruct ((c =? c_ " ") || contains [9; 10; 11; 12; 13] c || (128 <=? c)); got.
    - pose proof (range_one c). destruct (c =? c_ "^"); [got; apply inv_mode; [constructor|exact Hs]|].
      destruct (c =? c_ "-"); [got; apply inv_mode; [cbn; auto|exact Hs]|].
      destruct (c =? c_ "]"); [got; apply inv_mode; [cbn; auto|exact Hs]|]. apply inv_class; [constructor|exact Hs].
    - pose proof (range_one c). destruct (c =? c_ "-"); [got; apply inv_mode; [cbn; auto|exact Hs]|].
      destruct l; [destruct (c =? c_ "]"); [got; apply inv_mode; [cbn; auto|exact Hs]|]|]; now apply inv_class.
    - now apply inv_class.
    - destruct (c =? c_ "-"); [got|]. apply inv_class; [constructor; [apply range_one|exact Hm]|exact Hs].
    - destruct (c =? c_ "-"); [got; now apply inv_mode|]. destruct (_ && _ && _ && _); [got; now apply inv_mode|].
      apply inv_class; [constructor; [apply range_one|exact Hm]|exact Hs].
    - destruct (c =? c_ "]").
      { got. apply inv_push; [|exact Hs]. apply (P_class_rev neg (CRange (c_ "-") (c_ "-") :: CRange a a :: l)). constructor; [apply range_one|]. constructor; [apply range_one|exact Hm]. }
      destruct (c =? c_ "-"); [got|]. destruct (c =? c_ "\"); [got; now apply inv_mode|now apply inv_range].
    - destruct (escape_meaning c) as [[]| |]; cbn [obind]; try now apply inv_class_lit.
      + destruct a; got. apply inv_mode; [|exact Hs]. constructor; [exact I|exact Hm].
      + got.
      + got. now apply inv_mode.
      + got.
      + got.
    - destruct (c =? c_ "-"); [got; now apply inv_mode|now apply inv_class].
    - destruct (c =? c_ "]"); [|destruct (c =? c_ "-"); got]. got. apply inv_push; [|exact Hs]. apply (P_class_rev neg (CRange (c_ "-") (c_ "-") :: l)).
      constructor; [apply range_one|exact Hm].
    - destruct (c =? c_ "&"); got. now apply inv_mode.
    - destruct (c =? c_ "b"); got. now apply inv_mode.
    - destruct (c =? c_ "]"); got. apply inv_push; [|exact Hs]. apply P_class. constructor.
    - destruct (c =? c_ "{"); [got; now apply inv_mode|]. apply inv_normal; [exact Hc|]. now apply inv_mode.
    - destruct (step_hex h c) as [[]| |]; cbn [obind]; got; [now apply inv_mode|]. now apply inv_push.
    - destruct (step_hex h c) as [[]| |]; cbn [obind]; try got; [now apply inv_mode|]. now apply inv_class_lit.
    - destruct (is_letter c || (c =? c_ "-")); [got|]. now apply inv_count.
  Qed.
  Lemma inv_run t : (In (c_ "(") t -> paren = true) -> forall s s', inv s -> run t s = Done s' -> inv s'.
  Proof.
    induction t as [|c t IH]; intros Ht s s' Hs; cbn [run]; [intros H; injection H as <-; exact Hs|].
    destruct (step s c) as [s1| |] eqn:E; cbn [obind]; [|discriminate..]. apply IH; [intros H; apply Ht; now right|].
    eapply inv_step; [|exact Hs|exact E]. intros ->. apply Ht. now left.
  Qed.
  Lemma inv_parse t r : (In (c_ "(") t -> paren = true) -> parse_syntax t = Done r -> P r.
  Proof.
    intros Ht. unfold parse_syntax. destruct (run t init) as [s| |] eqn:E; cbn [obind]; [|discriminate..].
    apply inv_run in E; [|exact Ht|repeat split; constructor]. destruct E as (_ & H1 & H2 & _).
    unfold finish. intros H. assert (body (st_items s) (st_alts s) = r) as <-.
    { destruct (st_mode s); try discriminate H; destruct (st_stack s); try discriminate H; now injection H. }
    now apply P_body.
  Qed.
End Invariant.

(** Without parentheses there are no groups. *)
Lemma no_paren_no_groups t r : ~ In (c_ "(") t -> parse_syntax t = Done r -> groups r = [].
Proof.
  intros Ht. apply (inv_parse false (fun r => groups r = [])); try easy; cbn; intros; try assumption.
  - rewrite H, H0. reflexivity.
  - rewrite H, H0. reflexivity.
Qed.

(** Well-formed trees. *)
Fixpoint re_ok (r : re) : Prop :=
  match r with
  | REmpty | RLit _ | RDot | RLook _ => True
  | RClass k => class_ok k
  | RRep min max _ r => rep_ok min max /\ re_ok r
  | RCap n r => name_ok n /\ re_ok r
  | RCat a b | RAlt a b => re_ok a /\ re_ok b
  end.
Lemma parsed_ok t r : parse_syntax t = Done r -> re_ok r.
Proof. apply (inv_parse true re_ok); cbn; tauto. Qed.

Lemma adds_one_readable n t r : readable_name n -> reads t r ->
  adds_one (s_ "(?P<" ++ n ++ s_ ">" ++ t ++ s_ ")") (RCap (Some n) r).
Proof.
  intros [Hn Hrun] H m items alts stack Hm. rewrite run_app.
  replace (run (s_ "(?P<") (mkState m items alts stack)) with
    (Done (set_mode (MName []) (mkState MNormal items alts stack))) by now destruct Hm.
  cbn [obind]. rewrite run_app, Hrun. cbn [obind]. change (s_ ">" ++ t ++ s_ ")") with (c_ ">" :: t ++ s_ ")").
  rewrite run_cons.
  replace (step _ _) with (Done (mkState MNormal [] [] (mkFrame (KCapture (Some n)) items alts :: stack))).
  - cbn [obind]. now rewrite (run_inside _ _ _ _ _ _ H).
  - cbn [step set_mode st_mode]. unfold step_name. rewrite N.eqb_refl.
    destruct (rev n) eqn:E.
    + apply (f_equal (@rev N)) in E. rewrite rev_involutive in E. now subst.
    + rewrite <- E, rev_involutive. reflexivity.
Qed.
