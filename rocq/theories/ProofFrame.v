(** A regex that is valid on its own is read the same way inside a group. *)
From Verif Require Export ProofExpand4 Params.

Definition lift (k : list frame) (s : state) : state :=
  mkState (st_mode s) (st_items s) (st_alts s) (st_stack s ++ k).
Section Frame.
  Context (k : list frame).
  Ltac done := intros H; (discriminate H || (injection H as <-; reflexivity)).
  Lemma pop_frame_lift s s' : pop_frame s = Done s' -> pop_frame (lift k s) = Done (lift k s').
  Proof. unfold pop_frame, lift. destruct s as [m i a [|f st]]; cbn; done. Qed.
  Lemma repeat_last_lift a b s s' : repeat_last a b s = Done s' -> repeat_last a b (lift k s) = Done (lift k s').
  Proof. unfold repeat_last, lift. destruct s as [m [|i l] al st]; cbn; done. Qed.
  Lemma make_lazy_lift s s' : make_lazy s = Done s' -> make_lazy (lift k s) = Done (lift k s').
  Proof. unfold make_lazy, lift. destruct s as [m [|[] l] al st]; cbn; done. Qed.
  Lemma step_normal_lift s c s' : step_normal s c = Done s' -> step_normal (lift k s) c = Done (lift k s').
  Proof.
    unfold step_normal.
    destruct (c =? c_ "("); [done|]. destruct (c =? c_ ")"); [apply pop_frame_lift|].
    destruct (c =? c_ "|"); [done|]. destruct (c =? c_ "["); [done|].
    destruct (c =? c_ "?"); [apply repeat_last_lift|]. destruct (c =? c_ "*"); [apply repeat_last_lift|].
    destruct (c =? c_ "+"); [apply repeat_last_lift|].
    destruct (c =? c_ "{"); [destruct s as [m [|i l] al st]; cbn; done|].
    destruct (c =? c_ "\"); [done|]. destruct (c =? c_ "."); [done|].
    destruct (c =? c_ "^"); [done|]. destruct (c =? c_ "$"); done.
  Qed.
  Lemma step_name_lift s n c s' : step_name s n c = Done s' -> step_name (lift k s) n c = Done (lift k s').
  Proof.
    unfold step_name. destruct (c =? c_ ">"); [destruct n; done|]. destruct (128 <=? c); [done|].
    destruct ((c =? c_ "_") || is_letter c); [done|]. destruct n; [done|].
    destruct (is_digit_char c || contains (s_ ".[]") c); done.
  Qed.
  Lemma step_class_lift n l s c s' : step_class n l s c = Done s' -> step_class n l (lift k s) c = Done (lift k s').
  Proof.
    unfold step_class. destruct (c =? c_ "]"); [done|]. destruct (contains (s_ "[&~") c); [done|].
    destruct (c =? c_ "-"); [done|]. destruct (c =? c_ "\"); done.
  Qed.
  Lemma add_range_lift n l s a b s' : add_range n l s a b = Done s' -> add_range n l (lift k s) a b = Done (lift k s').
  Proof. unfold add_range. destruct (b <? a); done. Qed.
  Lemma class_lit_lift n l a s c s' : class_lit n l a s c = Done s' -> class_lit n l a (lift k s) c = Done (lift k s').
  Proof. destruct a; [apply add_range_lift|done]. Qed.
  Lemma step_count_lift s n c s' : step_count s n c = Done s' -> step_count (lift k s) n c = Done (lift k s').
  Proof.
    unfold step_count. destruct (is_digit_char c); [done|]. destruct (contains (s_ "} ,") c).
    - destruct n as [n|]; [|destruct (c =? c_ "}"); done]. destruct (u32_max <? n); [done|].
      destruct (c =? c_ "}"); [apply repeat_last_lift|]. destruct (c =? c_ ","); done.
    - destruct (contains [9; 10; 11; 12; 13] c || (128 <=? c)); done.
  Qed.
  Lemma step_lift s c s' : step s c = Done s' -> step (lift k s) c = Done (lift k s').
  Proof.
    unfold step. change (st_mode (lift k s)) with (st_mode s). destruct (st_mode s) eqn:E.
    - apply step_normal_lift.
    - destruct (c =? c_ "?"); [apply make_lazy_lift|].
      change (set_mode MNormal (lift k s)) with (lift k (set_mode MNormal s)). apply step_normal_lift.
    - destruct (escape_meaning c) as [[| |[]|]| |]; cbn [obind]; done.
    - destruct (c =? c_ "?"); [done|].
      change (push_frame (KCapture None) (lift k s)) with (lift k (push_frame (KCapture None) s)). apply step_normal_lift.
    - destruct (c =? c_ ":"); [done|]. destruct (c =? c_ "P"); [done|]. destruct (c =? c_ "<"); [done|].
      destruct (contains (s_ "=!") c); done.
    - destruct (c =? c_ "<"); done.
    - destruct (contains (s_ "=!") c); [done|]. apply step_name_lift.
    - apply step_name_lift.
    - apply step_count_lift.
    - destruct (is_digit_char c); [done|]. destruct (c =? c_ "}").
      + destruct m as [m|]; [|apply repeat_last_lift].
        destruct ((u32_max <? m) || (m <? n)); [done|apply repeat_last_lift].
      + destruct ((c =? c_ " ") || contains [9; 10; 11; 12; 13] c || (128 <=? c)); done.
    - destruct (c =? c_ "^"); [done|]. destruct (c =? c_ "-"); [done|]. destruct (c =? c_ "]"); [done|].
      apply step_class_lift.
    - destruct (c =? c_ "-"); [done|]. destruct l; [destruct (c =? c_ "]"); [done|]|]; apply step_class_lift.
    - apply step_class_lift.
    - destruct (c =? c_ "-"); [done|apply step_class_lift].
    - destruct (c =? c_ "-"); [done|]. destruct (_ && _ && _ && _); [done|apply step_class_lift].
    - destruct (c =? c_ "]"); [done|]. destruct (c =? c_ "-"); [done|]. destruct (c =? c_ "\"); [done|apply add_range_lift].
    - destruct (escape_meaning c) as [[]| |]; cbn [obind]; try done; try apply class_lit_lift; destruct a; done.
    - destruct (c =? c_ "-"); [done|apply step_class_lift].
    - destruct (c =? c_ "]"); [done|]. destruct (c =? c_ "-"); done.
    - destruct (c =? c_ "&"); done.
    - destruct (c =? c_ "b"); done.
    - destruct (c =? c_ "]"); done.
    - destruct (c =? c_ "{"); [done|].
      change (set_mode MNormal (lift k s)) with (lift k (set_mode MNormal s)). apply step_normal_lift.
    - destruct (step_hex h c) as [[]| |]; cbn [obind]; done.
    - destruct (step_hex h c) as [[]| |]; cbn [obind]; try done. apply class_lit_lift.
    - destruct (is_letter c || (c =? c_ "-")); [done|]. apply step_count_lift.
  Qed.
  Lemma run_lift t : forall s s', run t s = Done s' -> run t (lift k s) = Done (lift k s').
  Proof.
    induction t as [|c t IH]; intros s s'; cbn [run]; [done|]. destruct (step s c) as [s1| |] eqn:E; cbn [obind]; [|discriminate..].
    intros H. rewrite (step_lift _ _ _ E). cbn [obind]. now apply IH.
  Qed.
End Frame.

Lemma parse_reads t r : parse_syntax t = Done r -> reads t r.
Proof.
  unfold parse_syntax. destruct (run t init) as [s| |] eqn:E; cbn [obind]; [|discriminate..].
  intros H k. apply (run_lift k) in E. unfold finish in H. destruct s as [m i a st]. cbn [st_mode st_stack st_items st_alts] in H.
  assert (Hm : ready m /\ st = [] /\ body i a = r).
  { destruct m; try discriminate H; destruct st; try discriminate H; injection H as <-; repeat split; constructor. }
  destruct Hm as (Hm & -> & <-). exists m, i, a. split; [exact Hm|]. split; [exact E|reflexivity].
Qed.
Lemma parse_reads_iff t r : parse_syntax t = Done r <-> reads t r.
Proof. split; [apply parse_reads|apply parse_syntax_reads]. Qed.
Lemma parse_no_question t r : parse_syntax t = Done r -> forall u, t <> c_ "?" :: u.
Proof. intros H u ->. discriminate H. Qed.
(** A matcher in parentheses. *)
Lemma parse_capture t r : parse_syntax t = Done r -> adds_one (s_ "(" ++ t ++ s_ ")") (RCap None r).
Proof. intros H. apply adds_one_capture; [exact (parse_no_question t r H)|now apply parse_reads]. Qed.
Lemma parse_group t r : parse_syntax t = Done r -> adds_one (s_ "(?:" ++ t ++ s_ ")") r.
Proof. intros H. apply adds_one_group. now apply parse_reads. Qed.
Lemma regex_new_inv t r : regex_new t = Done r -> parse_syntax t = Done r /\ NoDup (group_names r).
Proof.
  unfold regex_new. destruct (parse_syntax t) as [x| |]; cbn [obind]; [|discriminate..].
  destruct (distinct (group_names x)) eqn:E; [|discriminate]. intros H. injection H as <-. split; [reflexivity|].
  now apply distinct_iff.
Qed.
