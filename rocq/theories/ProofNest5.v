(** A regex is nested at most as deep as it is long. *)
From Coq Require Import PeanoNat.
From Verif Require Export ProofNest4.

Fixpoint weight (l : list re) : nat := match l with [] => 0 | r :: l => S (depth r) + weight l end.
Definition mode_weight (m : mode) : nat :=
  match m with
  | MNormal | MRep | MCount _ | MCountTo _ _ | MWord | MWordCount => 0
  | MEsc | MOpen | MOpenQ | MOpenP | MOpenLt | MName _ | MClass0 | MHex _ => 1
  | MClass1 _ l => S (List.length l)
  | MClassIn _ l | MClassPerl _ l | MClassPerlDash _ l => Nat.max 2 (S (List.length l))
  | MClassDash _ l | MClassLit _ l _ | MClassEsc _ l _ | MClassHex _ l _ _ => S (S (List.length l))
  | MClassRange _ l _ => S (S (S (List.length l)))
  | MFail1 | MFail2 | MFail3 => 2
  end.
Fixpoint frames_weight (l : list frame) : nat :=
  match l with [] => 0 | f :: l => S (weight (fr_items f) + weight (fr_alts f) + frames_weight l) end.
Definition state_weight (s : state) : nat :=
  mode_weight (st_mode s) + weight (st_items s) + weight (st_alts s) + frames_weight (st_stack s).
Lemma weight_app a b : weight (a ++ b) = (weight a + weight b)%nat.
Proof. induction a as [|r a IH]; cbn [app weight]; [reflexivity|]. rewrite IH. lia. Qed.
Lemma weight_rev l : weight (rev l) = weight l.
Proof. induction l as [|r l IH]; cbn [rev weight]; [reflexivity|]. rewrite weight_app. cbn [weight]. lia. Qed.
Lemma deepest_weight l : (deepest_of l <= Nat.pred (weight l))%nat.
Proof. induction l as [|r l IH]; cbn [deepest_of weight]; [lia|]. destruct l as [|q l]; [cbn [deepest_of weight]; lia|]. cbn [weight] in *. lia. Qed.
Lemma depth_cat_weight l : (depth (mk_cat l) <= weight l)%nat.
Proof.
  destruct l as [|r l]; [cbn; lia|]. pose proof (depth_mk_cat (r :: l)). pose proof (deepest_weight (r :: l)). cbn [weight] in *. lia.
Qed.
Lemma depth_body items alts : (depth (body items alts) <= weight items + weight alts)%nat.
Proof.
  unfold body. pose proof (depth_cat_weight (rev items)) as Hc. rewrite weight_rev in Hc.
  destruct alts as [|a alts]; [cbn [rev app]; cbn [mk_alt weight]; lia|].
  pose proof (depth_mk_alt (rev (mk_cat (rev items) :: a :: alts))) as H. cbn [rev] in *. rewrite !deepest_of_app in H. cbn [deepest_of] in H.
  pose proof (deepest_weight (rev alts)) as Ha. rewrite weight_rev in Ha. cbn [weight]. lia.
Qed.
Lemma step_class_weight neg l s c s' k : step_class neg l s c = Done s' -> (S (List.length l) <= k)%nat -> (c = c_ "]" -> (2 <= k)%nat) ->
  (state_weight s' <= S k + weight (st_items s) + weight (st_alts s) + frames_weight (st_stack s))%nat.
Proof.
  unfold step_class. intros H Hl Hk. destruct (N.eqb_spec c (c_ "]")) as [->|].
  - specialize (Hk eq_refl). injection H as <-. unfold state_weight, push_item. cbn [st_mode st_items st_alts st_stack mode_weight weight depth cl_items].
    assert (List.length (rev l) = List.length l) by apply rev_length. destruct (rev l) as [|x [|y r]]; cbn [List.length] in *; lia.
  - destruct (contains (s_ "[&~") c); [discriminate|].
    destruct (c =? c_ "-"); [|destruct (c =? c_ "\")]; injection H as <-; unfold state_weight, set_mode; cbn [st_mode st_items st_alts st_stack mode_weight]; lia.
Qed.
Lemma add_range_weight neg l s a b s' k : add_range neg l s a b = Done s' -> (S (S (List.length l)) <= S k)%nat ->
  (state_weight s' <= S k + weight (st_items s) + weight (st_alts s) + frames_weight (st_stack s))%nat.
Proof.
  unfold add_range. destruct (b <? a); [discriminate|]. intros [= <-] H. unfold state_weight, set_mode. cbn [st_mode st_items st_alts st_stack mode_weight List.length]. lia.
Qed.
Lemma repeat_last_weight min max s s' : repeat_last min max s = Done s' ->
  (state_weight s' <= S (weight (st_items s) + weight (st_alts s) + frames_weight (st_stack s)))%nat.
Proof.
  unfold repeat_last. destruct (st_items s) as [|r l]; [discriminate|]. intros [= <-]. unfold state_weight. cbn [st_mode st_items st_alts st_stack mode_weight weight depth]. lia.
Qed.
(** Apart from a closing parenthesis. *)
Lemma step_normal_weight s c s' : c <> c_ ")" -> step_normal s c = Done s' ->
  (state_weight s' <= S (weight (st_items s) + weight (st_alts s) + frames_weight (st_stack s)))%nat.
Proof.
  intros Hc. unfold step_normal. destruct (N.eqb_spec c (c_ ")")); [contradiction|].
  repeat match goal with |- (if ?b then _ else _) = _ -> _ => destruct b eqn:? end;
    try (intros [= <-]; unfold state_weight, set_mode, push_item, push_alt; cbn [st_mode st_items st_alts st_stack mode_weight weight depth]; try lia;
         pose proof (depth_cat_weight (rev (st_items s))) as H; rewrite weight_rev in H; lia);
    try apply repeat_last_weight.
  intros [= <-]. unfold state_weight, set_mode. cbn [st_mode st_items st_alts st_stack mode_weight].
  match goal with E : st_items s = _ |- _ => rewrite E end. lia.
Qed.
Lemma step_name_weight s n c s' : step_name s n c = Done s' -> (state_weight s' <= S (1 + weight (st_items s) + weight (st_alts s) + frames_weight (st_stack s)))%nat.
Proof.
  unfold step_name. intros H.
  repeat match type of H with
         | (if ?b then _ else _) = _ => destruct b
         | match n with [] => _ | _ => _ end = _ => destruct n
         end; try discriminate H;
    injection H as <-; unfold state_weight, set_mode, push_frame; cbn [st_mode st_items st_alts st_stack mode_weight weight frames_weight fr_items fr_alts]; lia.
Qed.
Lemma close_weight m items alts f stack : ready m ->
  exists s', nest_step (mkState m items alts (f :: stack)) (c_ ")") = Done s' /\ (state_weight s' <= S (state_weight (mkState m items alts (f :: stack))))%nat.
Proof.
  intros Hm. eexists. split; [now apply nest_close|]. unfold state_weight, closed_kind.
  cbn [st_mode st_items st_alts st_stack mode_weight weight frames_weight depth]. pose proof (depth_body items alts). lia.
Qed.
Lemma class_end c : match c =? c_ "]" with true => c = c_ "]" | false => c <> c_ "]" end.
Proof. now destruct (N.eqb_spec c (c_ "]")). Qed.
Ltac weigh := unfold state_weight, set_mode, push_frame, push_item in *; cbn [st_mode st_items st_alts st_stack mode_weight weight depth frames_weight fr_items fr_alts List.length cl_items] in *.
Lemma step_count_weight s n c s' : step_count s n c = Done s' ->
  (state_weight s' <= S (weight (st_items s) + weight (st_alts s) + frames_weight (st_stack s)))%nat.
Proof.
  unfold step_count. destruct (is_digit_char c); [intros [= <-]; weigh; lia|]. destruct (contains (s_ "} ,") c); [|destruct (_ || _); discriminate].
  destruct n as [n|]; [|destruct (c =? c_ "}"); discriminate]. destruct (u32_max <? n); [discriminate|].
  destruct (c =? c_ "}"); [apply repeat_last_weight|]. destruct (c =? c_ ","); [|discriminate]. intros [= <-]. weigh. lia.
Qed.
Lemma class_lit_weight n l a s c s' : class_lit n l a s c = Done s' ->
  (state_weight s' <= S (S (S (List.length l)) + weight (st_items s) + weight (st_alts s) + frames_weight (st_stack s)))%nat.
Proof.
  unfold class_lit. destruct a as [a|].
  - intros H. apply (add_range_weight _ _ _ _ _ _ (S (S (List.length l)))) in H; [lia|lia].
  - intros [= <-]. weigh. lia.
Qed.
Lemma step_weight s c s' : ready (st_mode s) -> c <> c_ ")" -> step s c = Done s' -> (state_weight s' <= S (state_weight s))%nat.
Proof.
  intros Hm Hc. unfold step. destruct s as [m items alts stack]. cbn [st_mode] in *. destruct Hm.
  - intros H%step_normal_weight; [|assumption]. exact H.
  - destruct (c =? c_ "?").
    + unfold make_lazy. cbn [st_items]. destruct items as [|[] l]; try discriminate. intros [= <-].
      unfold state_weight. cbn [st_mode st_items st_alts st_stack mode_weight weight depth]. lia.
    + intros H%step_normal_weight; [|assumption]. exact H.
  - destruct (c =? c_ "{"); [intros [= <-]; weigh; lia|]. intros H%step_normal_weight; [|assumption]. exact H.
Qed.
Lemma step_weight_other s c s' : ~ ready (st_mode s) -> st_mode s <> MOpen -> step s c = Done s' -> (state_weight s' <= S (state_weight s))%nat.
Proof.
  intros Hm Ho. unfold step. destruct s as [m items alts stack]. cbn [st_mode] in *.
  destruct m; try (exfalso; apply Hm; constructor); try (exfalso; now apply Ho); clear Hm Ho.
  - destruct (escape_meaning c) as [[| |[]|]| |]; try discriminate; intros [= <-]; weigh; lia.
  - repeat match goal with |- (if ?b then _ else _) = _ -> _ => destruct b end; try discriminate; intros [= <-]; weigh; lia.
  - destruct (c =? c_ "<"); [|discriminate]. intros [= <-]. weigh. lia.
  - destruct (contains _ c); [discriminate|]. intros H%step_name_weight. exact H.
  - intros H%step_name_weight. exact H.
  - intros H%step_count_weight. exact H.
  - destruct (is_digit_char c); [intros [= <-]; weigh; lia|]. destruct (c =? c_ "}").
    + destruct m as [m|]; [destruct (_ || _); [discriminate|]|]; intros H%repeat_last_weight; exact H.
    + destruct (_ || _); discriminate.
  - destruct (c =? c_ "^"); [intros [= <-]; weigh; lia|]. destruct (c =? c_ "-"); [intros [= <-]; weigh; lia|].
    destruct (N.eqb_spec c (c_ "]")) as [->|Hc]; [intros [= <-]; weigh; lia|].
    intros H. apply (step_class_weight _ _ _ _ _ 1) in H; [weigh; lia|cbn; lia|contradiction].
  - destruct (c =? c_ "-"); [intros [= <-]; weigh; lia|]. destruct l as [|x l].
    + destruct (N.eqb_spec c (c_ "]")) as [->|Hc]; [intros [= <-]; weigh; lia|].
      intros H. apply (step_class_weight _ _ _ _ _ 1) in H; [weigh; lia|cbn; lia|contradiction].
    + intros H. apply (step_class_weight _ _ _ _ _ (S (List.length (x :: l)))) in H; [weigh; lia|lia|cbn; lia].
  - intros H. apply (step_class_weight _ _ _ _ _ (Nat.max 2 (S (List.length l)))) in H; [weigh; lia|lia|lia].
  - destruct (c =? c_ "-"); [discriminate|].
    intros H. apply (step_class_weight _ _ _ _ _ (S (S (List.length l)))) in H; [weigh; lia|cbn; lia|lia].
  - destruct (c =? c_ "-"); [intros [= <-]; weigh; lia|]. destruct (_ && _ && _ && _); [intros [= <-]; weigh; lia|].
    intros H. apply (step_class_weight _ _ _ _ _ (S (S (List.length l)))) in H; [weigh; lia|cbn; lia|lia].
  - destruct (c =? c_ "]").
    + intros [= <-]. weigh. match goal with |- context [match ?x with [] => _ | _ => _ end] => destruct x as [|? [|? ?]] end; lia.
    + destruct (c =? c_ "-"); [discriminate|]. destruct (c =? c_ "\"); [intros [= <-]; weigh; lia|].
      intros H. apply (add_range_weight _ _ _ _ _ _ (S (S (S (List.length l))))) in H; [weigh; lia|lia].
  - destruct (escape_meaning c) as [[]| |]; cbn [obind]; try discriminate.
    + intros H%class_lit_weight. weigh. lia.
    + destruct a; [discriminate|]. intros [= <-]. weigh. lia.
    + intros [= <-]. weigh. lia.
  - destruct (c =? c_ "-"); [intros [= <-]; weigh; lia|].
    intros H. apply (step_class_weight _ _ _ _ _ (Nat.max 2 (S (List.length l)))) in H; [weigh; lia|lia|lia].
  - destruct (c =? c_ "]"); [|destruct (c =? c_ "-"); discriminate].
    intros [= <-]. weigh. match goal with |- context [match ?x with [] => _ | _ => _ end] => destruct x as [|? [|? ?]] end; lia.
  - destruct (c =? c_ "&"); [|discriminate]. intros [= <-]. weigh. lia.
  - destruct (c =? c_ "b"); [|discriminate]. intros [= <-]. weigh. lia.
  - destruct (c =? c_ "]"); [|discriminate]. intros [= <-]. weigh. cbn [rev]. lia.
  - destruct (step_hex h c) as [[]| |]; cbn [obind]; try discriminate; intros [= <-]; weigh; lia.
  - destruct (step_hex h c) as [[]| |]; cbn [obind]; try discriminate; [intros [= <-]; weigh; lia|].
    intros H%class_lit_weight. weigh. lia.
  - destruct (_ || _); [discriminate|]. intros H%step_count_weight. exact H.
Qed.
Lemma mark_mode_other s c s' : ~ ready (st_mode s) -> st_mode s <> MEsc -> mark s c s' = s'.
Proof. intros Hr He. unfold mark. destruct (st_mode s); try reflexivity; try contradiction; exfalso; apply Hr; constructor. Qed.
Lemma mark_weight_esc s c s' : st_mode s = MEsc -> (state_weight (mark s c s') <= state_weight s')%nat.
Proof.
  intros E. unfold mark. rewrite E. destruct s' as [m items alts stack]. cbn [st_items]. destruct items as [|[] l]; try lia.
  cbn [st_mode]. destruct m; try lia; weigh; destruct (cl_items c0) as [|? [|? ?]]; lia.
Qed.
Lemma nest_step_weight s c s' : nest_step s c = Done s' -> (state_weight s' <= S (state_weight s))%nat.
Proof.
  intros H. assert (Hr : {ready (st_mode s)} + {~ ready (st_mode s)}).
  { destruct (st_mode s); first [left; constructor|right; now inversion 1]. }
  destruct Hr as [Hr|Hr].
  - destruct (N.eq_dec c (c_ ")")) as [->|Hc].
    + destruct s as [m items alts [|f stack]]; cbn [st_mode] in Hr.
      * destruct Hr; discriminate H.
      * destruct (close_weight m items alts f stack Hr) as (s1 & E & Hw). rewrite E in H. now injection H as <-.
    + rewrite nest_step_quiet in H; [|now apply ready_not_esc|exact Hc]. now apply step_weight in H.
  - destruct (st_mode s) eqn:Em; try (rewrite <- Em in Hr).
    all: try (unfold nest_step in H; destruct (step s c) as [s1| |] eqn:E; try discriminate H; cbn [obind] in H; injection H as <-;
              assert (Ho : st_mode s <> MOpen) by (rewrite Em; discriminate); pose proof (step_weight_other s c s1 Hr Ho E);
              first [rewrite mark_mode_other by (assumption || (rewrite Em; discriminate)); assumption | pose proof (mark_weight_esc s c s1 Em); lia]).
    + clear Hr. destruct s as [m items alts stack]. cbn [st_mode] in Em. subst m.
      destruct (N.eq_dec c (c_ "?")) as [->|Hq].
      { injection H as <-. weigh. unfold mark. cbn [st_mode st_items]. destruct items; weigh; lia. }
      assert (H' : nest_step (mkState MNormal [] [] (mkFrame (KCapture None) items alts :: stack)) c = Done s').
      { rewrite <- H. unfold nest_step. cbn [step st_mode]. destruct (N.eqb_spec c (c_ "?")); [contradiction|].
        change (push_frame (KCapture None) (mkState MOpen items alts stack)) with (mkState MNormal [] [] (mkFrame (KCapture None) items alts :: stack)).
        destruct (step_normal _ c) as [s1| |]; cbn [obind]; [|reflexivity..]. f_equal. unfold mark. cbn [st_mode st_stack]. now destruct (st_items s1). }
      destruct (N.eq_dec c (c_ ")")) as [->|Hc].
      * destruct (close_weight MNormal [] [] (mkFrame (KCapture None) items alts) stack ready_normal) as (s1 & E & Hw). rewrite E in H'. injection H' as <-. exact Hw.
      * rewrite nest_step_quiet in H' by (discriminate || assumption). apply step_weight in H'; [exact H'|constructor|exact Hc].
Qed.
Lemma nest_run_weight t : forall s s', nest_run t s = Done s' -> (state_weight s' <= List.length t + state_weight s)%nat.
Proof.
  induction t as [|c t IH]; intros s s'; cbn [nest_run List.length]; [intros [= <-]; lia|].
  destruct (nest_step s c) as [s1| |] eqn:E; try discriminate. cbn [obind]. intros H%IH. apply nest_step_weight in E. lia.
Qed.
Lemma nest_length t d : nest t = Some d -> (d <= List.length t)%nat.
Proof.
  unfold nest. destruct (nest_run t init) as [s| |] eqn:E; try discriminate. cbn [obind]. unfold finish.
  intros H. apply nest_run_weight in E. change (state_weight init) with 0%nat in E.
  assert (H' : depth (body (st_items s) (st_alts s)) = d).
  { destruct (st_mode s); try discriminate H; destruct (st_stack s); try discriminate H; now injection H. }
  pose proof (depth_body (st_items s) (st_alts s)). unfold state_weight in E. lia.
Qed.
Lemma limited_short limit digits spaces words to_string get s e : (12 <= limit)%nat -> expression_parse s = RetOk e ->
  Forall (regexes digits spaces words to_string get) (parameters e) ->
  (forall p v r, In p (parameters e) -> get (par_input p) = Some v -> regex_new v = Done r ->
    (List.length v <= limit)%nat /\ (List.length (between digits spaces words to_string p v r) + 2 <= limit)%nat) ->
  limited_regex_with_parameters limit digits spaces words to_string get s = regex_with_parameters digits spaces words to_string get s.
Proof.
  intros Hl H Hr Hs. apply (limited_same limit digits spaces words to_string get Hl s e H Hr).
  - apply Forall_forall. intros p Hp (v & d & Hv & _ & Hd & Hlt). rewrite Forall_forall in Hr. specialize (Hr p Hp). unfold regexes in Hr.
    rewrite Hv in Hr. destruct Hr as (r & _ & Hn & _). destruct (Hs p v r Hp Hv Hn) as [H1 _]. apply nest_length in Hd. lia.
  - apply Forall_forall. intros p Hp v r d Hv Hn Hd. destruct (Hs p v r Hp Hv Hn) as [_ H2]. apply nest_length in Hd. lia.
Qed.
