(** Which of the accepted strings the README's grammar derives. *)
From Verif Require Export ProofGrammar SpecReadme.

(** ** Contents *)
Definition unit_in (special escaped : str) : lang :=
  alt (none special) (seq (lit (s_ "\")) (one escaped)).
Lemma escape_in escaped s : seq (lit (s_ "\")) (one escaped) s <-> exists c, In c escaped /\ s = [backslash; c].
Proof.
  split.
  - intros (x & y & -> & (c & Hc & ->) & ->). exists c. auto.
  - intros (c & Hc & ->). exists [backslash], [c]. split; [reflexivity|]. split; [|reflexivity].
    exists c. auto.
Qed.
Lemma units_iff special escaped s : In backslash special -> incl escaped reserved ->
  star (unit_in special escaped) s <-> content special s /\ escapes_only escaped s.
Proof.
  intros Hb He. split.
  - induction 1 as [|x y Hx _ [IH1 IH2]]; [split; constructor|].
    destruct Hx as [(c & Hc & ->)|Hx].
    + split; constructor; auto. intros ->. easy.
    + apply escape_in in Hx as (c & Hc & ->). split; cbn [app]; [apply content_escape|apply only_escape]; auto.
  - intros [H1 H2]. induction H1 as [|c t H _ IH|c t H _ IH]; [constructor| |].
    + apply (star_app _ [c]); [left; exists c; auto|]. apply IH.
      inversion H2; subst; [assumption|easy].
    + inversion H2; subst; [easy|]. apply (star_app _ [backslash; c]); [|now apply IH].
      right. apply escape_in. eauto.
Qed.
Lemma unit_in_ne special escaped s : unit_in special escaped s -> s <> [].
Proof. intros [(c & _ & ->)|H] E; [easy|]. apply escape_in in H as (c & _ & ->). easy. Qed.
Lemma units_plus special escaped s : In backslash special -> incl escaped reserved ->
  plus (unit_in special escaped) s <-> s <> [] /\ content special s /\ escapes_only escaped s.
Proof.
  intros Hb He. rewrite <- units_iff by assumption. split.
  - intros H. split; [|now apply plus_star]. destruct H as (x & y & Hx & _ & ->).
    apply unit_in_ne in Hx. now destruct x.
  - intros [Hne H]. destruct H as [|x y Hx Hy]; [easy|]. exists x, y. auto.
Qed.
Lemma only_app E x y : escapes_only E x -> escapes_only E y -> escapes_only E (x ++ y).
Proof. induction 1; intros Hy; cbn; [assumption|now apply only_plain; auto|now apply only_escape; auto]. Qed.
Lemma only_incl E E' x : incl E E' -> escapes_only E x -> escapes_only E' x.
Proof. intros H. induction 1; [constructor|now apply only_plain|apply only_escape; auto]. Qed.

Local Ltac esc := cbv; intros; intuition.
Lemma incl_text : incl Readme.text_to_escape reserved. Proof. esc. Qed.
Lemma incl_alternative : incl Readme.alternative_to_escape reserved. Proof. esc. Qed.
Lemma incl_optional : incl Readme.optional_to_escape reserved. Proof. esc. Qed.
Lemma incl_name : incl Readme.name_to_escape reserved. Proof. esc. Qed.
Lemma incl_text_alternative : incl Readme.text_to_escape Readme.alternative_to_escape. Proof. esc. Qed.

Lemma readme_text s : plus Readme.text_without_whitespace s <-> wf_text s /\ escapes_only Readme.text_to_escape s.
Proof.
  unfold wf_text. split.
  - intros H. apply (plus_mono _ (unit_in text_special Readme.text_to_escape)) in H.
    + apply units_plus in H; [tauto|cbn; tauto|apply incl_text].
    + intros x [(c & Hc & ->)|Hx]; [left|now right]. exists c. split; [|reflexivity]. cbn in *. intuition.
  - intros [[H1 H2] H3]. apply (plus_mono (unit_in text_special Readme.text_to_escape)).
    + intros x [(c & Hc & ->)|Hx]; [left|now right]. exists c. split; [|reflexivity]. cbn in *. intuition.
    + apply units_plus; [cbn; tauto|apply incl_text|tauto].
Qed.
Definition text_ok (t : str) : Prop := wf_text t /\ escapes_only Readme.alternative_to_escape t.
Lemma readme_alternative_text s : plus Readme.text_in_alternative s <-> text_ok s.
Proof. unfold text_ok, wf_text. rewrite and_assoc. apply units_plus; [cbn; tauto|apply incl_alternative]. Qed.
Definition optional_ok (o : optional str) : Prop := wf_optional o /\ readme_optional o.
Lemma readme_optional_iff s : Readme.optional s <-> exists o, optional_ok o /\ s = src_optional o.
Proof.
  unfold optional_ok, wf_optional, readme_optional. split.
  - intros (x & y & -> & (t & z & Ht & -> & ->) & ->).
    apply units_plus in Ht; [|cbn; tauto|apply incl_optional]. exists (mkOptional t). cbn [opt_input]. tauto.
  - intros (o & H & ->). exists (s_ "("), (opt_input o ++ s_ ")"). split; [reflexivity|].
    split; [|reflexivity]. exists (opt_input o), (s_ ")"). split; [|now split].
    apply units_plus; [cbn; tauto|apply incl_optional|tauto].
Qed.
Lemma readme_parameter_iff s : Readme.parameter s <->
  exists t, (content name_special t /\ escapes_only Readme.name_to_escape t) /\ s = s_ "{" ++ t ++ s_ "}".
Proof.
  split.
  - intros (x & y & -> & (t & z & Ht & -> & ->) & ->). exists t. split; [|reflexivity].
    apply units_iff in Ht; [assumption|cbn; tauto|apply incl_name].
  - intros (t & H & ->). exists (s_ "{"), (t ++ s_ "}"). split; [reflexivity|]. split; [|reflexivity].
    exists t, (s_ "}"). split; [|now split]. apply units_iff; [cbn; tauto|apply incl_name|assumption].
Qed.

(** ** From trees to derivations *)
Definition item_ok (a : alternative str) : Prop := wf_alternative a /\ readme_alternative a.
Lemma item_text t : item_ok (AltText t) <-> text_ok t. Proof. reflexivity. Qed.
Lemma item_optional o : item_ok (AltOptional o) <-> optional_ok o. Proof. reflexivity. Qed.
Definition all_optionals (b : single_alternation str) : Prop := Forall (fun x => ~ is_text x) b.

Definition text_first : lang := seq (plus Readme.text_in_alternative) (star Readme.optional).
Definition optional_first : lang := seq (plus Readme.optional) (plus Readme.text_in_alternative).
Definition group : lang := alt text_first optional_first.
Lemma single_is : Readme.single_alternation = plus group. Proof. reflexivity. Qed.

Lemma src_branch_cons x b : src_branch (x :: b) = src_alternative x ++ src_branch b. Proof. reflexivity. Qed.
Lemma src_branch_app b c : src_branch (b ++ c) = src_branch b ++ src_branch c.
Proof. unfold src_branch. now rewrite map_app, concat_app. Qed.
Lemma optional_src o : optional_ok o -> Readme.optional (src_alternative (AltOptional o)).
Proof. intros H. apply readme_optional_iff. eauto. Qed.
Lemma optionals_src b : all_optionals b -> Forall item_ok b -> star Readme.optional (src_branch b).
Proof.
  induction b as [|[o|t] b IH]; intros H1 H2; [constructor| |].
  - inversion H1; inversion H2; subst. rewrite src_branch_cons. constructor; [now apply optional_src|auto].
  - inversion H1; subst. now elim H3.
Qed.
Lemma optionals_plus b : b <> [] -> all_optionals b -> Forall item_ok b -> plus Readme.optional (src_branch b).
Proof.
  intros Hne H1 H2. destruct b as [|[o|t] b]; [easy| |].
  - inversion H1; inversion H2; subst. rewrite src_branch_cons.
    exists (src_alternative (AltOptional o)), (src_branch b). split; [now apply optional_src|].
    split; [now apply optionals_src|reflexivity].
  - inversion H1; subst. now elim H3.
Qed.
Lemma plus_cons (a : lang) x y : a x -> star a y -> plus a (x ++ y).
Proof. intros. exists x, y. auto. Qed.

(** A branch that starts with a text. *)
Lemma started b : Forall item_ok b -> forall g, text_first g -> plus group (g ++ src_branch b).
Proof.
  induction 1 as [|x b Hx Hb IH]; intros g Hg.
  - apply plus_cons; [now left|constructor].
  - rewrite src_branch_cons. destruct x as [o|t].
    + rewrite app_assoc. apply IH. destruct Hg as (u & v & Hu & Hv & ->).
      exists u, (v ++ src_alternative (AltOptional o)). split; [assumption|].
      split; [|now rewrite app_assoc]. apply star_concat; [assumption|]. now apply star_one, optional_src.
    + apply plus_cons; [now left|]. apply plus_star, IH. exists t, []. rewrite app_nil_r.
      split; [now apply readme_alternative_text|]. split; [constructor|reflexivity].
Qed.
Lemma starts_with_text t b : Forall item_ok (AltText t :: b) -> Readme.single_alternation (src_branch (AltText t :: b)).
Proof.
  intros H. inversion H; subst. rewrite src_branch_cons. apply started; [assumption|].
  exists t, []. rewrite app_nil_r. split; [now apply readme_alternative_text|]. split; [constructor|reflexivity].
Qed.
(** A branch that ends with a text. *)
Lemma before_text g t : star Readme.optional g -> text_ok t -> group (g ++ t).
Proof.
  intros Hg Ht. apply readme_alternative_text in Ht. destruct Hg as [|x y Hx Hy].
  - left. exists t, []. rewrite app_nil_r. split; [assumption|]. split; [constructor|reflexivity].
  - right. exists (x ++ y), t. split; [now apply plus_cons|]. now split.
Qed.
Lemma ended b t : Forall item_ok (b ++ [AltText t]) -> forall g, star Readme.optional g ->
  plus group (g ++ src_branch (b ++ [AltText t])).
Proof.
  induction b as [|x b IH]; cbn [app]; intros H g Hg; inversion H as [|? ? Hx Hb]; subst.
  - unfold src_branch. cbn. rewrite app_nil_r. rewrite <- (app_nil_r (g ++ t)).
    apply plus_cons; [now apply before_text|constructor].
  - rewrite src_branch_cons, app_assoc. destruct x as [o|u].
    + apply IH; [assumption|]. apply star_concat; [assumption|]. now apply star_one, optional_src.
    + apply plus_cons; [now apply before_text|]. apply plus_star, (IH Hb []). constructor.
Qed.
Lemma ends_with_text b t : Forall item_ok (b ++ [AltText t]) ->
  Readme.single_alternation (src_branch (b ++ [AltText t])).
Proof. intros H. apply (ended b t H []). constructor. Qed.

Lemma split_first b : all_optionals b \/ exists l t r, all_optionals l /\ b = l ++ AltText t :: r.
Proof.
  induction b as [|[o|t] b [IH|(l & t' & r & Hl & ->)]].
  - left. constructor.
  - left. constructor; auto.
  - right. exists (AltOptional o :: l), t', r. split; [constructor; auto|reflexivity].
  - right. exists [], t, b. split; [constructor|reflexivity].
  - right. exists [], t, (l ++ AltText t' :: r). split; [constructor|reflexivity].
Qed.
Lemma no_text b : all_optionals b -> ~ Exists is_text b.
Proof. intros H1 H2. apply Exists_exists in H2 as (x & H2 & H3). eapply Forall_forall in H1; eauto. Qed.
Lemma split_last b : all_optionals b \/ exists l t r, all_optionals r /\ b = l ++ [AltText t] ++ r.
Proof.
  induction b as [|x b [IH|(l & t' & r & Hl & ->)]].
  - left. constructor.
  - destruct x as [o|t]; [left; constructor; auto|]. right. exists [], t, b. auto.
  - right. exists (x :: l), t', r. auto.
Qed.
Lemma two_units t : text_ok t ->
  (exists c, t = [c] \/ t = [backslash; c]) \/ exists u v, text_ok u /\ text_ok v /\ t = u ++ v.
Proof.
  intros Ht. pose proof (proj2 (readme_alternative_text _) Ht) as H.
  destruct H as (x & y & Hx & Hy & ->). destruct Hy as [|y z Hy Hz].
  - left. rewrite app_nil_r. destruct Hx as [(c & _ & ->)|Hx]; [eauto|].
    apply escape_in in Hx as (c & _ & ->). eauto.
  - right. exists x, (y ++ z). split; [|split; [|reflexivity]]; apply readme_alternative_text.
    + rewrite <- (app_nil_r x). apply plus_cons; [assumption|constructor].
    + now apply plus_cons.
Qed.
(** What follows a first branch of [s], itself preceded by branches already derived. *)
Definition prefix_lang : lang := seq Readme.single_alternation (star (seq (lit (s_ "/")) Readme.single_alternation)).
Lemma prefix_more s t : prefix_lang s -> Readme.single_alternation t -> prefix_lang (s ++ s_ "/" ++ t).
Proof.
  intros (x & y & Hx & Hy & ->) Ht. exists x, (y ++ s_ "/" ++ t). split; [assumption|].
  split; [|now rewrite <- !app_assoc]. apply star_concat; [assumption|]. apply star_one.
  exists (s_ "/"), t. now repeat split.
Qed.
Lemma prefix_end s t : prefix_lang s -> Readme.single_alternation t ->
  Readme.single_expression (s ++ s_ "/" ++ t).
Proof.
  intros (x & y & Hx & Hy & ->) Ht. left. rewrite <- app_assoc. exists x, (y ++ s_ "/" ++ t).
  split; [assumption|]. split; [|reflexivity].
  assert (Hl : seq (lit (s_ "/")) Readme.single_alternation (s_ "/" ++ t)) by (exists (s_ "/"), t; now repeat split).
  destruct Hy as [|a b Ha Hb].
  - change ([] ++ s_ "/" ++ t) with (s_ "/" ++ t). rewrite <- (app_nil_r (s_ "/" ++ t)). apply plus_cons; [exact Hl|constructor].
  - rewrite <- app_assoc. apply plus_cons; [assumption|]. apply star_concat; [assumption|]. now apply star_one.
Qed.
Lemma optionals_expression b : all_optionals b -> Forall item_ok b -> Readme.expression (src_branch b).
Proof.
  intros H1 H2. pose proof (optionals_src b H1 H2) as H. revert H. apply star_mono.
  intros s Hs. right. now left.
Qed.
Lemma inner_split b : Forall item_ok b -> Exists is_text b -> ~ pinched b ->
  Readme.single_alternation (src_branch b) \/
  exists p m q, Readme.single_alternation p /\ Readme.expression m /\ Readme.single_alternation q /\
    src_branch b = p ++ m ++ q.
Proof.
  intros Hb Ht Hp. destruct (split_first b) as [H|(l & t & r & Hl & ->)]; [now elim (no_text b H)|].
  destruct l as [|x l]; [left; now apply starts_with_text|].
  apply Forall_app in Hb as [Hb1 Hb2]. inversion Hb2 as [|? ? Hb3 Hb4]; subst.
  assert (Hg : forall u, text_ok u -> group (src_branch (x :: l) ++ u)).
  { intros u Hu. right. exists (src_branch (x :: l)), u. split; [now apply optionals_plus|].
    split; [now apply readme_alternative_text|reflexivity]. }
  destruct (two_units t Hb3) as [Hone|(u & v & Hu & Hv & ->)].
  2: { left. rewrite src_branch_app, (src_branch_cons (AltText _)). cbn [src_alternative].
       rewrite <- (app_assoc u), app_assoc. apply plus_cons; [now apply Hg|].
       apply plus_star. apply started; [assumption|]. exists v, []. rewrite app_nil_r.
       split; [now apply readme_alternative_text|]. split; [constructor|reflexivity]. }
  destruct (split_first r) as [Hr|(l' & t' & r' & Hl' & ->)].
  - destruct r as [|y r].
    + left. apply (ends_with_text (x :: l) t). apply Forall_app. now split.
    + elim Hp. exists (x :: l), t, (y :: r). repeat split; auto; easy.
  - right. exists (src_branch (x :: l) ++ t), (src_branch l'), (src_branch (AltText t' :: r')).
    apply Forall_app in Hb4 as [Hb5 Hb6]. split; [|split; [|split]].
    + rewrite <- (app_nil_r (_ ++ t)). apply plus_cons; [now apply Hg|constructor].
    + now apply optionals_expression.
    + now apply starts_with_text.
    + rewrite src_branch_app, (src_branch_cons (AltText t)), src_branch_app. cbn [src_alternative].
      now rewrite <- !app_assoc.
Qed.
Lemma branches_derive a : forall s b, prefix_lang s ->
  Forall (fun b => Forall item_ok b /\ Exists is_text b) (b :: a) ->
  Forall (fun b => ~ pinched b) (removelast (b :: a)) ->
  Readme.expression (s ++ List.concat (map (fun b => s_ "/" ++ b) (map src_branch (b :: a)))).
Proof.
  induction a as [|c a IH]; intros s b Hs Hb Hm.
  - cbn [map List.concat]. rewrite app_nil_r. inversion Hb as [|? ? [Hb1 Hb2] _]; subst.
    destruct (split_last b) as [H|(l & t & r & Hr & ->)]; [now elim (no_text b H)|].
    rewrite app_assoc in Hb1. apply Forall_app in Hb1 as [Hb1 Hb3].
    rewrite (app_assoc l), src_branch_app.
    replace (s ++ s_ "/" ++ src_branch (l ++ [AltText t]) ++ src_branch r)
      with ((s ++ s_ "/" ++ src_branch (l ++ [AltText t])) ++ src_branch r) by now rewrite <- !app_assoc.
    apply star_app.
    + apply prefix_end; [assumption|]. now apply ends_with_text.
    + now apply optionals_expression.
  - change (removelast (b :: c :: a)) with (b :: removelast (c :: a)) in Hm.
    inversion Hm as [|? ? Hp Hm']; subst. inversion Hb as [|? ? [Hb1 Hb2] Hb']; subst.
    change (map src_branch (b :: c :: a)) with (src_branch b :: map src_branch (c :: a)).
    cbn [map List.concat]. 
    destruct (inner_split b Hb1 Hb2 Hp) as [H|(p & m & q & H1 & H2 & H3 & ->)].
    + rewrite app_assoc. apply (IH (s ++ s_ "/" ++ src_branch b) c); auto. now apply prefix_more.
    + specialize (IH q c). cbn [map List.concat] in IH.
      replace (s ++ (s_ "/" ++ p ++ m ++ q) ++ (s_ "/" ++ src_branch c) ++ List.concat (map (fun b => s_ "/" ++ b) (map src_branch a)))
        with ((s ++ s_ "/" ++ p) ++ m ++ q ++ (s_ "/" ++ src_branch c) ++ List.concat (map (fun b => s_ "/" ++ b) (map src_branch a)))
        by (now rewrite <- !app_assoc).
      apply star_app; [now apply prefix_end|]. apply star_concat; [assumption|]. apply IH; auto.
      exists q, []. rewrite app_nil_r. split; [assumption|]. split; [constructor|reflexivity].
Qed.
Lemma join_slash x a : join (s_ "/") (x :: a) = x ++ List.concat (map (fun b => s_ "/" ++ b) a).
Proof.
  revert x. induction a as [|y a IH]; intros x; [cbn; now rewrite app_nil_r|].
  change (join (s_ "/") (x :: y :: a)) with (x ++ s_ "/" ++ join (s_ "/") (y :: a)).
  rewrite IH. cbn [map List.concat]. now rewrite <- !app_assoc.
Qed.
Lemma alternation_derive a : wf_single (ExAlternation a) -> readme_single (ExAlternation a) ->
  Readme.expression (src_single (ExAlternation a)).
Proof.
  cbn [wf_single readme_single src_single]. intros [Hlen Hw] [Hr Hi].
  assert (Ha : Forall (fun b => Forall item_ok b /\ Exists is_text b) a).
  { clear -Hw Hr. induction Hw as [|b a (H1 & H2 & _)]; constructor; inversion Hr; subst; auto.
    split; [|assumption]. clear -H1 H3. induction H1; constructor; inversion H3; subst; auto. now split. }
  destruct a as [|b1 [|b2 a]]; [cbn in Hlen; lia|cbn in Hlen; lia|].
  unfold inner_branches in Hi. cbn [tl] in Hi.
  cbn [map]. rewrite join_slash. inversion Ha as [|? ? [H1 H2] Ha']; subst.
  destruct (split_first b1) as [H|(l & t & r & Hl & ->)]; [now elim (no_text b1 H)|].
  apply Forall_app in H1 as [H3 H4]. rewrite src_branch_app, <- app_assoc.
  apply star_concat; [now apply optionals_expression|].
  apply (branches_derive a _ b2); auto. exists (src_branch (AltText t :: r)), []. rewrite app_nil_r.
  split; [now apply starts_with_text|]. split; [constructor|reflexivity].
Qed.
Lemma single_derive x : wf_single x -> readme_single x -> Readme.expression (src_single x).
Proof.
  destruct x as [a|o|p|t|w]; intros Hw Hr; [now apply alternation_derive| | | |]; apply star_one;
    cbn [wf_single readme_single src_single] in *.
  - right. left. apply readme_optional_iff. exists o. split; [now split|reflexivity].
  - do 2 right. left. apply readme_parameter_iff. eauto.
  - do 3 right. left. now apply readme_text.
  - assert (H : Corrected.single_expression (src_single (ExWhitespaces w))) by now apply single_lang.
    do 4 right. destruct Hw as [Hne Hw]. apply plus_iff. exists (map (fun c => [c]) w).
    split; [now destruct w|]. clear -Hw. induction Hw as [|c w -> Hw [IH1 IH2]]; [split; constructor|].
    split; [constructor; [reflexivity|assumption]|]. cbn. now rewrite <- IH2.
Qed.
Lemma tree_derive e : Forall wf_single e -> follows_readme e -> Readme.expression (source e).
Proof.
  induction 1 as [|x e Hx He IH]; intros H; [constructor|]. inversion H; subst.
  rewrite source_cons'. apply star_concat; [now apply single_derive|now apply IH].
Qed.

(** ** From derivations to trees *)
(** The number of characters, escaped or not, of the texts of a branch. *)
Fixpoint units (t : str) : nat :=
  match t with
  | [] => 0
  | c :: t' => if c =? backslash then match t' with [] => 1 | _ :: t'' => S (units t'') end else S (units t')
  end.
Definition units_of (x : alternative str) : nat :=
  match x with AltText t => units t | AltOptional _ => 0 end.
Definition branch_units (b : single_alternation str) : nat := list_sum (map units_of b).
Lemma units_app x y : escapes_only Readme.alternative_to_escape x -> (units (x ++ y) = units x + units y)%nat.
Proof.
  induction 1 as [|c t Hc _ IH|c t Hc _ IH]; [reflexivity| |].
  - apply N.eqb_neq in Hc. cbn [app units]. rewrite Hc, IH. reflexivity.
  - cbn [app units]. rewrite N.eqb_refl, IH. reflexivity.
Qed.
Lemma units_pos t : t <> [] -> (1 <= units t)%nat.
Proof. destruct t as [|c t]; [easy|]. intros _. cbn [units]. destruct (c =? backslash); [destruct t|]; lia. Qed.

Definition normal (b : single_alternation str) : Prop := items_norm b /\ Forall readme_alternative b.
Lemma normal_cons x b : normal (x :: b) <->
  item_ok x /\ match b with y :: _ => not_texts x y | [] => True end /\ normal b.
Proof. unfold normal, item_ok. rewrite norm_cons, Forall_cons_iff. tauto. Qed.
Lemma normal_nil : normal []. Proof. repeat split; constructor. Qed.
Definition starts_text (b : single_alternation str) : Prop := match b with AltText _ :: _ => True | _ => False end.
Definition ends_text (b : single_alternation str) : Prop := exists l t, b = l ++ [AltText t].
Lemma units_text b : normal b -> (1 <= branch_units b)%nat <-> Exists is_text b.
Proof.
  induction b as [|x b IH]; intros H.
  - split; [cbn; lia|intros E; inversion E].
  - apply normal_cons in H as (Hx & _ & Hb). specialize (IH Hb).
    unfold branch_units in *. cbn [map list_sum fold_right]. change (fold_right Nat.add 0%nat) with list_sum.
    destruct x as [o|t]; cbn [units_of].
    + cbn [Nat.add]. rewrite IH, Exists_cons. cbn [is_text]. tauto.
    + destruct Hx as [[Hne _] _]. pose proof (units_pos t Hne). rewrite Exists_cons. cbn [is_text].
      split; [tauto|lia].
Qed.

(** Putting an item in front of a branch. *)
Lemma normal_push x b : item_ok x -> normal b ->
  exists b', normal b' /\ src_branch b' = src_alternative x ++ src_branch b /\
    branch_units b' = (units_of x + branch_units b)%nat /\ (is_text x -> starts_text b') /\
    b' <> [] /\ (ends_text b -> ends_text b').
Proof.
  intros Hx Hb.
  assert (D : (exists t u r, x = AltText t /\ b = AltText u :: r) \/
              match b with y :: _ => not_texts x y | [] => True end).
  { destruct b as [|[o|u] r]; auto; destruct x as [o'|t]; unfold not_texts; cbn; try tauto.
    left. eauto. }
  destruct D as [(t & u & r & -> & ->)|D].
  - apply normal_cons in Hb as ([Hu1 Hu2] & Hr & Hb). destruct Hx as [Hx1 Hx2].
    exists (AltText (t ++ u) :: r). split; [|split; [|split; [|split; [|split]]]].
    + apply normal_cons. split; [split; [now apply text_join|now apply only_app]|]. split; [|assumption].
      destruct r as [|[]]; unfold not_texts in *; cbn in *; tauto.
    + rewrite !src_branch_cons. cbn [src_alternative]. now rewrite app_assoc.
    + unfold branch_units. cbn [map list_sum fold_right units_of].
      rewrite units_app by exact Hx2. lia.
    + easy.
    + easy.
    + intros (l & v & E). destruct l as [|y l]; injection E as E1 E2.
      * subst. now exists [], (t ++ v).
      * subst. now exists (AltText (t ++ u) :: l), v.
  - exists (x :: b). split; [now apply normal_cons|]. split; [reflexivity|]. split; [reflexivity|].
    split; [now destruct x|]. split; [easy|]. intros (l & v & ->). now exists (x :: l), v.
Qed.
Lemma branch_units_cons x b : branch_units (x :: b) = (units_of x + branch_units b)%nat.
Proof. reflexivity. Qed.
(** Putting items in front of a branch. *)
Lemma normal_join a : forall b, Forall item_ok a -> normal b ->
  exists b', normal b' /\ src_branch b' = src_branch a ++ src_branch b /\
    branch_units b' = (branch_units a + branch_units b)%nat /\ (starts_text a -> starts_text b') /\
    (a <> [] -> b' <> []) /\ (ends_text b -> ends_text b').
Proof.
  induction a as [|x a IH]; intros b Ha Hb.
  - exists b. split; [assumption|]. split; [reflexivity|]. split; [reflexivity|]. repeat split; auto; easy.
  - inversion Ha as [|? ? Hx Ha']; subst. destruct (IH b Ha' Hb) as (b1 & H1 & H2 & H3 & _ & _ & H4).
    destruct (normal_push x b1 Hx H1) as (b2 & H5 & H6 & H7 & H8 & H9 & H10).
    exists b2. split; [assumption|]. split; [rewrite H6, H2, src_branch_cons; now rewrite app_assoc|].
    split; [rewrite H7, H3, branch_units_cons; lia|]. split; [|split; [easy|auto]].
    destruct x; [easy|]. intros _. now apply H8.
Qed.

(** The branches the README derives are not pinched. *)
Lemma optionals_raw s : star Readme.optional s -> exists b, all_optionals b /\ Forall item_ok b /\ src_branch b = s.
Proof.
  induction 1 as [|x y Hx _ (b & H1 & H2 & <-)]; [exists []; repeat split; constructor|].
  apply readme_optional_iff in Hx as (o & Ho & ->). exists (AltOptional o :: b).
  repeat split; [constructor; auto|constructor; auto].
Qed.
Definition loose (b : single_alternation str) : Prop :=
  b = [] \/ ((1 <= branch_units b)%nat /\ (starts_text b \/ ends_text b \/ (2 <= branch_units b)%nat)).
Lemma text_units t : text_ok t -> (1 <= branch_units [AltText t])%nat.
Proof. intros [[H _] _]. unfold branch_units. cbn [map list_sum fold_right units_of]. apply units_pos in H. lia. Qed.
Lemma branch_units_app a b : branch_units (a ++ b) = (branch_units a + branch_units b)%nat.
Proof. unfold branch_units. now rewrite map_app, list_sum_app. Qed.
Lemma group_join g b : group g -> normal b -> loose b ->
  exists b', normal b' /\ src_branch b' = g ++ src_branch b /\ loose b' /\ b' <> [].
Proof.
  intros [(t & z & Ht & Hz & ->)|(z & t & Hz & Ht & ->)] Hb Hl;
    apply readme_alternative_text in Ht.
  - apply optionals_raw in Hz as (os & Ho1 & Ho2 & <-).
    destruct (normal_join (AltText t :: os) b) as (b' & H1 & H2 & H3 & H4 & H5 & _); [constructor; auto|assumption|].
    exists b'. split; [assumption|]. split; [exact H2|]. split; [|now apply H5].
    right. pose proof (text_units t Ht) as Hu.
    rewrite H3. unfold branch_units in *. cbn [map list_sum fold_right] in *. split; [lia|].
    left. now apply H4.
  - assert (Hne : z <> []).
    { destruct Hz as (x & y & Hx & _ & ->). apply readme_optional_iff in Hx as (o & _ & ->). easy. }
    apply plus_star, optionals_raw in Hz as (os & Ho1 & Ho2 & <-).
    pose proof (text_units t Ht) as Hu.
    assert (Hs : forall c, src_branch (os ++ [AltText t]) ++ c = (src_branch os ++ t) ++ c).
    { intros c. rewrite src_branch_app. unfold src_branch at 2. cbn. now rewrite app_nil_r. }
    destruct Hl as [->|(Hl & _)].
    + destruct (normal_join os [AltText t]) as (b' & H1 & H2 & H3 & _ & _ & H4);
        [assumption|apply normal_cons; split; [exact Ht|]; split; [exact I|apply normal_nil]|].
      exists b'. split; [assumption|]. split.
      * rewrite H2. unfold src_branch at 2 4. cbn. now rewrite !app_nil_r.
      * assert (He : ends_text b') by (apply H4; now exists [], t).
        split; [|now destruct He as (l & v & ->); destruct l].
        right. split; [lia|]. right. now left.
    + destruct (normal_join (os ++ [AltText t]) b) as (b' & H1 & H2 & H3 & _ & H4 & _);
        [apply Forall_app; split; [assumption|constructor; [exact Ht|constructor]]|assumption|].
      exists b'. split; [assumption|]. split; [now rewrite H2, Hs|].
      rewrite branch_units_app in H3. split; [|apply H4; now destruct os]. right. split; [lia|].
      right. right. lia.
Qed.
Lemma groups_join s : star group s -> exists b, normal b /\ src_branch b = s /\ loose b.
Proof.
  induction 1 as [|x y Hx _ (b & H1 & <- & H2)].
  - exists []. split; [apply normal_nil|]. split; [reflexivity|]. now left.
  - destruct (group_join x b Hx H1 H2) as (b' & H3 & H4 & H5 & _). eauto.
Qed.
Lemma all_optionals_units b : all_optionals b -> branch_units b = 0%nat.
Proof.
  induction b as [|[o|t] b IH]; intros H; inversion H; subst; [reflexivity| |now elim H2].
  rewrite branch_units_cons. now apply IH.
Qed.
Lemma pinched_units b : pinched b -> branch_units b = 1%nat.
Proof.
  intros (l & t & r & -> & _ & _ & Hl & Hr & c & Hc). rewrite branch_units_app, branch_units_cons.
  rewrite (all_optionals_units l Hl), (all_optionals_units r Hr). cbn [units_of].
  destruct Hc as [->| ->]; cbn [units]; [destruct (c =? backslash)|rewrite N.eqb_refl]; reflexivity.
Qed.
Lemma loose_pinched b : loose b -> ~ pinched b.
Proof.
  intros Hl Hp. pose proof (pinched_units b Hp) as Hu.
  destruct Hp as (l & t & r & -> & Hl0 & Hr0 & Hl1 & Hr1 & _).
  destruct Hl as [E|(_ & [H|[(l' & t' & E)|H]])].
  - now destruct l.
  - destruct l as [|[o|u] l]; [easy|easy|]. inversion Hl1; subst. now elim H2.
  - destruct r as [|y r] using rev_ind; [easy|]. clear IHr.
    rewrite app_comm_cons, app_assoc in E. apply app_inj_tail in E as [_ ->].
    apply Forall_app in Hr1 as [_ Hr1]. inversion Hr1; subst. now elim H1.
  - lia.
Qed.
Lemma branch_tree s : Readme.single_alternation s ->
  exists b, normal b /\ src_branch b = s /\ Exists is_text b /\ ~ pinched b.
Proof.
  intros (x & y & Hx & Hy & ->). apply groups_join in Hy as (b & H1 & <- & H2).
  destruct (group_join x b Hx H1 H2) as (b' & H3 & H4 & H5 & H6).
  exists b'. split; [assumption|]. split; [assumption|]. split; [|now apply loose_pinched].
  apply units_text; [assumption|]. destruct H5 as [->|[H5 _]]; [easy|assumption].
Qed.

Definition rtree (e : expression str) : Prop := tree e /\ follows_readme e.
Lemma rtree_cons x e : rtree (x :: e) <->
  (wf_single x /\ readme_single x) /\ match e with y :: _ => may_follow x y | [] => True end /\ rtree e.
Proof. unfold rtree, follows_readme. rewrite tree_cons, Forall_cons_iff. tauto. Qed.
Lemma normal_branch b : normal b -> Exists is_text b -> wf_branch b /\ Forall readme_alternative b.
Proof.
  intros [[H1 H2] H3] H4. split; [|assumption]. split; [assumption|]. split; [assumption|].
  exact (proj1 (linked_iff _ _) H2).
Qed.
Lemma branch_normal b : wf_branch b -> Forall readme_alternative b -> normal b /\ Exists is_text b.
Proof.
  intros (H1 & H2 & H3) H4. split; [|assumption]. split; [|assumption]. split; [assumption|].
  now apply linked_iff.
Qed.
(** What a text outside alternations may be. *)
Definition outer_ok (x : alternative str) : Prop := readme_single (word_node x).
Lemma outer_item x : wf_alternative x -> outer_ok x -> item_ok x.
Proof.
  destruct x as [o|t]; intros H1 H2; split; auto. apply (only_incl _ _ _ incl_text_alternative H2).
Qed.
(** Putting an item in front of a tree. *)
Lemma rtree_push x e : wf_alternative x -> outer_ok x -> rtree e ->
  exists e', rtree e' /\ source e' = src_alternative x ++ source e.
Proof.
  intros Hx Ho He. pose proof (outer_item x Hx Ho) as Hi.
  destruct (first_word e (proj1 He)) as [(a & r & ->)|(w & r & -> & Hr)].
  - apply rtree_cons in He as ([[Hlen Ha] [Hr1 Hr2]] & Hf & He).
    destruct a as [|b a]; [cbn in Hlen; lia|]. inversion Ha as [|? ? Hb Ha']; subst.
    inversion Hr1 as [|? ? Hb' Hr1']; subst.
    destruct (branch_normal b Hb Hb') as [Hn Ht].
    destruct (normal_push x b Hi Hn) as (b' & Hn' & Hs & Hu & _).
    assert (Ht' : Exists is_text b').
    { apply units_text; [assumption|]. apply units_text in Ht; [lia|assumption]. }
    destruct (normal_branch b' Hn' Ht') as [Hw Hr']. 
    exists (ExAlternation (b' :: a) :: r). split.
    + apply rtree_cons. split; [|split; [|assumption]].
      * split; [split; [exact Hlen|now constructor]|]. split; [now constructor|exact Hr2].
      * destruct r as [|[]]; cbn in *; tauto.
    + rewrite !source_cons'. cbn [src_single map]. rewrite !join_slash, Hs. now rewrite <- !app_assoc.
  - assert (D : (exists t u w', x = AltText t /\ w = AltText u :: w') \/
              match w with y :: _ => not_texts x y | [] => True end).
    { destruct w as [|[o|u] w']; auto; destruct x as [o'|t]; unfold not_texts; cbn; try tauto.
      left. eauto. }
    destruct D as [(t & u & w' & -> & ->)|D].
    + cbn [map app word_node] in *. apply rtree_cons in He as ([Hu1 Hu2] & Hf & He).
      exists (ExText (t ++ u) :: map word_node w' ++ r). split.
      * apply rtree_cons. split; [split; [now apply text_join|now apply only_app]|]. split; [|assumption].
        destruct (map word_node w' ++ r) as [|[]]; cbn in *; tauto.
      * rewrite !source_cons'. cbn [src_single src_alternative]. now rewrite app_assoc.
    + exists (word_node x :: map word_node w ++ r). split.
      * apply rtree_cons. split; [split; [now destruct x|exact Ho]|]. split; [|assumption].
        destruct w as [|y w'].
        -- cbn [map app]. destruct r as [|[]]; cbn in *; destruct x; cbn; tauto.
        -- cbn [map app]. destruct x, y; cbn in *; unfold not_texts in D; cbn in D; tauto.
      * rewrite source_cons'. now destruct x.
Qed.

(** Putting an alternation in front of a tree. *)
Lemma word_readme w r : rtree (map word_node w ++ r) -> normal w /\ rtree r.
Proof.
  intros [H1 H2]. pose proof (word_items w r H1) as Hw. pose proof (word_rest w r H1) as Hr.
  apply Forall_app in H2 as [H2 H3]. split; [|now split]. split; [assumption|].
  destruct Hw as [Hw _]. clear -H2 Hw. induction w as [|x w IH]; constructor; inversion H2; inversion Hw; subst; auto.
  now apply outer_item.
Qed.
Lemma concat_slash (bs : alternation str) c a :
  join (s_ "/") (map src_branch (bs ++ c :: a)) =
  List.concat (map (fun b => src_branch b ++ s_ "/") bs) ++ join (s_ "/") (src_branch c :: map src_branch a).
Proof.
  induction bs as [|b bs IH]; [reflexivity|]. cbn [map app List.concat]. rewrite <- app_assoc, <- IH.
  destruct bs as [|b' bs]; cbn [map app]; [|].
  - change (join (s_ "/") (src_branch b :: src_branch c :: map src_branch a))
      with (src_branch b ++ s_ "/" ++ join (s_ "/") (src_branch c :: map src_branch a)). now rewrite <- app_assoc.
  - change (join (s_ "/") (src_branch b :: src_branch b' :: map src_branch (bs ++ c :: a)))
      with (src_branch b ++ s_ "/" ++ join (s_ "/") (src_branch b' :: map src_branch (bs ++ c :: a))). now rewrite <- app_assoc.
Qed.
Lemma inner_app (bs : alternation str) c a : bs <> [] ->
  inner_branches (bs ++ c :: a) = tl bs ++ removelast (c :: a).
Proof.
  intros H. destruct bs as [|b bs]; [easy|]. unfold inner_branches. cbn [app tl].
  apply removelast_app. easy.
Qed.
Definition branch_good (b : single_alternation str) : Prop := normal b /\ Exists is_text b /\ ~ pinched b.
Lemma alternation_tree bs c e : bs <> [] -> Forall branch_good bs -> branch_good c -> rtree e ->
  exists e', rtree e' /\
    source e' = (List.concat (map (fun b => src_branch b ++ s_ "/") bs) ++ src_branch c) ++ source e.
Proof.
  intros Hne Hbs (Hc1 & Hc2 & Hc3) He.
  assert (Hg : forall b, branch_good b -> wf_branch b /\ Forall readme_alternative b /\ ~ pinched b).
  { intros b (H1 & H2 & H3). destruct (normal_branch b H1 H2). auto. }
  assert (Hw : Forall wf_branch bs) by (eapply Forall_impl; [|exact Hbs]; intros; now apply Hg).
  assert (Hr : Forall (Forall readme_alternative) bs) by (eapply Forall_impl; [|exact Hbs]; intros; now apply Hg).
  assert (Hp : Forall (fun b => ~ pinched b) (tl bs)).
  { destruct bs as [|b bs]; [easy|]. inversion Hbs; subst. eapply Forall_impl; [|eassumption]. intros; now apply Hg. }
  assert (Hu : (1 <= branch_units c)%nat) by now apply units_text.
  assert (Hlen : (1 <= List.length bs)%nat) by (destruct bs; [easy|cbn; lia]).
  assert (Hci : Forall item_ok c).
  { destruct Hc1 as [[H1 _] H2]. clear -H1 H2. induction H1; constructor; inversion H2; subst; auto. now split. }
  destruct (first_word e (proj1 He)) as [(a & r & ->)|(w & r & -> & Hends)].
  - apply rtree_cons in He as ([[Hlena Ha] [Hr1 Hr2]] & Hf & He).
    destruct a as [|b a]; [cbn in Hlena; lia|]. inversion Ha as [|? ? Hb Ha']; subst.
    inversion Hr1 as [|? ? Hb' Hr1']; subst.
    destruct (branch_normal b Hb Hb') as [Hn Ht].
    destruct (normal_join c b Hci Hn) as (d & Hn' & Hs & Hud & _).
    apply units_text in Ht; [|assumption].
    assert (Ht' : Exists is_text d) by (apply units_text; [assumption|lia]).
    destruct (normal_branch d Hn' Ht') as [Hw' Hr'].
    exists (ExAlternation (bs ++ d :: a) :: r). split.
    + apply rtree_cons. split; [|split; [|assumption]].
      * split; [split|split].
        -- rewrite app_length. cbn. lia.
        -- apply Forall_app. split; [assumption|now constructor].
        -- apply Forall_app. split; [assumption|now constructor].
        -- rewrite inner_app by assumption. apply Forall_app. split; [assumption|].
           unfold inner_branches in Hr2. cbn [tl] in Hr2. destruct a as [|b2 a]; [constructor|].
           change (removelast (d :: b2 :: a)) with (d :: removelast (b2 :: a)). constructor; [|assumption].
           intros Hpd. apply pinched_units in Hpd. lia.
      * destruct r as [|[]]; cbn in *; tauto.
    + rewrite !source_cons'. cbn [src_single]. rewrite concat_slash. cbn [map]. rewrite !join_slash, Hs.
      now rewrite <- !app_assoc.
  - apply word_readme in He as [Hn He].
    destruct (normal_join c w Hci Hn) as (d & Hn' & Hs & Hud & _).
    assert (Ht' : Exists is_text d) by (apply units_text; [assumption|lia]).
    destruct (normal_branch d Hn' Ht') as [Hw' Hr'].
    exists (ExAlternation (bs ++ [d]) :: r). split.
    + apply rtree_cons. split; [|split; [|assumption]].
      * split; [split|split].
        -- rewrite app_length. cbn. lia.
        -- apply Forall_app. split; [assumption|now constructor].
        -- apply Forall_app. split; [assumption|now constructor].
        -- rewrite inner_app by assumption. apply Forall_app. split; [assumption|constructor].
      * destruct r as [|[]]; cbn in *; tauto.
    + rewrite word_source, source_cons'. cbn [src_single]. rewrite concat_slash. cbn [map join].
      rewrite Hs. now rewrite <- !app_assoc.
Qed.
Lemma alternation_shape s : Readme.alternation s ->
  exists bs c, bs <> [] /\ Forall branch_good bs /\ branch_good c /\
    s = List.concat (map (fun b => src_branch b ++ s_ "/") bs) ++ src_branch c.
Proof.
  intros (b & l & Hb & Hl & ->). apply plus_iff in Hl as (ls & Hne & Hls & ->).
  apply branch_tree in Hb as (b' & Hb1 & <- & Hb2 & Hb3).
  assert (Hg : branch_good b') by now split. clear Hb1 Hb2 Hb3.
  revert b' Hg. induction Hls as [|x ls (sl & y & -> & Hy & ->) Hls IH]; intros b' Hg; [easy|].
  apply branch_tree in Hy as (y' & Hy1 & <- & Hy2 & Hy3).
  assert (Hgy : branch_good y') by now split.
  destruct ls as [|z ls].
  - exists [b'], y'. split; [easy|]. split; [now constructor|]. split; [assumption|].
    cbn [map List.concat]. now rewrite !app_nil_r, <- app_assoc.
  - destruct (IH ltac:(easy) y' Hgy) as (bs & c & H1 & H2 & H3 & H4).
    exists (b' :: bs), c. split; [easy|]. split; [now constructor|]. split; [assumption|].
    change (List.concat ((s_ "/" ++ src_branch y') :: z :: ls)) with ((s_ "/" ++ src_branch y') ++ List.concat (z :: ls)).
    cbn [map]. change (List.concat ((src_branch b' ++ s_ "/") :: map (fun b => src_branch b ++ s_ "/") bs))
      with ((src_branch b' ++ s_ "/") ++ List.concat (map (fun b => src_branch b ++ s_ "/") bs)).
    rewrite <- !app_assoc, <- H4. reflexivity.
Qed.
Lemma single_tree s : Readme.single_expression s -> forall e, rtree e ->
  exists e', rtree e' /\ source e' = s ++ source e.
Proof.
  intros [H|[H|[H|[H|H]]]] e He.
  - apply alternation_shape in H as (bs & c & H1 & H2 & H3 & ->). now apply alternation_tree.
  - apply readme_optional_iff in H as (o & [H1 H2] & ->). now apply (rtree_push (AltOptional o)).
  - apply readme_parameter_iff in H as (t & [H1 H2] & ->). exists (ExParameter (mkParameter t 0) :: e).
    split; [|reflexivity]. apply rtree_cons. split; [now split|]. split; [|assumption].
    now destruct e as [|[]].
  - apply readme_text in H as [H1 H2]. now apply (rtree_push (AltText s)).
  - apply plus_iff in H as (l & Hne & Hl & ->).
    assert (Hs : Forall (fun c => c = c_ " ") (List.concat l) /\ List.concat l <> []).
    { destruct Hl as [|x l Hx Hl]; [easy|]. split; [|now rewrite Hx].
      rewrite Hx. constructor; [reflexivity|]. clear -Hl.
      induction Hl as [|y l Hy]; cbn; [constructor|]. rewrite Hy. now constructor. }
    destruct Hs as [Hs1 Hs2]. destruct e as [|x e].
    + exists [ExWhitespaces (List.concat l)]. split; [|now rewrite source_cons'].
      apply rtree_cons. split; [now repeat split|]. now split.
    + assert (D : (exists w, x = ExWhitespaces w) \/
                  may_follow (ExWhitespaces (List.concat l)) x) by (destruct x; cbn; eauto).
      destruct D as [(w & ->)|D].
      2: { exists (ExWhitespaces (List.concat l) :: x :: e). split; [|reflexivity].
           apply rtree_cons. split; [now repeat split|]. split; assumption. }
      exists (ExWhitespaces (List.concat l ++ w) :: e). split.
      * apply rtree_cons in He as ([(H1 & H2) _] & H3 & H4). apply rtree_cons.
        split; [split; [split; [now destruct (List.concat l)|now apply Forall_app]|exact I]|].
        split; [|assumption]. destruct e as [|[]]; cbn in *; tauto.
      * rewrite !source_cons'. cbn [src_single]. now rewrite app_assoc.
Qed.
Lemma readme_tree s : Readme.expression s -> exists e, rtree e /\ source e = s.
Proof.
  induction 1 as [|x y Hx _ (e & He & <-)]; [exists []; repeat constructor|].
  destruct (single_tree x Hx e He) as (e' & H1 & H2). eauto.
Qed.
Lemma renumber_readme : forall e ix, follows_readme e -> follows_readme (renumber ix e).
Proof.
  induction e as [|x e IH]; intros ix H; [easy|]. inversion H; subst.
  destruct x; cbn [renumber]; constructor; try assumption; now apply IH.
Qed.
Lemma readme_iff s : addressable s ->
  Readme.expression s <->
  exists e, expression_parse s = RetOk e /\ follows_readme (map_expression frag e).
Proof.
  intros Hs. split.
  - intros H. apply readme_tree in H as (e & ((H1 & H2) & H3) & <-).
    exists (locate 0 1 (renumber 0 e)). rewrite locate_forget. split; [|now apply renumber_readme].
    apply parse_ok_iff; [assumption|].
    exists (renumber 0 e). split; [|split; [now rewrite renumber_source|reflexivity]].
    split; [now apply renumber_wf|]. split; [now apply linked_iff, renumber_linked|].
    apply ids_from_iff, renumber_ids.
  - intros (out & H & Hr). apply parse_ok_iff in H as (e & (He & _) & <- & ->); [|assumption].
    rewrite locate_forget in Hr. now apply tree_derive.
Qed.
