(** The shortest spelling. *)
From Verif Require Export ProofSame SpecShort.

(** ** Shorter, or the same *)
Definition shorter (a b : str) : Prop :=
  (List.length a <= List.length b)%nat /\ (List.length a = List.length b -> a = b).
Lemma shorter_refl a : shorter a a.
Proof. split; auto. Qed.
Lemma shorter_app a b c d : shorter a b -> shorter c d -> shorter (a ++ c) (b ++ d).
Proof.
  intros [H1 H2] [H3 H4]. split; rewrite !app_length; [lia|]. intros H. rewrite H2, H4 by lia. reflexivity.
Qed.
Lemma shorter_content sp sp' t : content sp t -> In backslash sp -> (forall c, In c sp' -> In c sp) ->
  shorter (flat_map (spell_char sp') (unescape t)) t.
Proof.
  intros Ht Hb Hs. induction Ht as [|c t Hc _ IH|c t Hc _ IH].
  - apply shorter_refl.
  - cbn [unescape]. destruct (N.eq_dec c (c_ "\")) as [->|_]; [easy|].
    cbn [flat_map]. apply (shorter_app _ [c]); [|assumption]. unfold spell_char. destruct (in_dec _ _ _) as [Hi|_]; [|apply shorter_refl].
    now apply Hs in Hi.
  - cbn [unescape]. destruct (N.eq_dec backslash (c_ "\")) as [_|n]; [|now destruct n].
    cbn [flat_map]. apply (shorter_app _ [backslash; c]); [|assumption]. unfold spell_char.
    destruct (in_dec _ _ _); [apply shorter_refl|]. split; cbn; [lia|easy].
Qed.
Lemma shorter_join f g (a : list (list piece)) : forall b : list (single_alternation str), Forall2 (fun x y => shorter (f x) (g y)) a b ->
  shorter (join (s_ "/") (map f a)) (join (s_ "/") (map g b)).
Proof.
  intros b. induction 1 as [|x y a b Hxy Hab IH]; [apply shorter_refl|].
  cbn [map join]. destruct Hab as [|x' y' a b H1 H2]; [assumption|].
  cbn [map]. apply shorter_app; [assumption|]. apply shorter_app; [apply shorter_refl|]. exact IH.
Qed.
Lemma flat_map_map {A B C} (f : B -> list C) (g : A -> B) l : flat_map f (map g l) = flat_map (fun x => f (g x)) l.
Proof. induction l as [|x l IH]; [reflexivity|]. cbn. now rewrite IH. Qed.

Lemma spell_optional o : wf_optional o ->
  shorter (s_ "(" ++ flat_map (spell_char optional_special) (unescape (opt_input o)) ++ s_ ")") (s_ "(" ++ opt_input o ++ s_ ")").
Proof.
  intros [_ H]. apply shorter_app; [apply shorter_refl|]. apply shorter_app; [|apply shorter_refl].
  apply (shorter_content optional_special); [assumption| |auto]. cbn; auto 10.
Qed.
Lemma spell_branch b : Forall wf_alternative b -> shorter (flat_map spell_piece (flat_map pieces b)) (src_branch b).
Proof.
  unfold src_branch. induction 1 as [|x b Hx _ IH]; [apply shorter_refl|].
  cbn [flat_map map List.concat]. rewrite flat_map_app. apply shorter_app; [|assumption].
  destruct x as [o|t]; cbn [pieces src_alternative].
  - cbn [flat_map spell_piece]. rewrite app_nil_r. now apply spell_optional.
  - rewrite flat_map_map. apply (shorter_content text_special); [apply Hx| |auto]. cbn; auto 10.
Qed.
Lemma spell_shorter e : Forall wf_single e -> shorter (spell (unspelled e)) (source e).
Proof.
  unfold spell, unspelled, source. induction 1 as [|x e Hx _ IH]; [apply shorter_refl|].
  cbn [flat_map map List.concat]. rewrite flat_map_app. apply shorter_app; [|assumption].
  destruct x as [a|o|p|t|w]; cbn [parts src_single].
  - cbn [flat_map spell_part]. rewrite app_nil_r. rewrite map_map. apply (shorter_join (flat_map spell_piece) src_branch) with (a := map (flat_map pieces) a) (b := a) || idtac.
    destruct Hx as [_ Hx]. rewrite <- map_map. apply shorter_join.
    induction Hx as [|b a Hb _ IHa]; cbn [map]; constructor; [|assumption]. apply spell_branch, Hb.
  - cbn [flat_map spell_part spell_piece]. rewrite app_nil_r. now apply spell_optional.
  - cbn [flat_map spell_part]. rewrite app_nil_r. apply shorter_refl.
  - rewrite flat_map_map. apply (shorter_content text_special); [apply Hx|cbn; auto 10|].
    intros c Hc. cbn in *. tauto.
  - rewrite flat_map_map. destruct Hx as [_ Hx]. apply (shorter_content (s_ "({/\")).
    + induction Hx as [|c w -> _ IHw]; constructor; [|assumption]. cbn. intuition discriminate.
    + cbn; auto 10.
    + auto.
Qed.

(** ** From parts back to an expression *)
Definition add_piece (x : piece) (b : single_alternation str) : single_alternation str :=
  match x, b with
  | Char c, AltText t :: b' => AltText (spell_char text_special c ++ t) :: b'
  | Char c, _ => AltText (spell_char text_special c) :: b
  | Maybe t, _ => AltOptional (mkOptional (flat_map (spell_char optional_special) t)) :: b
  end.
Definition branch_of (l : list piece) : single_alternation str := fold_right add_piece [] l.
Definition blank : char := c_ " ".
Definition add_char (c : char) (e : expression str) : expression str :=
  if N.eq_dec c blank then
    match e with ExWhitespaces w :: e' => ExWhitespaces (c :: w) :: e' | _ => ExWhitespaces [c] :: e end
  else
    match e with ExText t :: e' => ExText (spell_char (s_ "({/\") c ++ t) :: e' | _ => ExText (spell_char (s_ "({/\") c) :: e end.
Fixpoint expr_of (k : N) (l : list part) : expression str :=
  match l with
  | [] => []
  | Piece (Char c) :: l' => add_char c (expr_of k l')
  | Piece (Maybe t) :: l' => ExOptional (mkOptional (flat_map (spell_char optional_special) t)) :: expr_of k l'
  | OneOf a :: l' => ExAlternation (map branch_of a) :: expr_of k l'
  | Param n :: l' => ExParameter (mkParameter n k) :: expr_of (k + 1) l'
  end.

Lemma unescape_spell sp c t : (forall x, In x sp -> In x reserved) -> (c = backslash -> In c sp) ->
  unescape (spell_char sp c ++ t) = c :: unescape t.
Proof.
  intros Hs Hc. unfold spell_char. destruct (in_dec _ _ _) as [H|H]; cbn [app unescape].
  - destruct (N.eq_dec backslash (c_ "\")) as [_|n]; [reflexivity|now destruct n].
  - destruct (N.eq_dec c (c_ "\")) as [E|_]; [|reflexivity]. destruct H. apply Hc. exact E.
Qed.
Lemma unescape_spelled sp t : (forall x, In x sp -> In x reserved) -> In backslash sp ->
  unescape (flat_map (spell_char sp) t) = t.
Proof.
  intros Hs Hb. induction t as [|c t IH]; [reflexivity|]. cbn [flat_map]. rewrite unescape_spell; [now rewrite IH|assumption|].
  now intros ->.
Qed.
Lemma content_spell sp sp' c t : (forall x, In x sp' -> In x reserved) -> (In c sp -> In c sp') ->
  content sp t -> content sp (spell_char sp' c ++ t).
Proof.
  intros Hr Hs Ht. unfold spell_char. destruct (in_dec _ _ _) as [H|H]; cbn [app].
  - apply content_escape; auto.
  - apply content_plain; auto.
Qed.
Lemma content_spelled sp t : (forall x, In x sp -> In x reserved) -> content sp (flat_map (spell_char sp) t).
Proof. intros Hr. induction t as [|c t IH]; [constructor|]. cbn [flat_map]. now apply content_spell. Qed.
Lemma optional_reserved x : In x optional_special -> In x reserved.
Proof. cbn. tauto. Qed.
Lemma text_reserved x : In x text_special -> In x reserved.
Proof. cbn. tauto. Qed.
Lemma top_reserved x : In x (s_ "({/\") -> In x reserved.
Proof. cbn. tauto. Qed.
Lemma spell_char_not_nil sp c t : spell_char sp c ++ t <> [].
Proof. unfold spell_char. destruct (in_dec _ _ _); discriminate. Qed.

(** Branches *)
Lemma branch_source l : src_branch (branch_of l) = flat_map spell_piece l.
Proof.
  unfold src_branch. induction l as [|[c|t] l IH]; [reflexivity|..]; cbn [branch_of fold_right add_piece].
  - change (fold_right add_piece [] l) with (branch_of l). destruct (branch_of l) as [|[o|u] b]; cbn [map List.concat src_alternative flat_map spell_piece] in *;
    rewrite <- IH; [reflexivity|reflexivity|]. now rewrite app_assoc.
  - change (fold_right add_piece [] l) with (branch_of l). cbn [map List.concat src_alternative flat_map spell_piece opt_input]. now rewrite IH.
Qed.
Lemma branch_pieces l : flat_map pieces (branch_of l) = l.
Proof.
  induction l as [|[c|t] l IH]; [reflexivity|..]; cbn [branch_of fold_right add_piece]; change (fold_right add_piece [] l) with (branch_of l).
  - assert (U : forall t, unescape (spell_char text_special c ++ t) = c :: unescape t).
    { intros t. apply unescape_spell; [apply text_reserved|]. intros ->. cbn; auto 10. }
    pose proof (U []) as U0. rewrite app_nil_r in U0.
    destruct (branch_of l) as [|[o|u] b]; cbn [flat_map pieces] in *; rewrite <- IH; rewrite ?U0, ?U; reflexivity.
  - cbn [flat_map pieces opt_input]. rewrite IH. rewrite unescape_spelled; [reflexivity|apply optional_reserved|cbn; auto 10].
Qed.
Definition piece_ok (x : piece) : Prop := match x with Char _ => True | Maybe t => t <> [] end.
Definition is_char (x : piece) : Prop := match x with Char _ => True | Maybe _ => False end.
Lemma optional_ok t : t <> [] -> wf_optional (mkOptional (flat_map (spell_char optional_special) t)).
Proof.
  intros Ht. split; [|apply content_spelled, optional_reserved]. cbn [opt_input]. destruct t; [easy|apply spell_char_not_nil].
Qed.
Lemma branch_alternatives l : Forall piece_ok l -> Forall wf_alternative (branch_of l).
Proof.
  induction 1 as [|[c|t] l Hx _ IH]; [constructor|..]; cbn [branch_of fold_right add_piece]; change (fold_right add_piece [] l) with (branch_of l).
  - assert (U : forall t, content text_special t -> wf_text (spell_char text_special c ++ t)).
    { intros t Ht. split; [apply spell_char_not_nil|]. apply content_spell; auto. apply text_reserved. }
    pose proof (U [] (content_nil _)) as U0. rewrite app_nil_r in U0.
    destruct (branch_of l) as [|[o|u] b]; [constructor; [exact U0|constructor]|constructor; [exact U0|exact IH]|].
    inversion IH as [|? ? Hu Hb]; subst. constructor; [|assumption]. apply U, Hu.
  - constructor; [|assumption]. now apply optional_ok.
Qed.
Lemma branch_text l : Exists is_char l -> Exists is_text (branch_of l).
Proof.
  induction 1 as [x l Hx|x l _ IH]; cbn [branch_of fold_right]; change (fold_right add_piece [] l) with (branch_of l).
  - destruct x; [|easy]. cbn [add_piece]. destruct (branch_of l) as [|[o|u] b]; now left.
  - destruct x as [c|t]; cbn [add_piece]; [destruct (branch_of l) as [|[o|u] b]; now left|now right].
Qed.
(** Neighbours *)
Section Chained.
  Context {A : Type} (R : A -> A -> Prop).
  Fixpoint chained (l : list A) : Prop :=
    match l with x :: l' => match l' with y :: _ => R x y | [] => True end /\ chained l' | [] => True end.
  Lemma chained_spec l : chained l -> forall a x y b, l = a ++ x :: y :: b -> R x y.
  Proof.
    induction l as [|z l IH]; intros H a x y b E; [now destruct a|].
    destruct a as [|z' a]; cbn in E; injection E as -> ->; destruct H as [H1 H2]; [exact H1|]. eapply IH; eauto.
  Qed.
  Lemma spec_chained l : (forall a x y b, l = a ++ x :: y :: b -> R x y) -> chained l.
  Proof.
    induction l as [|z l IH]; intros H; [exact Logic.I|]. split.
    - destruct l as [|y l]; [exact Logic.I|]. now apply (H [] z y l).
    - apply IH. intros a x y b ->. now apply (H (z :: a) x y b).
  Qed.
End Chained.
Lemma branch_chained l : chained (fun x y => ~ (is_text x /\ is_text y)) (branch_of l).
Proof.
  induction l as [|[c|t] l IH]; [exact Logic.I|..]; cbn [branch_of fold_right add_piece]; change (fold_right add_piece [] l) with (branch_of l).
  - destruct (branch_of l) as [|[o|u] b]; [now split|split; [now intros [_ []]|assumption]|].
    destruct IH as [H1 H2]. split; [|assumption]. destruct b as [|[o'|u'] b]; [exact Logic.I|now intros [_ []]|]. intros _. now apply H1.
  - split; [|assumption]. destruct (branch_of l); [exact Logic.I|now intros [[] _]].
Qed.
Lemma branch_ok l : Forall piece_ok l -> Exists is_char l -> wf_branch (branch_of l).
Proof.
  intros H1 H2. split; [now apply branch_alternatives|]. split; [now apply branch_text|].
  apply chained_spec, branch_chained.
Qed.

(** Expressions *)
Lemma expr_source l : forall k, source (expr_of k l) = spell l.
Proof.
  unfold source, spell. induction l as [|[[c|t]|a|n] l IH]; intros k; [reflexivity|..]; cbn [expr_of flat_map].
  - unfold add_char. specialize (IH k). destruct (N.eq_dec c blank) as [->|Hc].
    + destruct (expr_of k l) as [|[?|?|?|?|w] e]; cbn [map List.concat src_single] in *; rewrite <- IH; reflexivity.
    + destruct (expr_of k l) as [|[?|?|?|t|?] e]; cbn [map List.concat src_single] in *; rewrite <- IH; try reflexivity.
      cbn [spell_part]. now rewrite app_assoc.
  - cbn [map List.concat src_single opt_input]. now rewrite IH.
  - cbn [map List.concat src_single spell_part]. rewrite IH. f_equal. f_equal. rewrite map_map.
    apply map_ext. apply branch_source.
  - cbn [map List.concat src_single par_input]. now rewrite IH.
Qed.
Lemma expr_parts l : forall k, unspelled (expr_of k l) = l.
Proof.
  unfold unspelled. induction l as [|[[c|t]|a|n] l IH]; intros k; [reflexivity|..]; cbn [expr_of flat_map].
  - unfold add_char. specialize (IH k). destruct (N.eq_dec c blank) as [->|Hc].
    + assert (U : forall t, unescape (blank :: t) = blank :: unescape t) by reflexivity.
      destruct (expr_of k l) as [|[?|?|?|?|w] e]; cbn [flat_map parts] in *; rewrite <- IH; rewrite ?U; reflexivity.
    + assert (U : forall t, unescape (spell_char (s_ "({/\") c ++ t) = c :: unescape t).
      { intros t. apply unescape_spell; [apply top_reserved|]. intros ->. cbn; auto 10. }
      pose proof (U []) as U0. rewrite app_nil_r in U0.
      destruct (expr_of k l) as [|[?|?|?|t|?] e]; cbn [flat_map parts] in *; rewrite <- IH; rewrite ?U0, ?U; reflexivity.
  - cbn [flat_map parts opt_input]. rewrite IH. rewrite unescape_spelled; [reflexivity|apply optional_reserved|cbn; auto 10].
  - cbn [flat_map parts]. rewrite IH, map_map. rewrite (map_ext _ (fun x => x)) by apply branch_pieces. now rewrite map_id.
  - cbn [flat_map parts par_input]. now rewrite IH.
Qed.
Lemma ids_add_char c e : ids (add_char c e) = ids e.
Proof. unfold add_char, ids. destruct (N.eq_dec c blank); destruct e as [|[] e]; reflexivity. Qed.
Lemma expr_ids l : forall k, ids (expr_of k l) = count_from k (List.length (ids (expr_of k l))).
Proof.
  induction l as [|[[c|t]|a|n] l IH]; intros k; [reflexivity|..]; cbn [expr_of].
  - rewrite ids_add_char. apply IH.
  - apply (IH k).
  - apply (IH k).
  - unfold ids in *. cbn [flat_map app par_id List.length count_from]. f_equal. apply IH.
Qed.
Definition part_ok (x : part) : Prop :=
  match x with
  | Piece x => piece_ok x
  | OneOf a => (2 <= List.length a)%nat /\ Forall (fun l => Forall piece_ok l /\ Exists is_char l) a
  | Param n => content name_special n
  end.
Definition touches (x : part) : Prop := match x with Piece (Char c) => c <> blank | Param _ => False | _ => True end.
Definition one_of_ (x : part) : Prop := match x with OneOf _ => True | _ => False end.
Definition apart (x y : part) : Prop := ~ (touches x /\ touches y /\ (one_of_ x \/ one_of_ y)).
Lemma expr_singles l : Forall part_ok l -> forall k, Forall wf_single (expr_of k l).
Proof.
  induction 1 as [|[[c|t]|a|n] l Hx _ IH]; intros k; [constructor|..]; cbn [expr_of].
  - unfold add_char. specialize (IH k). destruct (N.eq_dec c blank) as [->|Hc].
    + assert (U : forall w, Forall (fun c => c = c_ " ") w -> wf_single (ExWhitespaces (blank :: w))).
      { intros w Hw. split; [easy|]. now constructor. }
      pose proof (U [] (Forall_nil _)) as U0.
      destruct (expr_of k l) as [|[?|?|?|?|w] e]; try (now constructor).
      inversion IH as [|? ? Hu Hb]; subst. constructor; [|assumption]. apply U, Hu.
    + assert (U : forall t, content text_special t -> wf_single (ExText (spell_char (s_ "({/\") c ++ t))).
      { intros t Ht. split; [apply spell_char_not_nil|]. apply content_spell; [apply top_reserved| |assumption].
        intros Hi. cbn in Hi |- *. destruct Hi as [<-|Hi]; [now destruct Hc|tauto]. }
      pose proof (U [] (content_nil _)) as U0. rewrite app_nil_r in U0.
      destruct (expr_of k l) as [|[?|?|?|t|?] e]; try (now constructor).
      inversion IH as [|? ? Hu Hb]; subst. constructor; [|assumption]. apply U, Hu.
  - constructor; [|apply IH]. now apply optional_ok.
  - constructor; [|apply IH]. destruct Hx as [Hn Ha]. split; [now rewrite map_length|].
    apply Forall_map. revert Ha. apply Forall_impl. intros b [H1 H2]. now apply branch_ok.
  - constructor; [exact Hx|apply IH].
Qed.
Definition heads (l : list part) (e : expression str) : Prop :=
  match l, e with
  | [], [] => True
  | Piece (Char c) :: _, ExWhitespaces _ :: _ => c = blank
  | Piece (Char c) :: _, ExText _ :: _ => c <> blank
  | Piece (Maybe _) :: _, ExOptional _ :: _ => True
  | OneOf _ :: _, ExAlternation _ :: _ => True
  | Param _ :: _, ExParameter _ :: _ => True
  | _, _ => False
  end.
Lemma expr_heads l k : heads l (expr_of k l).
Proof.
  destruct l as [|[[c|t]|a|n] l]; cbn [expr_of]; try exact Logic.I.
  unfold add_char. destruct (N.eq_dec c blank); destruct (expr_of k l) as [|[] ?]; assumption.
Qed.
Lemma expr_chained l : chained apart l -> forall k, chained may_follow (expr_of k l).
Proof.
  induction l as [|x l IH]; intros H k; [exact Logic.I|]. destruct H as [H1 H2].
  destruct x as [[c|t]|a|n]; cbn [expr_of].
  - specialize (IH H2 k). pose proof (expr_heads l k) as Hd. unfold add_char. destruct (N.eq_dec c blank) as [->|Hc].
    + destruct (expr_of k l) as [|[?|?|?|?|w] e]; try (now split). exact IH.
    + destruct (expr_of k l) as [|[?|?|?|t|w] e]; try (now split); [|exact IH].
      split; [|assumption]. destruct l as [|[[c'|t']|a'|n'] l]; try easy. cbn. apply H1. cbn. auto.
  - specialize (IH H2 k). pose proof (expr_heads l k) as Hd. split; [|assumption].
    destruct (expr_of k l) as [|[?|?|?|?|w] e]; try exact Logic.I.
    destruct l as [|[[c'|t']|a'|n'] l]; try easy. cbn. apply H1. cbn. auto.
  - specialize (IH H2 k). pose proof (expr_heads l k) as Hd. split; [|assumption].
    destruct l as [|[[c'|t']|a'|n'] l]; destruct (expr_of k _) as [|[?|?|?|?|w] e]; try easy; cbn; apply H1; cbn; auto.
  - specialize (IH H2 (k + 1)). split; [|assumption]. now destruct (expr_of (k + 1) l) as [|[?|?|?|?|w] e].
Qed.
Lemma expr_wf l : Forall part_ok l -> chained apart l -> wf (expr_of 0 l).
Proof.
  intros H1 H2. split; [now apply expr_singles|]. split; [apply chained_spec; now apply expr_chained|]. apply expr_ids.
Qed.

(** Parts of an expression *)
Lemma content_unescape sp t : content sp t -> In backslash sp -> t <> [] -> unescape t <> [].
Proof.
  intros H Hb Ht. destruct H as [|c t Hc _|c t Hc _]; [easy|..]; cbn [unescape].
  - destruct (N.eq_dec c (c_ "\")) as [->|_]; [easy|discriminate].
  - destruct (N.eq_dec backslash (c_ "\")) as [_|n]; [discriminate|now destruct n].
Qed.
Lemma optional_parts o : wf_optional o -> unescape (opt_input o) <> [].
Proof. intros [H1 H2]. apply (content_unescape optional_special); [assumption|cbn; auto 10|assumption]. Qed.
Lemma text_parts_ t : wf_text t -> unescape t <> [].
Proof. intros [H1 H2]. apply (content_unescape text_special); [assumption|cbn; auto 10|assumption]. Qed.
Lemma branch_pieces_ok b : wf_branch b -> Forall piece_ok (flat_map pieces b) /\ Exists is_char (flat_map pieces b).
Proof.
  intros (H1 & H2 & _). split.
  - apply Forall_flat_map. revert H1. apply Forall_impl. intros [o|t] Hx; cbn [pieces].
    + repeat constructor. now apply optional_parts.
    + apply Forall_map, Forall_forall. easy.
  - apply Exists_exists in H2 as (x & Hin & Hx). rewrite Forall_forall in H1. pose proof (H1 x Hin) as Hw.
    destruct x as [o|t]; [easy|]. apply Exists_exists. apply text_parts_ in Hw. destruct (unescape t) as [|c u] eqn:E; [easy|].
    exists (Char c). split; [|exact Logic.I]. apply in_flat_map. exists (AltText t). split; [assumption|]. cbn. rewrite E. now left.
Qed.
Lemma parts_ok e : Forall wf_single e -> Forall part_ok (unspelled e).
Proof.
  intros H. apply Forall_flat_map. revert H. apply Forall_impl. intros [a|o|p|t|w] Hx; cbn [parts].
  - constructor; [|constructor]. destruct Hx as [Hn Ha]. split; [now rewrite map_length|]. apply Forall_map. revert Ha.
    apply Forall_impl. apply branch_pieces_ok.
  - repeat constructor. now apply optional_parts.
  - constructor; [exact Hx|constructor].
  - apply Forall_map, Forall_forall. easy.
  - apply Forall_map, Forall_forall. easy.
Qed.
Lemma unescape_blanks w : Forall (fun c => c = c_ " ") w -> unescape w = w.
Proof. induction 1 as [|c w -> _ IH]; [reflexivity|]. cbn [unescape]. cbn. now rewrite IH. Qed.
Lemma chars_chained l u : chained apart u -> match u with OneOf _ :: _ => Forall (fun c => c = blank) l | _ => True end ->
  chained apart (map (fun c => Piece (Char c)) l ++ u).
Proof.
  intros Hu Hh. induction l as [|c l IH]; [exact Hu|]. cbn [map app]. split.
  - destruct l as [|d l]; cbn [map app].
    + destruct u as [|x u]; [exact Logic.I|]. intros (H1 & H2 & [[]|H3]). destruct x as [?|a|?]; try easy.
      apply Forall_inv in Hh. now apply H1.
    + intros (_ & _ & [[]|[]]).
  - apply IH. destruct u as [|[?|a|?] u]; auto. now apply Forall_inv_tail in Hh.
Qed.
Lemma parts_chained e : Forall wf_single e -> chained may_follow e -> chained apart (unspelled e).
Proof.
  induction e as [|x e IH]; intros Hw Hc; [exact Logic.I|]. inversion Hw as [|? ? Hx Hw']; subst. destruct Hc as [Hc1 Hc2].
  specialize (IH Hw' Hc2). change (unspelled (x :: e)) with (parts x ++ unspelled e).
  assert (Hd : match e, unspelled e with
               | [], [] => True
               | ExAlternation _ :: _, OneOf _ :: _ => True
               | ExOptional _ :: _, Piece (Maybe _) :: _ => True
               | ExParameter _ :: _, Param _ :: _ => True
               | ExText _ :: _, Piece (Char _) :: _ => True
               | ExWhitespaces _ :: _, Piece (Char c) :: _ => c = blank
               | _, _ => False end).
  { destruct e as [|y e]; [exact Logic.I|]. change (unspelled (y :: e)) with (parts y ++ unspelled e).
    inversion Hw' as [|? ? Hy _]; subst. destruct y as [a|o|p|t|w]; cbn [parts app]; try exact Logic.I.
    - apply text_parts_ in Hy. now destruct (unescape t).
    - destruct Hy as [Hn Hy]. rewrite unescape_blanks by assumption. destruct w as [|c w]; [easy|]. now apply Forall_inv in Hy. }
  destruct x as [a|o|p|t|w]; cbn [parts app].
  - split; [|assumption]. destruct e as [|[?|?|?|?|?] e]; cbn in Hc1; try easy; destruct (unspelled _) as [|[[c|?]|?|?] u]; try easy.
  - split; [|assumption]. destruct e as [|[?|?|?|?|?] e]; cbn in Hc1; try easy; destruct (unspelled _) as [|[[c|?]|?|?] u]; try easy; now intros (_ & _ & [[]|[]]).
  - split; [|assumption]. destruct (unspelled e); [exact Logic.I|now intros ([] & _)].
  - apply chars_chained; [assumption|]. destruct e as [|[?|?|?|?|?] e]; cbn in Hc1; try easy; destruct (unspelled _) as [|[[c|?]|?|?] u]; easy.
  - apply chars_chained; [assumption|]. destruct Hx as [_ Hx]. rewrite unescape_blanks by assumption. destruct (unspelled e) as [|[?|?|?] u]; auto.
Qed.

Lemma shorter_addressable a b : shorter a b -> addressable b -> addressable a.
Proof. intros [H _]. unfold addressable. lia. Qed.
Lemma spelled_parses s e : addressable s -> expression_parse s = RetOk e ->
  let l := unspelled (map_expression frag e) in
  exists e', expression_parse (spell l) = RetOk e' /\ unspelled (map_expression frag e') = l.
Proof.
  intros Hs H l. destruct (parsed_wf s e Hs H) as [(H1 & H2 & H3) Hsrc].
  exists (locate 0 1 (expr_of 0 l)). split.
  - apply parse_ok_iff.
    + apply (shorter_addressable _ s); [|assumption]. rewrite <- Hsrc. now apply spell_shorter.
    + exists (expr_of 0 l). split; [|split; [apply expr_source|reflexivity]].
      apply expr_wf; [now apply parts_ok|]. apply parts_chained; [assumption|]. now apply spec_chained.
  - rewrite map_locate. apply expr_parts.
Qed.
Lemma spelled_shortest s e : addressable s -> expression_parse s = RetOk e ->
  let n := spell (unspelled (map_expression frag e)) in
  (List.length n <= List.length s)%nat /\ (List.length n = List.length s -> n = s).
Proof.
  intros Hs H. destruct (parsed_wf s e Hs H) as [(H1 & _) Hsrc]. cbv zeta. rewrite <- Hsrc. now apply spell_shorter.
Qed.
Definition same_parts (s n : str) : Prop :=
  exists e e', expression_parse s = RetOk e /\ expression_parse n = RetOk e' /\
    unspelled (map_expression frag e) = unspelled (map_expression frag e').
Lemma shortest s e : addressable s -> expression_parse s = RetOk e ->
  let n := spell (unspelled (map_expression frag e)) in
  addressable n /\ same_parts s n /\
  forall s', addressable s' -> same_parts s s' -> (List.length n < List.length s')%nat \/ n = s'.
Proof.
  intros Hs H n. destruct (spelled_parses s e Hs H) as (e' & H1 & H2). split.
  - apply (shorter_addressable _ s); [|assumption]. now apply spelled_shortest.
  - split; [exists e, e'; auto|]. intros s' Hs' (e1 & e2 & P1 & P2 & P3).
    assert (e1 = e) as -> by congruence. destruct (spelled_shortest s' e2 Hs' P2) as [L1 L2]. unfold n. rewrite P3.
    assert (D : (List.length (spell (unspelled (map_expression frag e2))) < List.length s')%nat \/
      List.length (spell (unspelled (map_expression frag e2))) = List.length s') by lia.
    destruct D; auto.
Qed.
Lemma all_built_in_parts e : all_built_in frag e <-> Forall (fun x => match x with Param n => built_in n | _ => True end) (unspelled (map_expression frag e)).
Proof.
  unfold all_built_in, unspelled. induction e as [|x e IH]; [cbn; split; constructor|].
  change (x :: e) with ([x] ++ e) at 1. rewrite parameters_app, Forall_app. cbn [map_expression map flat_map].
  rewrite Forall_app. change (map (map_single frag) e) with (map_expression frag e). rewrite IH.
  enough (Forall (fun p => built_in (frag (par_input p))) (parameters [x]) <->
          Forall (fun x => match x with Param n => built_in n | _ => True end) (parts (map_single frag x))) as -> by reflexivity.
  destruct x as [a|o|p|t|w]; cbn [parameters flat_map app map_single parts].
  - split; [|constructor]. now repeat constructor.
  - split; [|constructor]. now repeat constructor.
  - split; intros H; apply Forall_inv in H; (constructor; [exact H|constructor]).
  - split; [|constructor]. intros _. apply Forall_map, Forall_forall. easy.
  - split; [|constructor]. intros _. apply Forall_map, Forall_forall. easy.
Qed.
Lemma same_parts_regex s n : addressable s -> addressable n -> same_parts s n ->
  forall t r, expression_regex s = XOk t r <-> expression_regex n = XOk t r.
Proof.
  enough (Q : forall s n, addressable s -> addressable n -> same_parts s n ->
    forall t r, expression_regex s = XOk t r -> expression_regex n = XOk t r).
  { intros Hs Hn H t r. split; [now apply Q|]. apply Q; auto. destruct H as (e & e' & H1 & H2 & H3). exists e', e. auto. }
  clear s n. intros s n Hs Hn (e & e' & H1 & H2 & H3) t r R.
  destruct (regex_inv _ _ _ _ Hs H1 R) as (B & _ & _). apply all_built_in_parts in B. rewrite H3 in B.
  apply all_built_in_parts in B. pose proof (regex_ok n e' Hn H2 B) as R'. rewrite R'.
  destruct (same_regex s n e e' _ _ _ _ Hs Hn H1 H2 R R') as [[_ E1] [_ E2]]. now rewrite E1, E2.
Qed.
Lemma shortest_regex s e t r : addressable s -> expression_parse s = RetOk e -> expression_regex s = XOk t r ->
  let n := spell (unspelled (map_expression frag e)) in
  expression_regex n = XOk t r /\
  forall s' r', addressable s' -> expression_regex s' = XOk t r' -> (List.length n < List.length s')%nat \/ n = s'.
Proof.
  intros Hs P R n. destruct (shortest s e Hs P) as (Hn & H1 & H2). split; [now apply (same_parts_regex s n)|].
  intros s' r' Hs' R'. apply H2; [assumption|]. destruct (expression_parse s') as [e'| | |] eqn:P'; try (unfold expression_regex, regex_by in R'; now rewrite P' in R').
  exists e, e'. split; [assumption|]. split; [exact P'|]. now apply (proj1 (same_regex s s' e e' t t r r' Hs Hs' P P' R R')).
Qed.
Lemma shortest_exists s e : addressable s -> expression_parse s = RetOk e ->
  exists n e', expression_parse n = RetOk e' /\ unspelled (map_expression frag e') = unspelled (map_expression frag e) /\
  forall s' e'', addressable s' -> expression_parse s' = RetOk e'' ->
    unspelled (map_expression frag e'') = unspelled (map_expression frag e) -> (List.length n < List.length s')%nat \/ s' = n.
Proof.
  intros Hs P. destruct (shortest s e Hs P) as (_ & (e1 & e' & P1 & P2 & H) & Hmin).
  assert (e1 = e) as -> by congruence.
  exists (spell (unspelled (map_expression frag e))), e'. split; [assumption|]. split; [now symmetry|].
  intros s' e'' Hs' P' E. destruct (Hmin s' Hs') as [L|L]; [|now left|now right]. exists e, e''. auto.
Qed.
Lemma spelling s e : addressable s -> expression_parse s = RetOk e ->
  exists e', expression_parse (spell (unspelled (map_expression frag e))) = RetOk e' /\
  unspelled (map_expression frag e') = unspelled (map_expression frag e) /\
  ((List.length (spell (unspelled (map_expression frag e))) < List.length s)%nat \/ spell (unspelled (map_expression frag e)) = s).
Proof.
  intros Hs P. destruct (shortest s e Hs P) as (_ & (e1 & e' & P1 & P2 & H) & Hmin).
  assert (e1 = e) as -> by congruence. exists e'. split; [assumption|]. split; [now symmetry|].
  apply Hmin; [assumption|]. exists e, e. auto.
Qed.
Lemma regex_shortest s t r : addressable s -> expression_regex s = XOk t r ->
  exists n, expression_regex n = XOk t r /\
  forall s' r', addressable s' -> expression_regex s' = XOk t r' -> (List.length n < List.length s')%nat \/ s' = n.
Proof.
  intros Hs R. destruct (expression_parse s) as [e| | |] eqn:P; try (unfold expression_regex, regex_by in R; now rewrite P in R).
  destruct (shortest_regex s e t r Hs P R) as [H1 H2]. eexists. split; [exact H1|].
  intros s' r' Hs' R'. destruct (H2 s' r' Hs' R'); auto.
Qed.
