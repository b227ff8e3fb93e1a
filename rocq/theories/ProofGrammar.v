(** The accepted strings are the corrected grammar; relation with the README's grammar. *)
From Verif Require Export ProofParse2 SpecGrammar.

(** ** Languages *)
Definition incl_lang (a b : lang) : Prop := forall s, a s -> b s.
Lemma star_mono a b : incl_lang a b -> incl_lang (star a) (star b).
Proof. intros H s Hs. induction Hs; constructor; auto. Qed.
Lemma seq_mono a a' b b' : incl_lang a a' -> incl_lang b b' -> incl_lang (seq a b) (seq a' b').
Proof. intros Ha Hb s (x & y & Hx & Hy & E). exists x, y. auto. Qed.
Lemma plus_mono a b : incl_lang a b -> incl_lang (plus a) (plus b).
Proof. intros H. apply seq_mono; [assumption|now apply star_mono]. Qed.
Lemma alt_mono a a' b b' : incl_lang a a' -> incl_lang b b' -> incl_lang (alt a b) (alt a' b').
Proof. intros Ha Hb s [H|H]; [left|right]; auto. Qed.
Lemma plus_star a : incl_lang (plus a) (star a).
Proof. intros s (x & y & Hx & Hy & ->). now constructor. Qed.
Lemma star_concat (a : lang) x y : star a x -> star a y -> star a (x ++ y).
Proof. intros Hx Hy. induction Hx; [assumption|]. rewrite <- app_assoc. now constructor. Qed.
Lemma star_one (a : lang) x : a x -> star a x.
Proof. intros H. rewrite <- (app_nil_r x). constructor; [assumption|constructor]. Qed.
Lemma plus_iff (a : lang) s : plus a s <-> exists l, l <> [] /\ Forall a l /\ s = List.concat l.
Proof.
  assert (Hs : forall s, star a s <-> exists l, Forall a l /\ s = List.concat l).
  { clear s. intros s. split.
    - induction 1 as [|x y Hx _ (l & Hl & ->)]; [exists []; split; constructor|].
      exists (x :: l). split; [now constructor|reflexivity].
    - intros (l & Hl & ->). induction Hl; cbn; constructor; auto. }
  split.
  - intros (x & y & Hx & Hy & ->). apply Hs in Hy as (l & Hl & ->).
    exists (x :: l). split; [easy|]. split; [now constructor|reflexivity].
  - intros (l & Hne & Hl & ->). destruct Hl as [|x l Hx Hl]; [easy|].
    exists x, (List.concat l). split; [assumption|]. split; [|reflexivity]. apply Hs. eauto.
Qed.

(** ** Contents *)
Definition unit_of (special : str) : lang := alt (none special) Corrected.escape.
Lemma escape_iff s : Corrected.escape s <-> exists c, In c reserved /\ s = [backslash; c].
Proof.
  split.
  - intros (x & y & -> & (c & Hc & ->) & ->). exists c. auto.
  - intros (c & Hc & ->). exists [backslash], [c]. split; [reflexivity|]. split; [|reflexivity].
    exists c. auto.
Qed.
Lemma content_star special s : content special s <-> star (unit_of special) s.
Proof.
  split.
  - induction 1 as [|c t H _ IH|c t H _ IH]; [constructor| |].
    + apply (star_app _ [c]); [|assumption]. left. exists c. auto.
    + apply (star_app _ [backslash; c]); [|assumption]. right. apply escape_iff. eauto.
  - induction 1 as [|x y Hx _ IH]; [constructor|].
    destruct Hx as [(c & H & ->)|H]; [now constructor|].
    apply escape_iff in H as (c & H & ->). now constructor.
Qed.
Lemma unit_ne special s : unit_of special s -> s <> [].
Proof. intros [(c & _ & ->)|H] E; [easy|]. apply escape_iff in H as (c & _ & ->). easy. Qed.
Lemma content_plus special s : content special s /\ s <> [] <-> plus (unit_of special) s.
Proof.
  rewrite content_star. split.
  - intros [H Hne]. destruct H as [|x y Hx Hy]; [easy|]. exists x, y. auto.
  - intros H. split; [now apply plus_star|]. destruct H as (x & y & Hx & _ & ->).
    apply unit_ne in Hx. now destruct x.
Qed.
Lemma unit_content special s : unit_of special s -> content special s /\ s <> [].
Proof. intros H. apply content_plus. exists s, []. rewrite app_nil_r. repeat split; auto. constructor. Qed.

Definition src_optional (o : optional str) : str := s_ "(" ++ opt_input o ++ s_ ")".
Lemma optional_lang s : Corrected.optional s <-> exists o, wf_optional o /\ s = src_optional o.
Proof.
  unfold Corrected.optional, wf_optional. split.
  - intros (x & y & -> & (t & z & Ht & -> & ->) & ->).
    apply content_plus in Ht as [H1 H2]. exists (mkOptional t). auto.
  - intros (o & [H1 H2] & ->). exists (s_ "("), (opt_input o ++ s_ ")"). split; [reflexivity|].
    split; [|reflexivity]. exists (opt_input o), (s_ ")"). split; [|now split].
    now apply content_plus.
Qed.
Lemma parameter_lang s : Corrected.parameter s <-> exists t, content name_special t /\ s = s_ "{" ++ t ++ s_ "}".
Proof.
  unfold Corrected.parameter. split.
  - intros (x & y & -> & (t & z & Ht & -> & ->) & ->). exists t. split; [|reflexivity].
    now apply content_star.
  - intros (t & H & ->). exists (s_ "{"), (t ++ s_ "}"). split; [reflexivity|]. split; [|reflexivity].
    exists t, (s_ "}"). split; [now apply content_star|]. now split.
Qed.

(** ** From trees to derivations *)
Definition item_lang : lang := alt Corrected.text Corrected.optional.
Lemma alternative_items x : wf_alternative x -> star item_lang (src_alternative x).
Proof.
  destruct x as [o|t]; cbn [wf_alternative src_alternative]; intros H.
  - apply star_one. right. apply optional_lang. eauto.
  - destruct H as [_ H]. apply content_star in H. revert H. apply star_mono. intros s Hs. now left.
Qed.
Lemma branch_items b : Forall wf_alternative b -> star item_lang (src_branch b).
Proof.
  induction 1; unfold src_branch; cbn; [constructor|]. apply star_concat; [|assumption].
  now apply alternative_items.
Qed.
Lemma branch_lang b : Forall wf_alternative b -> Exists is_text b ->
  Corrected.single_alternation (src_branch b).
Proof.
  intros Hb Ht. apply Exists_exists in Ht as (x & Hin & Hx).
  apply in_split in Hin as (l & r & ->). apply Forall_app in Hb as [Hl Hr].
  inversion Hr as [|? ? Hwx Hr']; subst. destruct x as [|t]; [easy|].
  destruct Hwx as [Hne Ht]. apply content_star in Ht. destruct Ht as [|u v Hu Hv]; [easy|].
  unfold src_branch. rewrite map_app, concat_app. cbn [map List.concat src_alternative].
  exists (src_branch l), ((u ++ v) ++ src_branch r). split; [now apply branch_items|].
  split; [|reflexivity]. exists u, (v ++ src_branch r). split; [assumption|].
  split; [|now rewrite app_assoc]. apply star_concat; [|now apply branch_items].
  revert Hv. apply star_mono. intros s Hs. now left.
Qed.
Lemma join_lang a x : Forall (fun b => Corrected.single_alternation b) a ->
  star (seq (lit (s_ "/")) Corrected.single_alternation)
       (List.concat (map (fun b => s_ "/" ++ b) a)) /\
  join (s_ "/") (x :: a) = x ++ List.concat (map (fun b => s_ "/" ++ b) a).
Proof.
  revert x. induction a as [|y a IH]; intros x H.
  - split; [constructor|]. cbn. now rewrite app_nil_r.
  - inversion H; subst. destruct (IH y) as [IH1 IH2]; [assumption|]. split.
    + cbn [map List.concat]. constructor; [|assumption]. exists (s_ "/"), y. now repeat split.
    + change (join (s_ "/") (x :: y :: a)) with (x ++ s_ "/" ++ join (s_ "/") (y :: a)).
      rewrite IH2. cbn [map List.concat]. now rewrite <- !app_assoc.
Qed.
Lemma single_lang x : wf_single x -> Corrected.single_expression (src_single x).
Proof.
  destruct x as [a|o|p|t|w]; cbn [wf_single src_single]; intros H.
  - left. destruct H as [Hlen Ha].
    destruct a as [|b1 [|b2 a]]; [cbn in Hlen; lia|cbn in Hlen; lia|].
    assert (Hl : Forall (fun b => Corrected.single_alternation b) (map src_branch (b1 :: b2 :: a))).
    { clear Hlen. induction Ha as [|b l (H1 & H2 & _)]; cbn; constructor; auto. now apply branch_lang. }
    cbn [map] in *. inversion Hl as [|? ? Hb1 Hl']; subst.
    destruct (join_lang (src_branch b2 :: map src_branch a) (src_branch b1) Hl') as [H1 ->].
    exists (src_branch b1), (List.concat (map (fun b => s_ "/" ++ b) (src_branch b2 :: map src_branch a))).
    split; [assumption|]. split; [|reflexivity]. inversion Hl' as [|? ? Hb2 Hl'']; subst.
    exists (s_ "/" ++ src_branch b2), (List.concat (map (fun b => s_ "/" ++ b) (map src_branch a))).
    split; [exists (s_ "/"), (src_branch b2); now repeat split|]. split; [|reflexivity].
    exact (proj1 (join_lang _ [] Hl'')).
  - right. left. apply optional_lang. eauto.
  - do 2 right. left. apply parameter_lang. eauto.
  - do 3 right. left. apply content_plus. destruct H; auto.
  - do 4 right. destruct H as [Hne Hw]. apply plus_iff. exists (map (fun c => [c]) w).
    split; [now destruct w|]. split.
    + induction Hw as [|c w Hc]; [constructor|]. subst c. destruct w; constructor; try reflexivity.
      * constructor.
      * now apply IHHw.
    + clear. induction w; cbn; congruence.
Qed.
Lemma tree_lang e : Forall wf_single e -> Corrected.expression (source e).
Proof.
  induction 1; unfold source; cbn; [constructor|]. constructor; [|assumption]. now apply single_lang.
Qed.

(** ** From derivations to trees: the strings of trees are closed under putting a node in front. *)
Definition tree (e : expression str) : Prop := Forall wf_single e /\ linked may_follow e.
Definition word_node (x : alternative str) : single_expression str :=
  match x with AltText t => ExText t | AltOptional o => ExOptional o end.
Definition ends_word (e : expression str) : Prop :=
  match e with [] | (ExParameter _ | ExWhitespaces _) :: _ => True | _ => False end.
(** The first word holds a text. *)
Definition text_word (e : expression str) : Prop :=
  (exists a r, e = ExAlternation a :: r) \/
  (exists w r, e = map word_node w ++ r /\ Exists is_text w /\ ends_word r).

Lemma source_cons' x (e : expression str) : source (x :: e) = src_single x ++ source e.
Proof. reflexivity. Qed.
Lemma linked_cons {A} (R : A -> A -> Prop) x b :
  linked R (x :: b) <-> match b with y :: _ => R x y | [] => True end /\ linked R b.
Proof. destruct b; cbn; tauto. Qed.
Lemma tree_cons x e : tree (x :: e) <->
  wf_single x /\ match e with y :: _ => may_follow x y | [] => True end /\ tree e.
Proof. unfold tree. rewrite linked_cons. rewrite Forall_cons_iff. tauto. Qed.

Lemma first_word e : tree e -> 
  (exists a r, e = ExAlternation a :: r) \/ (exists w r, e = map word_node w ++ r /\ ends_word r).
Proof.
  induction e as [|x e IH]; intros H; [right; now exists [], []|].
  apply tree_cons in H as (Hx & Hl & He).
  destruct x as [a|o|p|t|w]; [left; eauto| |right; now exists [], (ExParameter p :: e)| 
    |right; now exists [], (ExWhitespaces w :: e)].
  - destruct (IH He) as [(a & r & ->)|(w & r & -> & Hr)]; [easy|].
    right. now exists (AltOptional o :: w), r.
  - destruct (IH He) as [(a & r & ->)|(w & r & -> & Hr)]; [easy|].
    right. now exists (AltText t :: w), r.
Qed.

Definition items_norm (b : single_alternation str) : Prop := Forall wf_alternative b /\ linked not_texts b.
Lemma norm_cons x b : items_norm (x :: b) <->
  wf_alternative x /\ match b with y :: _ => not_texts x y | [] => True end /\ items_norm b.
Proof. unfold items_norm. rewrite linked_cons. rewrite Forall_cons_iff. tauto. Qed.
Lemma content_concat special x y : content special x -> content special y -> content special (x ++ y).
Proof. rewrite !content_star. apply star_concat. Qed.
Lemma text_join t u : wf_text t -> wf_text u -> wf_text (t ++ u).
Proof. intros [H1 H2] [H3 H4]. split; [now destruct t|]. now apply content_concat. Qed.
(** Putting an item in front of a branch. *)
Lemma norm_push x b : wf_alternative x -> items_norm b ->
  exists b', items_norm b' /\ src_branch b' = src_alternative x ++ src_branch b /\
    (is_text x \/ Exists is_text b -> Exists is_text b').
Proof.
  intros Hx Hb.
  assert (D : (exists t u r, x = AltText t /\ b = AltText u :: r) \/
              match b with y :: _ => not_texts x y | [] => True end).
  { destruct b as [|[o|u] r]; auto; destruct x as [o'|t]; unfold not_texts; cbn; try tauto.
    left. eauto. }
  destruct D as [(t & u & r & -> & ->)|D].
  - apply norm_cons in Hb as (Hu & Hr & Hb). exists (AltText (t ++ u) :: r). split.
    + apply norm_cons. split; [now apply text_join|]. split; [|assumption].
      destruct r as [|[]]; unfold not_texts in *; cbn in *; tauto.
    + split; [unfold src_branch; cbn; now rewrite app_assoc|]. intros _. now left.
  - exists (x :: b). split; [now apply norm_cons|]. split; [reflexivity|].
    intros [H|H]; [now left|now right].
Qed.

(** Putting an item in front of a tree. *)
Lemma tree_push x e : wf_alternative x -> tree e ->
  exists e', tree e' /\ source e' = src_alternative x ++ source e /\
    (is_text x \/ text_word e -> text_word e').
Proof.
  intros Hx He. destruct (first_word e He) as [(a & r & ->)|(w & r & -> & Hr)].
  - apply tree_cons in He as ((Hlen & Ha) & Hf & He).
    destruct a as [|b a]; [cbn in Hlen; lia|]. inversion Ha as [|? ? Hb Ha']; subst.
    destruct Hb as (Hb1 & Hb2 & Hb3).
    destruct (norm_push x b) as (b' & (Hn1 & Hn2) & Hs & Ht); [assumption| |].
    { split; [assumption|]. now apply linked_iff. }
    exists (ExAlternation (b' :: a) :: r). split; [|split].
    + apply tree_cons. split; [|split; [|assumption]].
      * split; [exact Hlen|]. constructor; [|assumption]. split; [assumption|]. split; [auto|].
        exact (proj1 (linked_iff _ _) Hn2).
      * destruct r as [|[]]; cbn in *; tauto.
    + rewrite !source_cons'. cbn [src_single map].
      destruct (map src_branch a) as [|y l]; cbn [join]; rewrite Hs; now rewrite <- !app_assoc.
    + intros _. left. eauto.
  - assert (D : (exists t u w', x = AltText t /\ w = AltText u :: w') \/
              match w with y :: _ => not_texts x y | [] => True end).
    { destruct w as [|[o|u] w']; auto; destruct x as [o'|t]; unfold not_texts; cbn; try tauto.
      left. eauto. }
    destruct D as [(t & u & w' & -> & ->)|D].
    + cbn [map app word_node] in *. apply tree_cons in He as (Hu & Hf & He).
      exists (ExText (t ++ u) :: map word_node w' ++ r). split; [|split].
      * apply tree_cons. split; [now apply text_join|]. split; [|assumption].
        destruct (map word_node w' ++ r) as [|[]]; cbn in *; tauto.
      * rewrite !source_cons'. cbn. now rewrite app_assoc.
      * intros _. right. exists (AltText (t ++ u) :: w'), r. repeat split; auto. now left.
    + exists (word_node x :: map word_node w ++ r). split; [|split].
      * apply tree_cons. split; [now destruct x|]. split; [|assumption].
        destruct w as [|y w'].
        -- cbn. destruct r as [|[]]; cbn in *; destruct x; cbn; tauto.
        -- cbn. destruct x, y; cbn in *; unfold not_texts in D; cbn in D; tauto.
      * rewrite source_cons'. now destruct x.
      * intros Ht. right. exists (x :: w), r. split; [reflexivity|]. split; [|assumption].
        destruct Ht as [Ht|[(a & r' & E)|(w2 & r2 & E & Ht & Hr2)]]; [now left| |].
        -- destruct w as [|[] w]; cbn in E; try discriminate. subst r. easy.
        -- right. clear -E Ht Hr Hr2. revert w2 E Ht.
           induction w as [|y w IH]; intros w2 E Ht.
           ++ destruct w2 as [|[] w2]; cbn in E; [inversion Ht|subst r; easy|subst r; easy].
           ++ destruct w2 as [|z w2]; [inversion Ht|]. cbn in E. injection E as E1 E2.
              assert (y = z) by (destruct y, z; cbn in E1; congruence). subst z.
              inversion Ht; subst; [now left|]. right. now apply (IH w2).
Qed.
Lemma star_push s : star item_lang s -> forall e, tree e ->
  exists e', tree e' /\ source e' = s ++ source e /\ (text_word e -> text_word e').
Proof.
  induction 1 as [|x y Hx _ IH]; intros e He.
  - exists e. auto.
  - destruct (IH e He) as (e1 & H1 & H2 & H3).
    assert (Hi : exists i, wf_alternative i /\ src_alternative i = x).
    { destruct Hx as [Hx|Hx].
      - apply unit_content in Hx as [Ha Hb]. exists (AltText x). now repeat split.
      - apply optional_lang in Hx as (o & Ho & ->). exists (AltOptional o). auto. }
    destruct Hi as (i & Hi & <-). destruct (tree_push i e1 Hi H1) as (e2 & H4 & H5 & H6).
    exists e2. split; [assumption|]. split; [rewrite H5, H2; now rewrite app_assoc|]. auto.
Qed.
Lemma branch_push s : Corrected.single_alternation s -> forall e, tree e ->
  exists e', tree e' /\ source e' = s ++ source e /\ text_word e'.
Proof.
  intros (x & y & Hx & (t & z & Ht & Hz & ->) & ->) e He.
  destruct (star_push z Hz e He) as (e1 & H1 & H2 & _).
  apply unit_content in Ht as [Ha Hb].
  destruct (tree_push (AltText t) e1) as (e2 & H3 & H4 & H5); [now split|assumption|].
  destruct (star_push x Hx e2 H3) as (e3 & H6 & H7 & H8).
  exists e3. split; [assumption|]. split.
  - rewrite H7, H4, H2. cbn [src_alternative]. now rewrite !app_assoc.
  - apply H8, H5. left. easy.
Qed.

(** Putting a branch and a slash in front of a tree whose first word holds a text. *)
Lemma word_items w r : tree (map word_node w ++ r) -> items_norm w.
Proof.
  induction w as [|x w IH]; intros H; [split; constructor|].
  cbn [map app] in H. apply tree_cons in H as (Hx & Hf & He). apply norm_cons.
  split; [now destruct x|]. split; [|now apply IH].
  destruct w as [|y w]; [easy|]. cbn in Hf. destruct x, y; unfold not_texts; cbn in *; tauto.
Qed.
Lemma word_rest w r : tree (map word_node w ++ r) -> tree r.
Proof. induction w; intros H; [assumption|]. apply IHw. cbn in H. now apply tree_cons in H. Qed.
Lemma word_source w r : source (map word_node w ++ r) = src_branch w ++ source r.
Proof.
  induction w as [|x w IH]; [reflexivity|]. cbn [map app]. rewrite source_cons', IH.
  unfold src_branch. cbn [map List.concat]. rewrite <- app_assoc. now destruct x.
Qed.
Lemma slash_push b e : items_norm b -> Exists is_text b -> tree e -> text_word e ->
  exists e', tree e' /\ source e' = src_branch b ++ s_ "/" ++ source e /\ text_word e'.
Proof.
  intros [Hb1 Hb2] Hb3 He [(a & r & ->)|(w & r & -> & Hw & Hr)].
  - apply tree_cons in He as ((Hlen & Ha) & Hf & He).
    exists (ExAlternation (b :: a) :: r). split; [|split; [|left; eauto]].
    + apply tree_cons. split; [|split; [|assumption]].
      * split; [cbn; lia|]. constructor; [|assumption]. split; [assumption|]. split; [assumption|].
        now apply linked_iff.
      * destruct r as [|[]]; cbn in *; tauto.
    + rewrite !source_cons'. cbn [src_single map]. destruct a as [|b2 a]; [cbn in Hlen; lia|].
      cbn [map]. change (join (s_ "/") (src_branch b :: src_branch b2 :: map src_branch a))
        with (src_branch b ++ s_ "/" ++ join (s_ "/") (src_branch b2 :: map src_branch a)).
      now rewrite <- !app_assoc.
  - pose proof (word_items w r He) as [Hw1 Hw2]. pose proof (word_rest w r He) as Hr2.
    exists (ExAlternation [b; w] :: r). split; [|split; [|left; eauto]].
    + apply tree_cons. split; [|split; [|assumption]].
      * split; [cbn; lia|]. repeat constructor; auto; now apply linked_iff.
      * destruct r as [|[]]; cbn in *; tauto.
    + rewrite word_source, source_cons'. cbn [src_single map join]. now rewrite <- !app_assoc.
Qed.
Lemma star_norm s : star item_lang s -> forall b, items_norm b ->
  exists b', items_norm b' /\ src_branch b' = s ++ src_branch b /\
    (Exists is_text b -> Exists is_text b').
Proof.
  induction 1 as [|x y Hx _ IH]; intros b Hb; [exists b; auto|].
  destruct (IH b Hb) as (b1 & H1 & H2 & H3).
  assert (Hi : exists i, wf_alternative i /\ src_alternative i = x).
  { destruct Hx as [Hx|Hx].
    - apply unit_content in Hx as [Ha Hc]. exists (AltText x). now repeat split.
    - apply optional_lang in Hx as (o & Ho & ->). exists (AltOptional o). auto. }
  destruct Hi as (i & Hi & <-). destruct (norm_push i b1 Hi H1) as (b2 & H4 & H5 & H6).
  exists b2. split; [assumption|]. split; [rewrite H5, H2; now rewrite app_assoc|]. auto.
Qed.
Lemma branch_norm s : Corrected.single_alternation s ->
  exists b, items_norm b /\ src_branch b = s /\ Exists is_text b.
Proof.
  intros (x & y & Hx & (t & z & Ht & Hz & ->) & ->).
  destruct (star_norm z Hz [] ltac:(split; constructor)) as (b1 & H1 & H2 & _).
  apply unit_content in Ht as [Ha Hb].
  destruct (norm_push (AltText t) b1) as (b2 & H3 & H4 & H5); [now split|assumption|].
  destruct (star_norm x Hx b2 H3) as (b3 & H6 & H7 & H8).
  exists b3. split; [assumption|]. split.
  - rewrite H7, H4, H2. unfold src_branch. cbn. now rewrite app_nil_r.
  - apply H8, H5. left. easy.
Qed.

Lemma alternation_push s : Corrected.alternation s -> forall e, tree e ->
  exists e', tree e' /\ source e' = s ++ source e.
Proof.
  intros (b & l & Hb & Hl & ->) e He. apply plus_iff in Hl as (bs & Hne & Hbs & ->).
  (* all branches after the first, put in front *)
  assert (H : exists e1, tree e1 /\ text_word e1 /\
                s_ "/" ++ source e1 = List.concat bs ++ source e).
  { clear Hb b. induction Hbs as [|x bs (sl & b & -> & Hb & ->) Hbs IH]; [easy|].
    destruct bs as [|y bs].
    - destruct (branch_push b Hb e He) as (e1 & H1 & H2 & H3). exists e1.
      split; [assumption|]. split; [assumption|]. rewrite H2. cbn [List.concat].
      now rewrite app_nil_r, app_assoc.
    - destruct (IH ltac:(easy)) as (e1 & H1 & H2 & H3).
      destruct (branch_norm b Hb) as (b' & Hb1 & <- & Hb2).
      destruct (slash_push b' e1 Hb1 Hb2 H1 H2) as (e2 & H4 & H5 & H6).
      exists e2. split; [assumption|]. split; [assumption|]. rewrite H5.
      change (List.concat ((s_ "/" ++ src_branch b') :: y :: bs))
        with ((s_ "/" ++ src_branch b') ++ List.concat (y :: bs)).
      rewrite <- (app_assoc _ (List.concat (y :: bs))), <- H3. now rewrite <- !app_assoc. }
  destruct H as (e1 & H1 & H2 & H3).
  destruct (branch_norm b Hb) as (b' & Hb1 & <- & Hb2).
  destruct (slash_push b' e1 Hb1 Hb2 H1 H2) as (e2 & H4 & H5 & _).
  exists e2. split; [assumption|]. rewrite H5, H3. now rewrite app_assoc.
Qed.
Lemma single_push s : Corrected.single_expression s -> forall e, tree e ->
  exists e', tree e' /\ source e' = s ++ source e.
Proof.
  intros [H|[H|[H|[H|H]]]] e He.
  - now apply alternation_push.
  - destruct (star_push s) with (e := e) as (e1 & H1 & H2 & _); [|assumption|eauto].
    apply star_one. now right.
  - apply parameter_lang in H as (t & Ht & ->). exists (ExParameter (mkParameter t 0) :: e).
    split; [|reflexivity]. apply tree_cons. split; [assumption|]. split; [|assumption].
    now destruct e as [|[]].
  - destruct (star_push s) with (e := e) as (e1 & H1 & H2 & _); [|assumption|eauto].
    apply plus_star in H. revert H. apply star_mono. intros x Hx. now left.
  - apply plus_iff in H as (l & Hne & Hl & ->).
    assert (Hs : Forall (fun c => c = c_ " ") (List.concat l) /\ List.concat l <> []).
    { destruct Hl as [|x l Hx Hl]; [easy|]. split; [|now rewrite Hx].
      rewrite Hx. constructor; [reflexivity|]. clear -Hl.
      induction Hl as [|y l Hy]; cbn; [constructor|]. rewrite Hy. now constructor. }
    destruct Hs as [Hs1 Hs2]. destruct e as [|x e].
    + exists [ExWhitespaces (List.concat l)]. split; [|now rewrite source_cons'].
      apply tree_cons. now repeat split.
    + assert (D : (exists w, x = ExWhitespaces w) \/
                  may_follow (ExWhitespaces (List.concat l)) x) by (destruct x; cbn; eauto).
      destruct D as [(w & ->)|D].
      2: { exists (ExWhitespaces (List.concat l) :: x :: e). split; [|reflexivity].
           apply tree_cons. split; [now split|]. split; assumption. }
      exists (ExWhitespaces (List.concat l ++ w) :: e). split.
      * apply tree_cons in He as ((H1 & H2) & H3 & H4). apply tree_cons.
        split; [split; [now destruct (List.concat l)|now apply Forall_app]|].
        split; [|assumption]. destruct e as [|[]]; cbn in *; tauto.
      * rewrite !source_cons'. cbn [src_single]. now rewrite app_assoc.
Qed.
Lemma grammar_tree s : Corrected.expression s -> exists e, tree e /\ source e = s.
Proof.
  induction 1 as [|x y Hx _ (e & He & <-)]; [exists []; repeat constructor|].
  destruct (single_push x Hx e He) as (e' & H1 & H2). eauto.
Qed.
Lemma renumber_linked : forall e ix, linked may_follow e -> linked may_follow (renumber ix e).
Proof.
  induction e as [|x e IH]; intros ix H; [easy|]. apply linked_cons in H as [H1 H2].
  assert (Hh : forall ix', match e with y :: _ => may_follow x y | [] => True end ->
    match renumber ix' e with y :: _ => may_follow x y | [] => True end).
  { intros ix'. destruct e as [|y e']; [auto|]. destruct y; cbn [renumber]; auto. }
  destruct x; cbn [renumber]; apply linked_cons; (split; [|now apply IH]); try exact (Hh _ H1).
Qed.

Lemma accepted_iff_grammar s : addressable s ->
  (exists e, expression_parse s = RetOk e) <-> Corrected.expression s.
Proof.
  intros Hs. split.
  - intros (out & H). apply parse_ok_iff in H as (e & (He & _) & <- & _); [|assumption].
    now apply tree_lang.
  - intros H. apply grammar_tree in H as (e & (H1 & H2) & <-).
    exists (locate 0 1 (renumber 0 e)). apply parse_ok_iff; [assumption|].
    exists (renumber 0 e). split; [|split; [now rewrite renumber_source|reflexivity]].
    split; [now apply renumber_wf|]. split; [now apply linked_iff, renumber_linked|].
    apply ids_from_iff, renumber_ids.
Qed.

(** ** The README's grammar is included. *)
Lemma unit_mono t e e' : (forall c, In c e -> In c e') -> 
  incl_lang (alt (none t) (seq (lit (s_ "\")) (one e))) (alt (none t) (seq (lit (s_ "\")) (one e'))).
Proof.
  intros H. apply alt_mono; [easy|]. apply seq_mono; [easy|]. intros s (c & Hc & ->). exists c. auto.
Qed.
Lemma optional_included : incl_lang Readme.optional Corrected.optional.
Proof.
  apply seq_mono; [easy|]. apply seq_mono; [|easy]. apply plus_mono. apply unit_mono.
  cbn. intuition.
Qed.
Lemma text_included : incl_lang Readme.text_in_alternative Corrected.text.
Proof. apply unit_mono. cbn. intuition. Qed.
Lemma group_included : incl_lang
  (alt (seq (plus Readme.text_in_alternative) (star Readme.optional))
       (seq (plus Readme.optional) (plus Readme.text_in_alternative)))
  Corrected.single_alternation.
Proof.
  assert (Ht : incl_lang (star Readme.text_in_alternative) (star item_lang)).
  { apply star_mono. intros s Hs. left. now apply text_included. }
  assert (Ho : incl_lang (star Readme.optional) (star item_lang)).
  { apply star_mono. intros s Hs. right. now apply optional_included. }
  intros s [(x & y & (t & z & H1 & H2 & ->) & Hy & ->)|(x & y & Hx & (t & z & H1 & H2 & ->) & ->)].
  - exists [], ((t ++ z) ++ y). split; [constructor|]. split; [|reflexivity].
    exists t, (z ++ y). split; [now apply text_included|]. split; [|now rewrite app_assoc].
    apply star_concat; [now apply Ht|now apply Ho].
  - exists x, (t ++ z). split; [now apply Ho, plus_star|]. split; [|reflexivity].
    exists t, z. split; [now apply text_included|]. split; [now apply Ht|reflexivity].
Qed.
Lemma group_star : incl_lang Corrected.single_alternation (star item_lang).
Proof.
  intros s (x & y & Hx & (t & z & Ht & Hz & ->) & ->). apply star_concat; [assumption|].
  constructor; [now left|assumption].
Qed.
Lemma branch_included : incl_lang Readme.single_alternation Corrected.single_alternation.
Proof.
  intros s H. apply (plus_mono _ _ group_included) in H.
  destruct H as (g & r & (x & y & Hx & (t & z & Ht & Hz & ->) & ->) & Hr & ->).
  exists x, (t ++ z ++ r). split; [assumption|]. split; [|now rewrite <- !app_assoc].
  exists t, (z ++ r). split; [assumption|]. split; [|reflexivity].
  apply star_concat; [assumption|]. clear -Hr.
  induction Hr; [constructor|]. apply star_concat; [now apply group_star|assumption].
Qed.
Lemma readme_included : incl_lang Readme.expression Corrected.expression.
Proof.
  apply star_mono. repeat apply alt_mono.
  - apply seq_mono; [apply branch_included|]. apply plus_mono, seq_mono; [easy|apply branch_included].
  - apply optional_included.
  - apply seq_mono; [easy|]. apply seq_mono; [|easy]. apply star_mono, unit_mono. cbn. intuition.
  - apply plus_mono. intros s [(c & H & ->)|H].
    + left. exists c. split; [|reflexivity]. cbn in *. intuition.
    + right. revert H. apply seq_mono; [easy|]. intros s' (c & H & ->). exists c. split; [|reflexivity].
      cbn in *. intuition.
  - easy.
Qed.
Lemma readme_accepted s : addressable s -> Readme.expression s -> exists e, expression_parse s = RetOk e.
Proof. intros Hs H. apply accepted_iff_grammar; [assumption|]. now apply readme_included. Qed.

(** ** Not everything accepted is in the README's grammar. *)
(** A backslash at the start is followed by a character that may be escaped in text. *)
Definition good_start (s : str) : Prop :=
  match s with
  | [] => False
  | c :: r => c = backslash -> match r with [] => False | d :: _ => In d (s_ " ({/\") end
  end.
Lemma good_app x y : good_start x -> good_start (x ++ y).
Proof.
  destruct x as [|c [|d x]]; cbn [good_start app]; [easy| |auto].
  intros H E. destruct (H E).
Qed.
Lemma good_seq a b : incl_lang a good_start -> incl_lang (seq a b) good_start.
Proof. intros H s (x & y & Hx & _ & ->). now apply good_app, H. Qed.
Lemma good_alt a b : incl_lang a good_start -> incl_lang b good_start -> incl_lang (alt a b) good_start.
Proof. intros Ha Hb s [H|H]; auto. Qed.
Lemma good_unit t e : In backslash t -> (forall c, In c e -> In c (s_ " ({/\")) ->
  incl_lang (alt (none t) (seq (lit (s_ "\")) (one e))) good_start.
Proof.
  intros Ht He s [(c & Hc & ->)|(x & y & -> & (c & Hc & ->) & ->)].
  - intros ->. easy.
  - intros _. now apply He.
Qed.
Lemma good_optional : incl_lang Readme.optional good_start.
Proof. apply good_seq. intros s ->. easy. Qed.
Lemma readme_start : incl_lang Readme.single_expression good_start.
Proof.
  assert (Ht : incl_lang (plus Readme.text_in_alternative) good_start)
    by (apply good_seq, good_unit; [cbn; tauto|auto]).
  repeat apply good_alt.
  - apply good_seq, good_seq, good_alt; apply good_seq; [exact Ht|]. apply good_seq, good_optional.
  - apply good_optional.
  - apply good_seq. intros s ->. easy.
  - apply good_seq, good_unit; [cbn; tauto|]. cbn. intuition.
  - apply good_seq. intros s ->. easy.
Qed.
Lemma readme_refuted : exists s, addressable s /\
  (exists e, expression_parse s = RetOk e) /\ ~ Readme.expression s.
Proof.
  exists (s_ "\}"). split; [vm_compute; easy|]. split.
  - eexists. vm_compute. reflexivity.
  - intros H. assert (Hg : forall s, Readme.expression s -> s = [] \/ good_start s).
    { intros s [|x y Hx _]; [now left|]. right. now apply good_app, readme_start. }
    apply Hg in H as [H|H]; [easy|]. specialize (H eq_refl). cbn in H.
    repeat (destruct H as [H|H]; [discriminate|]). easy.
Qed.

Lemma readme_example : Readme.expression (s_ "{a} b").
Proof.
  apply (star_app _ (s_ "{a}") (s_ " b")).
  - do 2 right. left. exists (s_ "{"), (s_ "a}"). split; [reflexivity|]. split; [|reflexivity].
    exists (s_ "a"), (s_ "}"). split; [|now split]. apply (star_app _ (s_ "a") []); [|constructor].
    left. exists (c_ "a"). split; [|reflexivity]. cbn. intuition easy.
  - apply (star_app _ (s_ " ") (s_ "b")).
    + do 4 right. exists (s_ " "), []. repeat split. constructor.
    + apply (star_app _ (s_ "b") []); [|constructor]. do 3 right. left.
      exists (s_ "b"), []. split; [|split; [constructor|reflexivity]].
      left. exists (c_ "b"). split; [|reflexivity]. cbn. intuition easy.
Qed.
