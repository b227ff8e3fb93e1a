(** Replacing characters that are not reserved. *)
From Verif Require Export ProofParse2 SpecRename.

Section Rename.
  Context (f : char -> char) (Hf : replaces_plain f).
  Notation mf := (map f).
  Definition within (special : str) : Prop := forall c, In c special -> In c reserved.
  Lemma fixed c : In c reserved -> f c = c.
  Proof. apply Hf. Qed.
  Lemma in_reserved c : In (f c) reserved <-> In c reserved.
  Proof.
    destruct Hf as [H1 H2]. destruct (in_dec N.eq_dec c reserved) as [H|H].
    - rewrite (H1 c H). tauto.
    - split; [intros H'; now apply H2 in H|tauto].
  Qed.
  Lemma in_special special c : within special -> In (f c) special <-> In c special.
  Proof.
    intros Hs. split; intros H.
    - assert (Hc : In c reserved) by (apply in_reserved; auto). now rewrite fixed in H.
    - rewrite fixed; auto.
  Qed.
  (** A reserved character in the image is itself. *)
  Lemma back c k : f c = k -> In k reserved -> c = k.
  Proof. intros H Hk. subst k. apply (proj1 (in_reserved c)) in Hk. now rewrite fixed. Qed.

  Lemma within_name : within name_special. Proof. intros c. cbn. tauto. Qed.
  Lemma within_optional : within optional_special. Proof. intros c. cbn. tauto. Qed.
  Lemma within_text : within text_special. Proof. intros c. cbn. tauto. Qed.

  Lemma content_map special t : within special -> content special (mf t) <-> content special t.
  Proof.
    intros Hs. split.
    - intros H. remember (mf t) as u eqn:E. revert t E.
      induction H as [|c u H _ IH|c u H _ IH]; intros t E.
      + destruct t; [constructor|discriminate].
      + destruct t as [|d t]; [discriminate|]. cbn [map] in E. injection E as -> ->.
        constructor; [|now apply IH]. now rewrite <- (in_special special d Hs).
      + destruct t as [|d [|d' t]]; [discriminate|discriminate|]. cbn [map] in E. injection E as E1 -> ->.
        assert (E2 : d = backslash) by (apply back; [now symmetry|cbn; auto 10]). subst d.
        constructor; [|now apply IH]. now apply in_reserved.
    - induction 1 as [|c t H _ IH|c t H _ IH]; cbn [map]; [constructor| |].
      + constructor; [|assumption]. now rewrite in_special.
      + rewrite (fixed backslash) by (cbn; auto 10). constructor; [|assumption]. now apply in_reserved.
  Qed.
  Lemma lit_map t : (forall c, In c t -> In c reserved) -> mf t = t.
  Proof.
    induction t as [|c t IH]; intros H; [reflexivity|]. cbn [map]. rewrite fixed, IH; [reflexivity| |].
    - intros d Hd. apply H. now right.
    - apply H. now left.
  Qed.
  Lemma map_back_app u a b : mf u = a ++ b -> exists a' b', u = a' ++ b' /\ mf a' = a /\ mf b' = b.
  Proof. apply map_eq_app. Qed.
  Lemma map_back_lit u k r : In k reserved -> mf u = [k] ++ r -> exists r', u = [k] ++ r' /\ mf r' = r.
  Proof.
    intros Hk H. destruct u as [|c u]; [discriminate|]. cbn [map app] in H. injection H as H1 H2.
    exists u. split; [|assumption]. now rewrite (back c k).
  Qed.
  Lemma map_nil_iff (t : str) : mf t = [] <-> t = [].
  Proof. now destruct t. Qed.

  (** ** Trees *)
  Notation me := (map_expression mf).
  Notation ma := (map_alternation mf).
  Notation mb := (map (map_alternative mf)).
  Lemma wf_text_map t : wf_text t -> wf_text (mf t).
  Proof. intros [H1 H2]. split; [now rewrite map_nil_iff|]. now apply (content_map _ _ within_text). Qed.
  Lemma wf_optional_map o : wf_optional o -> wf_optional (map_optional mf o).
  Proof.
    intros [H1 H2]. split; cbn [map_optional opt_input]; [now rewrite map_nil_iff|].
    now apply (content_map _ _ within_optional).
  Qed.
  Lemma wf_alternative_map x : wf_alternative x -> wf_alternative (map_alternative mf x).
  Proof. destruct x; cbn; [apply wf_optional_map|apply wf_text_map]. Qed.
  Lemma is_text_map x : is_text (map_alternative mf x) <-> is_text x.
  Proof. now destruct x. Qed.
  Lemma map_cut {A B} (g : A -> B) (b : list A) l x y r : map g b = l ++ x :: y :: r ->
    exists l' x' y' r', b = l' ++ x' :: y' :: r' /\ g x' = x /\ g y' = y.
  Proof.
    intros H. apply map_eq_app in H as (l' & q & -> & _ & H).
    destruct q as [|x' [|y' r']]; [discriminate|discriminate|]. cbn [map] in H. injection H as H1 H2 _.
    now exists l', x', y', r'.
  Qed.
  Lemma items_map b : items b -> items (mb b).
  Proof.
    intros [H1 H2]. split.
    - apply Forall_map. revert H1. apply Forall_impl. exact wf_alternative_map.
    - intros l x y r E. apply map_cut in E as (l' & x' & y' & r' & E & <- & <-).
      rewrite !is_text_map. now apply (H2 l' x' y' r').
  Qed.
  Lemma has_text_map b : Exists is_text (mb b) <-> Exists is_text b.
  Proof.
    rewrite Exists_map. rewrite !Exists_exists. split; intros (x & H1 & H2); exists x; (split; [assumption|]);
      now apply is_text_map.
  Qed.
  Lemma wf_branch_map b : wf_branch b -> wf_branch (mb b).
  Proof.
    intros (H1 & H2 & H3). destruct (items_map b (conj H1 H3)) as [H4 H5].
    split; [assumption|]. split; [now apply has_text_map|assumption].
  Qed.
  Lemma wf_single_map x : wf_single x -> wf_single (map_single mf x).
  Proof.
    destruct x as [a|o|p|t|w]; cbn [wf_single map_single].
    - intros [H1 H2]. unfold map_alternation. rewrite map_length. split; [assumption|].
      apply Forall_map. revert H2. apply Forall_impl. exact wf_branch_map.
    - apply wf_optional_map.
    - apply (content_map _ _ within_name).
    - apply wf_text_map.
    - intros [H1 H2]. split; [now rewrite map_nil_iff|]. apply Forall_map. revert H2. apply Forall_impl.
      intros c ->. apply fixed. cbn. auto 10.
  Qed.
  Lemma may_follow_map x y : may_follow (map_single mf x) (map_single mf y) <-> may_follow x y.
  Proof. now destruct x, y. Qed.
  Lemma nodes_map x : nodes x -> nodes (me x).
  Proof.
    intros [H1 H2]. split.
    - apply Forall_map. revert H1. apply Forall_impl. exact wf_single_map.
    - intros l y z r E. apply map_cut in E as (l' & y' & z' & r' & E & <- & <-).
      apply may_follow_map. now apply (H2 l' y' z' r').
  Qed.
  Lemma ids_map {I J} (g : I -> J) e : ids (map_expression g e) = ids e.
  Proof. induction e as [|x e IH]; [reflexivity|]. cbn. unfold map_expression, ids in IH. rewrite IH. now destruct x. Qed.
  Lemma wf_map e : wf e -> wf (me e).
  Proof.
    intros (H1 & H2 & H3). destruct (nodes_map e (conj H1 H2)) as [H4 H5].
    split; [assumption|]. split; [assumption|]. now rewrite ids_map.
  Qed.

  Lemma src_alternative_map x : src_alternative (map_alternative mf x) = mf (src_alternative x).
  Proof.
    destruct x as [o|t]; cbn [map_alternative src_alternative map_optional opt_input]; [|reflexivity].
    rewrite !map_app. rewrite !(lit_map (s_ _)) by (cbn; tauto). reflexivity.
  Qed.
  Lemma src_branch_map b : src_branch (mb b) = mf (src_branch b).
  Proof.
    unfold src_branch. rewrite concat_map, !map_map. f_equal. apply map_ext. exact src_alternative_map.
  Qed.
  Lemma join_map l : mf (join (s_ "/") l) = join (s_ "/") (map mf l).
  Proof.
    induction l as [|x [|y l] IH]; [reflexivity|reflexivity|].
    change (join (s_ "/") (x :: y :: l)) with (x ++ s_ "/" ++ join (s_ "/") (y :: l)).
    rewrite !map_app, IH, (lit_map (s_ "/")) by (cbn; tauto). reflexivity.
  Qed.
  Lemma alternation_map a : join (s_ "/") (map src_branch (ma a)) = mf (join (s_ "/") (map src_branch a)).
  Proof.
    rewrite join_map. unfold map_alternation. rewrite !map_map. f_equal. apply map_ext. exact src_branch_map.
  Qed.
  Lemma slashed_map a : slashed (ma a) = mf (slashed a).
  Proof.
    unfold slashed, map_alternation. rewrite concat_map, !map_map. f_equal. apply map_ext. intros b.
    rewrite map_app, src_branch_map, (lit_map (s_ "/")) by (cbn; tauto). reflexivity.
  Qed.
  Lemma src_single_map x : src_single (map_single mf x) = mf (src_single x).
  Proof.
    destruct x as [a|o|p|t|w]; cbn [map_single src_single map_optional map_parameter opt_input par_input];
      [apply alternation_map| | |reflexivity|reflexivity];
      rewrite !map_app; rewrite !(lit_map (s_ _)) by (cbn; tauto); reflexivity.
  Qed.
  Lemma source_map e : source (me e) = mf (source e).
  Proof.
    unfold source, map_expression. rewrite concat_map, !map_map. f_equal. apply map_ext. exact src_single_map.
  Qed.
  Lemma addressable_map s : addressable s -> addressable (mf s).
  Proof. unfold addressable. now rewrite map_length. Qed.

  Lemma accepted_replaced s out : addressable s -> expression_parse s = RetOk out ->
    expression_parse (mf s) = RetOk (locate 0 1 (me (map_expression frag out))).
  Proof.
    intros Hs H. apply parse_ok_iff in H as (e & He & <- & ->); [|assumption].
    apply parse_ok_iff; [now apply addressable_map|]. exists (me e). split; [now apply wf_map|].
    split; [apply source_map|]. now rewrite locate_forget.
  Qed.

  (** ** Errors *)
  Lemma map_error_comp {I J K} (g : I -> J) (h : J -> K) e : map_error h (map_error g e) = map_error (fun x => h (g x)) e.
  Proof. now destruct e. Qed.
  Lemma map_error_ext {I J} (g h : I -> J) e : (forall x, g x = h x) -> map_error g e = map_error h e.
  Proof. intros H. destruct e; cbn; now rewrite ?H. Qed.
  Lemma replace_after p e : replace_error f (after p e) = after (mf p) (replace_error f e).
  Proof.
    unfold replace_error, after. rewrite !map_error_comp. apply map_error_ext. intros [x y]. cbn.
    now rewrite map_app.
  Qed.
  Lemma map_two c : In c reserved -> mf [c] = [c].
  Proof. intros H. cbn [map]. now rewrite fixed. Qed.
  Lemma broken_map special s e : within special -> broken_text special s e ->
    broken_text special (mf s) (replace_error f e).
  Proof.
    intros Hs H. assert (Hb : mf [backslash] = [backslash]) by (apply map_two; cbn; auto 10).
    destruct H as [|t Hne Ht|t c r Ht Hc].
    - rewrite Hb. cbn [replace_error map_error fst snd]. rewrite Hb. constructor.
    - rewrite map_app, Hb. cbn [replace_error map_error fst snd].
      rewrite <- firstn_map, map_app, Hb. constructor; [now rewrite map_nil_iff|now apply content_map].
    - rewrite !map_app. cbn [replace_error map_error fst snd map].
      rewrite (fixed backslash) by (cbn; auto 10).
      constructor; [now apply content_map|]. now rewrite in_reserved.
  Qed.
  Ltac lits := rewrite ?map_app; rewrite ?(lit_map (s_ _)) by (cbn; tauto).
  Lemma has_parameter_map s n r : has_parameter s n r -> has_parameter (mf s) (mf n) (mf r).
  Proof. intros [-> H]. split; [now lits|]. now apply (content_map _ _ within_name). Qed.
  Lemma has_optional_map s n r : has_optional s n r -> has_optional (mf s) (mf n) (mf r).
  Proof.
    intros (-> & H1 & H2). split; [now lits|]. split; [now rewrite map_nil_iff|].
    now apply (content_map _ _ within_optional).
  Qed.
  Lemma has_parameter_back s n r : has_parameter (mf s) n r ->
    exists n' r', has_parameter s n' r' /\ mf r' = r.
  Proof.
    intros [H1 H2]. apply (map_back_lit s (c_ "{")) in H1 as (u & -> & H1); [|cbn; auto 10].
    apply map_back_app in H1 as (n' & v & -> & <- & H1).
    apply (map_back_lit v (c_ "}")) in H1 as (r' & -> & <-); [|cbn; auto 10].
    exists n', r'. split; [|reflexivity]. split; [reflexivity|]. now apply (proj1 (content_map _ _ within_name)) in H2.
  Qed.
  Lemma has_optional_back s n r : has_optional (mf s) n r ->
    exists n' r', has_optional s n' r' /\ mf r' = r.
  Proof.
    intros (H1 & Hne & H2). apply (map_back_lit s (c_ "(")) in H1 as (u & -> & H1); [|cbn; auto 10].
    apply map_back_app in H1 as (n' & v & -> & <- & H1).
    apply (map_back_lit v (c_ ")")) in H1 as (r' & -> & <-); [|cbn; auto 10].
    exists n', r'. split; [|reflexivity]. split; [reflexivity|]. split; [now rewrite map_nil_iff in Hne|].
    now apply (proj1 (content_map _ _ within_optional)) in H2.
  Qed.
  Lemma completes_parameter_map r : completes_parameter (mf r) <-> completes_parameter r.
  Proof.
    split.
    - intros (t & r' & E & H). apply map_back_app in E as (t' & v & -> & <- & E).
      apply (map_back_lit v (c_ "}")) in E as (w & -> & _); [|cbn; auto 10].
      exists t', w. split; [reflexivity|]. now apply (proj1 (content_map _ _ within_name)) in H.
    - intros (t & r' & -> & H). exists (mf t), (mf r'). split; [now lits|].
      now apply (content_map _ _ within_name).
  Qed.
  Lemma completes_optional_map r : completes_optional (mf r) <-> completes_optional r.
  Proof.
    split.
    - intros (t & r' & E & H). apply map_back_app in E as (t' & v & -> & <- & E).
      apply (map_back_lit v (c_ ")")) in E as (w & -> & _); [|cbn; auto 10].
      exists t', w. split; [reflexivity|]. now apply (proj1 (content_map _ _ within_optional)) in H.
    - intros (t & r' & -> & H). exists (mf t), (mf r'). split; [now lits|].
      now apply (content_map _ _ within_optional).
  Qed.
  Lemma name_map t : content name_special t -> content name_special (mf t).
  Proof. apply (content_map _ _ within_name). Qed.
  Lemma opt_map t : content optional_special t -> content optional_special (mf t).
  Proof. apply (content_map _ _ within_optional). Qed.

  Ltac shape := cbn [replace_error map_error fst snd]; lits.
  Lemma parameter_error_map s e : parameter_error s e -> parameter_error (mf s) (replace_error f e).
  Proof.
    intros [s' e' H|t H|t s' n r H H1 H2|t s' n r H H1|t r0 H H1|t r0 H H1|t r H].
    - rewrite replace_after. lits. constructor. apply broken_map; [exact within_name|assumption].
    - shape. constructor. now apply name_map.
    - shape. apply par_nested with (mf r); [now apply name_map|now apply has_parameter_map|].
      now apply completes_parameter_map.
    - shape. apply par_optional with (mf r); [now apply name_map|now apply has_optional_map].
    - shape. apply par_brace; [now apply name_map|]. intros n r Hn Hr.
      rewrite <- (lit_map (s_ "{")), <- map_app in Hn by (cbn; tauto).
      apply has_parameter_back in Hn as (n' & r' & Hn & <-). apply (proj1 (completes_parameter_map _)) in Hr.
      exact (H1 n' r' Hn Hr).
    - shape. apply par_paren; [now apply name_map|]. intros n r Hn.
      rewrite <- (lit_map (s_ "(")), <- map_app in Hn by (cbn; tauto).
      apply has_optional_back in Hn as (n' & r' & Hn & _). exact (H1 n' r' Hn).
    - shape. constructor. now apply name_map.
  Qed.
  Lemma optional_error_map s e : optional_error s e -> optional_error (mf s) (replace_error f e).
  Proof.
    intros [s' e' H|t H|r|t s' n r H H1 H2|t s' n r H H1|t r H|t r0 H H1|t r0 H H1].
    - rewrite replace_after. lits. constructor. apply broken_map; [exact within_optional|assumption].
    - shape. constructor. now apply opt_map.
    - shape. constructor.
    - shape. apply opt_nested with (mf r); [now apply opt_map|now apply has_optional_map|].
      now apply completes_optional_map.
    - shape. apply opt_parameter with (mf r); [now apply opt_map|now apply has_parameter_map].
    - shape. constructor. now apply opt_map.
    - shape. apply opt_paren; [now apply opt_map|]. intros n r Hn Hr.
      rewrite <- (lit_map (s_ "(")), <- map_app in Hn by (cbn; tauto).
      apply has_optional_back in Hn as (n' & r' & Hn & <-). apply (proj1 (completes_optional_map _)) in Hr.
      exact (H1 n' r' Hn Hr).
    - shape. apply opt_brace; [now apply opt_map|]. intros n r Hn.
      rewrite <- (lit_map (s_ "{")), <- map_app in Hn by (cbn; tauto).
      apply has_parameter_back in Hn as (n' & r' & Hn & _). exact (H1 n' r' Hn).
  Qed.
  Lemma branch_map b : branch b -> branch (mb b).
  Proof. intros [H1 H2]. split; [now destruct b|now apply items_map]. Qed.
  Lemma branches_map a : Forall branch a -> Forall branch (ma a).
  Proof. intros H. apply Forall_map. revert H. apply Forall_impl. exact branch_map. Qed.
  Lemma ends_in_text_map b : ends_in_text (mb b) -> ends_in_text b.
  Proof.
    intros (l & x & E & Hx). apply map_eq_app in E as (l' & q & -> & _ & E).
    destruct q as [|x' [|]]; [discriminate| |discriminate]. cbn [map] in E. injection E as <-.
    exists l', x'. split; [reflexivity|]. now apply (proj1 (is_text_map _)) in Hx.
  Qed.
  Lemma starts_with_in_map cs s : within cs -> starts_with_in cs s -> starts_with_in cs (mf s).
  Proof.
    intros Hcs (c & r & -> & H). exists (f c), (mf r). split; [reflexivity|]. now apply in_special.
  Qed.
  Lemma alternation_error_map s e : alternation_error s e -> alternation_error (mf s) (replace_error f e).
  Proof.
    intros [a b s' e' Ha Hb H1 H2|r|a b r Ha Hb Hr|a r Hl Ha Hr He].
    - rewrite replace_after. lits. rewrite <- slashed_map, <- src_branch_map. constructor.
      + now apply branches_map.
      + now apply items_map.
      + intros H. apply starts_with_in_map; [intros c; cbn; tauto|]. now apply H1, ends_in_text_map.
      + destruct H2 as [H2|H2]; [left; now apply optional_error_map|right].
        apply broken_map; [exact within_text|assumption].
    - shape. constructor.
    - shape. rewrite <- slashed_map, <- src_branch_map. constructor.
      + now apply branches_map.
      + now apply branch_map.
      + destruct Hr as [-> |Hr]; [now left|right]. apply starts_with_in_map; [intros c; cbn; tauto|assumption].
    - shape. rewrite <- alternation_map. constructor.
      + unfold map_alternation. now rewrite map_length.
      + now apply branches_map.
      + destruct Hr as [-> |Hr]; [now left|right]. apply starts_with_in_map; [intros c; cbn; tauto|assumption].
      + apply Exists_map. revert He. apply Exists_impl. intros b Hb. now rewrite has_text_map.
  Qed.
  Lemma expression_error_map s e : expression_error s e -> expression_error (mf s) (replace_error f e).
  Proof.
    intros [x s' e' H1 H2 H3 H4]. rewrite replace_after, map_app, <- source_map.
    destruct (nodes_map x (conj H1 H2)) as [H5 H6]. constructor; [assumption|assumption| |].
    - intros l y E. apply map_eq_app in E as (l' & q & E & _ & Eq).
      destruct q as [|y' [|]]; [discriminate| |discriminate]. cbn [map] in Eq. injection Eq as <-.
      specialize (H3 l' y' E).
      assert (Hs : starts_with_in (s_ "{") s' -> starts_with_in (s_ "{") (mf s'))
        by (apply starts_with_in_map; intros c; cbn; tauto).
      destruct y'; cbn [map_single]; auto.
    - destruct H4 as [H4|H4]; [left; now apply parameter_error_map|right; now apply alternation_error_map].
  Qed.
  Lemma rejected_replaced s er : addressable s -> expression_parse s = RetErr er ->
    exists e, er = locate_error 0 1 e /\
      expression_parse (mf s) = RetErr (locate_error 0 1 (replace_error f e)).
  Proof.
    intros Hs H. apply parse_err_iff in H as (e & H & ->); [|assumption]. exists e. split; [reflexivity|].
    apply parse_err_iff; [now apply addressable_map|]. exists (replace_error f e).
    split; [now apply expression_error_map|reflexivity].
  Qed.
End Rename.
Lemma accepted_iff_replaced f s : replaces_plain f -> addressable s ->
  (exists e, expression_parse (map f s) = RetOk e) <-> (exists e, expression_parse s = RetOk e).
Proof.
  intros Hf Hs. split; intros [e H].
  - destruct (parse_total s Hs) as [Ho|[er Hr]]; [assumption|].
    destruct (rejected_replaced f Hf s er Hs Hr) as (e' & _ & H'). congruence.
  - eexists. now apply accepted_replaced with (out := e).
Qed.
(** Upper case for ASCII letters. *)
Definition upper (c : char) : char := if (97 <=? c) && (c <=? 122) then c - 32 else c.
Lemma upper_replaces : replaces_plain upper.
Proof.
  split; intros c; unfold upper.
  - cbn. intros H. repeat (destruct H as [<-|H]; [reflexivity|]). easy.
  - intros H. destruct ((97 <=? c) && (c <=? 122)) eqn:E; [|assumption].
    apply Bool.andb_true_iff in E as [E1 E2]. apply N.leb_le in E1, E2. cbn. lia.
Qed.
