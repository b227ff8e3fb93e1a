(** Expressions one after the other. *)
From Verif Require Export ProofPrefix ProofUnique SpecConcat ProofExpand4.

Lemma concat_accepted a b : addressable (a ++ b) -> accepted a -> accepted b -> accepted (a ++ b).
Proof.
  intros Hs Ha Hb. destruct (addressable_app _ _ Hs) as [Hsa Hsb]. unfold accepted in *.
  apply accepted_iff_grammar in Ha; [|assumption]. apply accepted_iff_grammar in Hb; [|assumption].
  apply accepted_iff_grammar; [assumption|]. now apply star_concat.
Qed.

Lemma follow_iff {I} (f : I -> str) x y :
  may_follow (map_single f x) (map_single f y) <-> ~ touches x y /\ ~ same_text x y.
Proof. destruct x, y; cbn; tauto. Qed.
Lemma meet_map {I} (f : I -> str) a b : (forall l x y r, map_expression f a = l ++ [x] -> map_expression f b = y :: r -> may_follow x y) <->
  where_they_meet (fun x y => ~ touches x y /\ ~ same_text x y) a b.
Proof.
  split; intros H l x y r Ha Hb.
  - apply (follow_iff f). apply (H (map_expression f l) _ _ (map_expression f r)); subst; unfold map_expression; [now rewrite map_app|reflexivity].
  - unfold map_expression in *. apply map_eq_app in Ha as (l' & x' & -> & <- & Hx).
    destruct x' as [|x' [|]]; try discriminate. injection Hx as <-. destruct b as [|y' b]; [discriminate|].
    injection Hb as <- _. apply follow_iff. now apply (H l' x' y' b).
Qed.
Lemma map_frag_locate o l e : map_expression frag (locate o l e) = e.
Proof.
  unfold locate, map_expression. rewrite map_map. erewrite map_ext; [apply (map_place e [])|]. intros x. rewrite map_single_map. reflexivity.
Qed.
Lemma frag_shift o l (e : expression span) : map_expression frag (map_expression (shift_span o l) e) = map_expression frag e.
Proof. unfold map_expression. rewrite map_map. apply map_ext. intros x. rewrite map_single_map. reflexivity. Qed.
Lemma source_app_inv e1 e2 : source (e1 ++ e2) = source e1 ++ source e2.
Proof. unfold source. now rewrite map_app, concat_app. Qed.

Lemma concat_nodes a b ea eb : addressable (a ++ b) -> expression_parse a = RetOk ea -> expression_parse b = RetOk eb ->
  expression_parse (a ++ b) = RetOk (one_after_the_other a ea eb) <->
  where_they_meet (fun x y => ~ touches x y /\ ~ same_text x y) ea eb.
Proof.
  intros Hs Ha Hb. destruct (addressable_app _ _ Hs) as [Hsa Hsb].
  rewrite <- (meet_map frag).
  apply parse_ok_iff in Ha as (wa & Hwa & <- & ->); [|assumption]. apply parse_ok_iff in Hb as (wb & Hwb & <- & ->); [|assumption].
  rewrite !map_frag_locate. split.
  - intros H. destruct (parsed_wf _ _ Hs H) as [[_ [Hf _]] _]. unfold one_after_the_other in Hf.
    intros l x y r -> ->. unfold map_expression in Hf at 1. rewrite map_app in Hf. fold (map_expression (I:=span) frag) in Hf.
    fold (map_expression frag (locate 0 1 (l ++ [x]))) in Hf. rewrite map_frag_locate in Hf.
    fold (map_expression frag (add_ids (N.of_nat (Datatypes.length (ids (locate 0 1 (l ++ [x])))))
      (map_expression (shift_span (blen (source (l ++ [x]))) (newlines (source (l ++ [x])))) (locate 0 1 (y :: r))))) in Hf.
    rewrite add_ids_map, frag_shift, map_frag_locate in Hf. rewrite <- app_assoc in Hf.
    specialize (Hf _ _ _ _ eq_refl). now destruct x, y.
  - intros H. unfold one_after_the_other. rewrite ids_locate. now apply compose_general.
Qed.

(** ** Cutting between two nodes *)
Lemma app_split_length {A} (a b c d : list A) : List.length a = List.length c -> a ++ b = c ++ d -> a = c /\ b = d.
Proof.
  revert c. induction a as [|x a IH]; intros [|y c] H E; cbn in *; try discriminate; [auto|].
  injection H as H. injection E as -> E. now destruct (IH c H E) as [-> ->].
Qed.
Lemma count_from_length n k : List.length (count_from n k) = k.
Proof. revert n. induction k as [|k IH]; intros n; cbn; [reflexivity|now rewrite IH]. Qed.
Definition sub_ids (k : N) (e : expression str) : expression str :=
  map (fun x => match x with ExParameter p => ExParameter (mkParameter (par_input p) (par_id p - k)) | _ => x end) e.
Lemma add_sub_ids k e : Forall (fun n => k <= n) (ids e) -> add_ids k (sub_ids k e) = e.
Proof.
  unfold add_ids, sub_ids. induction e as [|x e IH]; intros H; [reflexivity|]. cbn [map].
  destruct x as [a|o|p|t|t]; try (f_equal; now apply IH).
  change (ids (ExParameter p :: e)) with (par_id p :: ids e) in H. inversion_clear H as [|? ? H1 H2].
  rewrite IH by assumption. f_equal. destruct p as [i n]. cbn in *. f_equal. f_equal. lia.
Qed.
Lemma wf_unadd k e : Forall wf_single (add_ids k e) -> Forall wf_single e.
Proof.
  unfold add_ids. intros H. rewrite Forall_map in H. eapply Forall_impl; [|exact H]. now intros [].
Qed.
Lemma wf_parts e1 e2 : wf (e1 ++ e2) -> exists e2', wf e1 /\ wf e2' /\ e2 = add_ids (N.of_nat (List.length (ids e1))) e2'.
Proof.
  intros H. apply wf_linked in H as (H1 & H2 & H3). apply Forall_app in H1 as [H11 H12].
  apply linked_app in H2 as (H21 & H22 & _). rewrite ids_app, app_length, count_from_app in H3.
  apply app_split_length in H3 as [H31 H32]; [|now rewrite count_from_length].
  set (k := N.of_nat (List.length (ids e1))) in *.
  assert (E : add_ids k (sub_ids k e2) = e2).
  { apply add_sub_ids. rewrite H32. apply Forall_forall. intros n Hn. apply count_from_lower in Hn. lia. }
  exists (sub_ids k e2). split; [apply wf_linked; auto|]. split; [|now symmetry].
  rewrite <- E in H12, H22, H32. apply wf_linked. split; [now apply wf_unadd in H12|]. split; [now apply add_ids_linked in H22|].
  rewrite ids_add, map_length in H32. replace (0 + k) with (0 + k) in H32 by reflexivity.
  rewrite <- count_from_add in H32. revert H32. generalize (ids (sub_ids k e2)) as l. intros l.
  generalize (count_from 0 (List.length l)) as m. clear. induction l as [|x l IH]; intros [|y m] H; cbn in H; try discriminate; [reflexivity|].
  injection H as H1 H2. f_equal; [lia|now apply IH].
Qed.
Lemma locate_length o l e : List.length (locate o l e) = List.length e.
Proof. rewrite <- (map_frag_locate o l e) at 2. unfold map_expression. now rewrite map_length. Qed.
Lemma cut_nodes s x y : addressable s -> expression_parse s = RetOk (x ++ y) ->
  exists a b y', s = a ++ b /\ expression_parse a = RetOk x /\ expression_parse b = RetOk y' /\
    x ++ y = one_after_the_other a x y'.
Proof.
  intros Hs H. apply parse_ok_iff in H as (w & Hw & <- & E); [|assumption].
  assert (Ew : w = map_expression frag x ++ map_expression frag y).
  { rewrite <- (map_frag_locate 0 1 w), <- E. unfold map_expression. now rewrite map_app. }
  set (w1 := map_expression frag x) in *. set (w2 := map_expression frag y) in *.
  rewrite Ew in Hw, Hs, E. destruct (wf_parts _ _ Hw) as (w2' & H1 & H2 & E2).
  rewrite source_app in Hs. destruct (addressable_app _ _ Hs) as [Hs1 Hs2].
  rewrite locate_app in E. apply app_split_length in E as [Ex Ey].
  2: { rewrite locate_length. unfold w1, map_expression. now rewrite map_length. }
  exists (source w1), (source w2), (locate 0 1 w2'). split; [rewrite Ew; apply source_app|].
  split; [apply parse_ok_iff; [assumption|]; now exists w1|]. split.
  - apply parse_ok_iff; [assumption|]. exists w2'. rewrite E2 at 1. now rewrite add_ids_source.
  - unfold one_after_the_other. rewrite Ex, Ey, ids_locate. f_equal.
    rewrite E2 at 1. now rewrite add_ids_locate, add_ids_map.
Qed.

(** ** Meaning *)
Section Meaning.
  Context (digit space : char -> bool).
  Notation means_frag := (means frag (fun p => typed digit space (frag (par_input p)))).
  Notation means_str := (means (fun t : str => t) (fun p => typed digit space (par_input p))).
  Lemma branch_map (b : single_alternation span) p : branch_means frag b p <-> branch_means (fun t : str => t) (map (map_alternative frag) b) p.
  Proof.
    revert p. induction b as [|a b IH]; intros p; split; intros H; inversion H as [|? ? u v Hu Hv]; subst.
    - constructor.
    - constructor.
    - cbn [map]. constructor; [destruct a; exact Hu|now apply IH].
    - constructor; [destruct a; exact Hu|now apply IH].
  Qed.
  Lemma single_map x p v : single_means frag (fun p => typed digit space (frag (par_input p))) x p v <->
    single_means (fun t : str => t) (fun p => typed digit space (par_input p)) (map_single frag x) p v.
  Proof.
    destruct x as [a|o|q|t|t]; cbn [map_single single_means]; try reflexivity.
    unfold alternation_means, map_alternation. split; intros [[(b & Hb & H)|[Ha ->]] ->]; (split; [|reflexivity]).
    - left. exists (map (map_alternative frag) b). split; [now apply in_map with (f := map (map_alternative frag))|now apply branch_map].
    - right. now rewrite Ha.
    - left. apply in_map_iff in Hb as (b' & <- & Hb). exists b'. split; [assumption|now apply branch_map].
    - right. split; [|reflexivity]. now destruct a.
  Qed.
  Lemma means_map e s v : means_frag e s v <-> means_str (map_expression frag e) s v.
  Proof.
    revert s v. induction e as [|x e IH]; intros s v.
    - cbn [map_expression map]. etransitivity; [apply (means_nil frag)|symmetry; apply (means_nil (fun t : str => t))].
    - unfold map_expression. cbn [map]. etransitivity; [apply (means_cons frag)|].
      etransitivity; [|symmetry; apply (means_cons (fun t : str => t))].
      split; intros (s1 & s2 & v1 & v2 & -> & -> & H1 & H2); exists s1, s2, v1, v2;
        (split; [reflexivity|]; split; [reflexivity|]; split; [now apply single_map|now apply IH]).
  Qed.
  Lemma means_ids k e s v : means_str (add_ids k e) s v <-> means_str e s v.
  Proof.
    revert s v. induction e as [|x e IH]; intros s v; [reflexivity|]. unfold add_ids. cbn [map].
    etransitivity; [apply (means_cons (fun t : str => t))|]. etransitivity; [|symmetry; apply (means_cons (fun t : str => t))].
    split; intros (s1 & s2 & v1 & v2 & -> & -> & H1 & H2); exists s1, s2, v1, v2;
      (split; [reflexivity|]; split; [reflexivity|]; split; [now destruct x|now apply IH]).
  Qed.
  Lemma unescape_content special t u : In backslash special -> content special t -> unescape (t ++ u) = unescape t ++ unescape u.
  Proof.
    intros Hs. induction 1 as [|c t H _ IH|c t H _ IH]; [reflexivity| |].
    - cbn [app unescape]. destruct (N.eq_dec c (c_ "\")) as [->|_]; [contradiction|]. now rewrite IH.
    - cbn [app unescape]. destruct (N.eq_dec backslash (c_ "\")); [|easy]. now rewrite IH.
  Qed.
  (** What follows something also follows the same thing made longer. *)
  Definition longer (x y : single_expression str) : Prop :=
    match x, y with ExText _, ExText _ | ExWhitespaces _, ExWhitespaces _ => True | _, _ => False end.
  Lemma classic_longer x y : longer x y \/ ~ longer x y.
  Proof. destruct x, y; cbn; tauto. Qed.
  Lemma joined w1 w2 : wf w1 -> wf w2 -> where_they_meet (fun x y => ~ touches x y) w1 w2 ->
    exists w, wf w /\ source w = source w1 ++ source w2 /\ forall s v, means_str w s v <-> means_str (w1 ++ w2) s v.
  Proof.
    intros H1 H2 Ht. set (k := N.of_nat (List.length (ids w1))).
    assert (F : where_they_meet may_follow w1 w2 -> exists w, wf w /\ source w = source w1 ++ source w2 /\
      forall s v, means_str w s v <-> means_str (w1 ++ w2) s v).
    { intros F. exists (w1 ++ add_ids k w2). split; [now apply wf_append|]. split; [now rewrite source_app, add_ids_source|].
      intros s v. etransitivity; [apply (means_app (fun t : str => t))|]. symmetry. etransitivity; [apply (means_app (fun t : str => t))|].
      split; intros (s1 & s2 & v1 & v2 & -> & -> & A & B); exists s1, s2, v1, v2; repeat (split; [easy|]); now apply (means_ids k). }
    destruct w1 as [|x l] using rev_ind; [apply F; intros l x y r E; now destruct l|]. clear IHl.
    destruct w2 as [|y r]; [apply F; intros ? ? ? ? ? E; discriminate|]. specialize (Ht _ _ _ _ eq_refl eq_refl).
    assert (G : forall z, wf_single z -> longer x y -> longer x z -> src_single z = src_single x ++ src_single y ->
      unescape (src_single z) = unescape (src_single x) ++ unescape (src_single y) ->
      exists w, wf w /\ source w = source (l ++ [x]) ++ source (y :: r) /\
        forall s v, means_str w s v <-> means_str ((l ++ [x]) ++ y :: r) s v).
    { intros z Hz Lxy Lxz Es Eu. exists (l ++ z :: add_ids k r).
      apply wf_linked in H1 as (A1 & A2 & A3). apply wf_linked in H2 as (B1 & B2 & B3).
      apply Forall_app in A1 as [A1 A1']. inversion_clear B1 as [|? ? B1' B1'']. apply linked_app in A2 as (A2 & _ & A2').
      assert (Ix : ids (l ++ [x]) = ids l) by (rewrite ids_app; destruct x; try (now rewrite app_nil_r); now destruct y).
      assert (Iy : ids (y :: r) = ids r) by (destruct y; try reflexivity; now destruct x).
      assert (Iz : forall q, ids (z :: q) = ids q) by (intros q; destruct z; try reflexivity; now destruct x).
      split; [|split].
      - apply wf_linked. split; [|split].
        + apply Forall_app. split; [assumption|]. constructor; [assumption|]. now apply add_ids_wf.
        + apply linked_app. split; [assumption|]. split.
          * cbn [linked] in *. destruct B2 as [B2 B2']. split; [|now apply add_ids_linked].
            destruct r as [|y' r]; [exact I|]. unfold add_ids. cbn [map].
            destruct x, y, z; try easy; destruct y'; easy.
          * intros l' a b r' E E'. injection E' as <- _. specialize (A2' l' a x [] E eq_refl). destruct x, z, a; easy.
        + rewrite ids_app, Iz, ids_add, app_length, map_length, count_from_app. subst k. rewrite Ix in A3 |- *. rewrite <- A3. f_equal.
          rewrite Iy in B3. rewrite B3 at 1. apply count_from_add.
      - rewrite source_app. rewrite source_app. change (source (z :: add_ids k r)) with (src_single z ++ source (add_ids k r)).
        change (source (y :: r)) with (src_single y ++ source r). rewrite add_ids_source, Es, <- !app_assoc. f_equal.
        change (source [x]) with (src_single x ++ []). now rewrite app_nil_r.
      - intros s v. replace ((l ++ [x]) ++ y :: r) with (l ++ [x; y] ++ r) by now rewrite <- app_assoc.
        change (z :: add_ids k r) with ([z] ++ add_ids k r).
        assert (M : forall s v, means_str [z] s v <-> means_str [x; y] s v).
        { intros s' v'. etransitivity; [apply (means_single (fun t : str => t))|].
          etransitivity; [|symmetry; apply (means_cons (fun t : str => t))].
          assert (T : forall q s v, longer x q \/ q = x -> single_means (fun t : str => t) (fun p => typed digit space (par_input p)) q s v
            <-> s = unescape (src_single q) /\ v = []).
          { intros q s0 v0 [Hq|Hq]; [destruct q, x; try easy; reflexivity|subst q]. destruct x; try easy; reflexivity. }
          split.
          - intros H. apply T in H as [-> ->]; [|now left]. exists (unescape (src_single x)), (unescape (src_single y)), [], [].
            rewrite Eu. repeat split; [apply T; [now right|auto]|]. apply (means_single (fun t : str => t)). apply T; [now left|auto].
          - intros (s1 & s2 & v1 & v2 & -> & -> & C1 & C2). apply T in C1 as [-> ->]; [|now right].
            apply (means_single (fun t : str => t)) in C2. apply T in C2 as [-> ->]; [|now left].
            apply T; [now left|]. now rewrite Eu. }
        etransitivity; [apply (means_app (fun t : str => t))|]. symmetry. etransitivity; [apply (means_app (fun t : str => t))|].
        split; intros (s1 & s2 & v1 & v2 & -> & -> & C1 & C2); exists s1, s2, v1, v2; (split; [reflexivity|]; split; [reflexivity|]; split; [assumption|]);
          apply (means_app (fun t : str => t)) in C2 as (s3 & s4 & v3 & v4 & -> & -> & C3 & C4);
          apply (means_app (fun t : str => t)); exists s3, s4, v3, v4; (split; [reflexivity|]; split; [reflexivity|]; split; [now apply M|]);
          now apply (means_ids k). }
    assert (Hx : wf_single x) by (destruct H1 as [H1 _]; apply Forall_app in H1 as [_ H1]; now apply Forall_inv in H1).
    assert (Hy : wf_single y) by (destruct H2 as [H2 _]; now apply Forall_inv in H2).
    destruct (classic_longer x y) as [L|L].
    - destruct x as [| | |t|t], y as [| | |u|u]; try easy.
      + apply (G (ExText (t ++ u))); [now apply text_join|exact I|exact I|reflexivity|].
        destruct Hx as [_ Hx]. apply (unescape_content text_special); [cbn; auto 10|assumption].
      + destruct Hx as [Hx1 Hx2], Hy as [Hy1 Hy2].
        apply (G (ExWhitespaces (t ++ u))); [|exact I|exact I|reflexivity|].
        * split; [now destruct t|now apply Forall_app].
        * cbn [src_single]. clear -Hx2. induction Hx2 as [|c t -> _ IH]; [reflexivity|]. cbn [app unescape].
          destruct (N.eq_dec (c_ " ") (c_ "\")); [discriminate|]. now rewrite IH.
    - apply F. intros l' x' y' r' E E'. apply app_inj_tail in E as [_ <-]. injection E' as <- _.
      destruct x, y; try exact I; try (exfalso; apply L; exact I); now apply Ht.
  Qed.
End Meaning.
Lemma concat_meaning a b ea eb ec : addressable (a ++ b) ->
  expression_parse a = RetOk ea -> expression_parse b = RetOk eb -> expression_parse (a ++ b) = RetOk ec ->
  where_they_meet (fun x y => ~ touches x y) ea eb -> forall digit space subject v,
  let means := means frag (fun p => typed digit space (frag (par_input p))) in
  means ec subject v <->
  exists s1 s2 v1 v2, subject = s1 ++ s2 /\ v = v1 ++ v2 /\ means ea s1 v1 /\ means eb s2 v2.
Proof.
  intros Hs Ha Hb Hc Ht digit space s v means0. destruct (addressable_app _ _ Hs) as [Hsa Hsb].
  destruct (parsed_wf _ _ Hsa Ha) as [Wa Sa]. destruct (parsed_wf _ _ Hsb Hb) as [Wb Sb]. destruct (parsed_wf _ _ Hs Hc) as [Wc Sc].
  destruct (joined digit space _ _ Wa Wb) as (w & Ww & Sw & M).
  { intros l x y r E1 E2. unfold map_expression in *. apply map_eq_app in E1 as (l' & x' & -> & <- & Hx).
    destruct x' as [|x' [|]]; try discriminate. injection Hx as <-. destruct eb as [|y' eb]; [discriminate|].
    injection E2 as <- _. specialize (Ht _ _ _ _ eq_refl eq_refl). now destruct x', y'. }
  assert (E : map_expression frag ec = w).
  { assert (P : expression_parse (a ++ b) = RetOk (locate 0 1 w)).
    { apply parse_ok_iff; [assumption|]. exists w. rewrite Sw, Sa, Sb. auto. }
    rewrite P in Hc. injection Hc as <-. apply map_frag_locate. }
  subst means0. etransitivity; [apply means_map|]. rewrite E. etransitivity; [apply M|]. etransitivity; [apply (means_app (fun t : str => t))|].
  split; intros (s1 & s2 & v1 & v2 & -> & -> & C1 & C2); exists s1, s2, v1, v2; (split; [reflexivity|]; split; [reflexivity|]; split; now apply means_map).
Qed.
Lemma concat_regex a b ea eb ta tb tc ra rb rc : addressable (a ++ b) ->
  expression_parse a = RetOk ea -> expression_parse b = RetOk eb -> where_they_meet (fun x y => ~ touches x y) ea eb ->
  expression_regex a = XOk ta ra -> expression_regex b = XOk tb rb -> expression_regex (a ++ b) = XOk tc rc ->
  forall digit space word subject, is_match digit space word rc subject <->
  exists s1 s2, subject = s1 ++ s2 /\ is_match digit space word ra s1 /\ is_match digit space word rb s2.
Proof.
  intros Hs Ha Hb Ht Ra Rb Rc digit space word s. destruct (addressable_app _ _ Hs) as [Hsa Hsb].
  destruct (concat_accepted a b Hs) as (ec & Hc); [now exists ea|now exists eb|].
  pose proof (regex_matches_meaning _ _ _ _ Hsa Ha Ra digit space word) as Ma.
  pose proof (regex_matches_meaning _ _ _ _ Hsb Hb Rb digit space word) as Mb.
  pose proof (concat_meaning a b ea eb ec Hs Ha Hb Hc Ht digit space s) as Mc. cbv zeta in Mc.
  etransitivity; [apply (regex_matches_meaning _ _ _ _ Hs Hc Rc digit space word)|]. split.
  - intros (v & H). apply Mc in H as (s1 & s2 & v1 & v2 & -> & -> & C1 & C2). exists s1, s2. split; [reflexivity|].
    split; [apply Ma; now exists v1|apply Mb; now exists v2].
  - intros (s1 & s2 & -> & C1 & C2). apply Ma in C1 as (v1 & C1). apply Mb in C2 as (v2 & C2). exists (v1 ++ v2). apply Mc.
    exists s1, s2, v1, v2. auto.
Qed.
Lemma concat_refuted : exists a b ta tb tc ra rb rc subject, addressable (a ++ b) /\
  expression_regex a = XOk ta ra /\ expression_regex b = XOk tb rb /\ expression_regex (a ++ b) = XOk tc rc /\
  forall digit space word, is_match digit space word rc subject /\
    ~ exists s1 s2, subject = s1 ++ s2 /\ is_match digit space word ra s1 /\ is_match digit space word rb s2.
Proof.
  exists (s_ "x"), (s_ "y/z").
  destruct (expression_regex (s_ "x")) as [ta ra| | | | | |] eqn:Ra; try (vm_compute in Ra; discriminate).
  destruct (expression_regex (s_ "y/z")) as [tb rb| | | | | |] eqn:Rb; try (vm_compute in Rb; discriminate).
  destruct (expression_regex (s_ "xy/z")) as [tc rc| | | | | |] eqn:Rc; try (vm_compute in Rc; discriminate).
  exists ta, tb, tc, ra, rb, rc, (s_ "z"). split; [easy|]. split; [reflexivity|]. split; [reflexivity|]. split; [exact Rc|].
  assert (Pa : expression_parse (s_ "x") = RetOk [ExText (mkspan 0 1 (s_ "x"))]) by (vm_compute; reflexivity).
  assert (Pc : expression_parse (s_ "xy/z") = RetOk [ExAlternation [[AltText (mkspan 0 1 (s_ "xy"))]; [AltText (mkspan 3 1 (s_ "z"))]]])
    by (vm_compute; reflexivity).
  intros digit space word. split.
  - apply (regex_matches_meaning (s_ "xy/z") _ _ _ ltac:(easy) Pc Rc). exists []. exists [(s_ "z", [])].
    split; [|split; reflexivity]. constructor; [|constructor]. split; [|reflexivity]. left.
    exists [AltText (mkspan 3 1 (s_ "z"))]. split; [cbn; auto|].
    change (s_ "z") with (s_ "z" ++ []) at 2. constructor; [reflexivity|constructor].
  - intros (s1 & s2 & E & H1 & _). apply (regex_matches_meaning (s_ "x") _ _ _ ltac:(easy) Pa Ra) in H1 as (v & l & Hl & -> & _).
    inversion Hl as [|? [p w] ? l' Hx Hn]; subst. inversion Hn; subst. destruct Hx as [-> _]. discriminate E.
Qed.
