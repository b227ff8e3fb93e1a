(** Expressions one after the other, for types of parameters that may look around. *)
From Verif Require Export SpecBlind ProofWords ProofParams2 ProofMatch.

Section In.
  (** The type of a parameter, by name. *)
  Context (type : str -> str -> str -> str -> list (option str) -> Prop).
  Notation mi := (means_in (fun t : str => t) (fun p => type (par_input p))).
  Notation mf := (means_in frag (fun p => type (frag (par_input p)))).
  Notation bm := (branch_means (fun t : str => t)).
  Lemma mi_nil {I} (text : I -> str) param pre s post v : means_in text param [] pre s post v <-> s = [] /\ v = [].
  Proof. split; [inversion 1; subst; auto|intros [-> ->]; constructor]. Qed.
  Lemma mi_cons {I} (text : I -> str) param x e pre s post v : means_in text param (x :: e) pre s post v <->
    exists s1 s2 v1 v2, s = s1 ++ s2 /\ v = v1 ++ v2 /\ single_means text (fun q s v => param q pre s (s2 ++ post) v) x s1 v1 /\
      means_in text param e (pre ++ s1) s2 post v2.
  Proof. split; [intros (s1 & t & v1 & w & H)%means_in_inv; exists s1, t, v1, w; exact H|]. intros (s1 & s2 & v1 & v2 & -> & -> & H1 & H2). now constructor. Qed.
  Lemma mi_app {I} (text : I -> str) param a b : forall pre s post v, means_in text param (a ++ b) pre s post v <->
    exists s1 s2 v1 v2, s = s1 ++ s2 /\ v = v1 ++ v2 /\ means_in text param a pre s1 (s2 ++ post) v1 /\ means_in text param b (pre ++ s1) s2 post v2.
  Proof.
    induction a as [|x a IH]; intros pre s post v; cbn [app].
    - split.
      + intros H. exists [], s, [], v. rewrite app_nil_r. repeat split; [constructor|exact H].
      + intros (s1 & s2 & v1 & v2 & -> & -> & [-> ->]%mi_nil & H). now rewrite app_nil_r in H.
    - rewrite mi_cons. split.
      + intros (s1 & s2 & v1 & v2 & -> & -> & H1 & (s3 & s4 & v3 & v4 & -> & -> & H3 & H4)%IH). exists (s1 ++ s3), s4, (v1 ++ v3), v4.
        rewrite <- !app_assoc in *. repeat (split; [reflexivity|]). split; [constructor; assumption|]. exact H4.
      + intros (s1 & s2 & v1 & v2 & -> & -> & (s3 & s4 & v3 & v4 & -> & -> & H3 & H4)%mi_cons & H2). exists s3, (s4 ++ s2), v3, (v4 ++ v2).
        rewrite <- !app_assoc in *. repeat (split; [reflexivity|]). split; [exact H3|]. apply IH. exists s4, s2, v4, v2. rewrite <- app_assoc. auto.
  Qed.
  Lemma single_map_in x pre post p v : single_means frag (fun p s v => type (frag (par_input p)) pre s post v) x p v <->
    single_means (fun t : str => t) (fun p s v => type (par_input p) pre s post v) (map_single frag x) p v.
  Proof.
    destruct x as [a|o|q|t|t]; cbn [map_single single_means]; try reflexivity.
    exact (single_map (fun _ => false) (fun _ => false) (ExAlternation a) p v).
  Qed.
  Lemma means_map_in e : forall pre s post v, mf e pre s post v <-> mi (map_expression frag e) pre s post v.
  Proof.
    induction e as [|x e IH]; intros pre s post v; unfold map_expression; cbn [map].
    - now rewrite !mi_nil.
    - rewrite !mi_cons. split; intros (s1 & s2 & v1 & v2 & -> & -> & H1 & H2); exists s1, s2, v1, v2;
        (split; [reflexivity|]; split; [reflexivity|]; split; [now apply single_map_in|now apply IH]).
  Qed.
  Lemma ids_in k e : forall pre s post v, mi (add_ids k e) pre s post v <-> mi e pre s post v.
  Proof.
    induction e as [|x e IH]; intros pre s post v; [reflexivity|]. unfold add_ids. cbn [map]. rewrite !mi_cons.
    split; intros (s1 & s2 & v1 & v2 & -> & -> & H1 & H2); exists s1, s2, v1, v2;
      (split; [reflexivity|]; split; [reflexivity|]; split; [now destruct x|now apply IH]).
  Qed.
  (** Without parameters there is nothing to look around for. *)
  Lemma none_in e : parameters e = [] -> forall pre s post v, mi e pre s post v <->
    means (fun t : str => t) (fun p => typed (fun _ => false) (fun _ => false) (par_input p)) e s v.
  Proof.
    intros He pre s post v. rewrite <- (means_in_iff (fun t : str => t) (fun p => typed (fun _ => false) (fun _ => false) (par_input p)) e pre s post v).
    revert pre s v. induction e as [|x e IH]; intros pre s v; [now rewrite !mi_nil|]. rewrite !mi_cons.
    assert (He' : parameters e = []) by (destruct x; try exact He; discriminate He).
    split; intros (s1 & s2 & v1 & v2 & -> & -> & H1 & H2); exists s1, s2, v1, v2;
      (split; [reflexivity|]; split; [reflexivity|]; split; [destruct x; try exact H1; discriminate He|now apply IH]).
  Qed.
  Lemma joined_in w1 w2 : wf w1 -> wf w2 -> where_they_meet (fun x y => ~ touches x y) w1 w2 ->
    exists w, wf w /\ source w = source w1 ++ source w2 /\ forall pre s post v, mi w pre s post v <-> mi (w1 ++ w2) pre s post v.
  Proof.
    intros H1 H2 Ht. set (k := N.of_nat (List.length (ids w1))).
    assert (F : where_they_meet may_follow w1 w2 -> exists w, wf w /\ source w = source w1 ++ source w2 /\
      forall pre s post v, mi w pre s post v <-> mi (w1 ++ w2) pre s post v).
    { intros F. exists (w1 ++ add_ids k w2). split; [now apply wf_append|]. split; [now rewrite source_app, add_ids_source|].
      intros pre s post v. rewrite !mi_app.
      split; intros (s1 & s2 & v1 & v2 & -> & -> & A & B); exists s1, s2, v1, v2; repeat (split; [easy|]); now apply (ids_in k). }
    destruct w1 as [|x l] using rev_ind; [apply F; intros l x y r E; now destruct l|]. clear IHl.
    destruct w2 as [|y r]; [apply F; intros ? ? ? ? ? E; discriminate|]. specialize (Ht _ _ _ _ eq_refl eq_refl).
    assert (G : forall z, wf_single z -> longer x y -> longer x z -> src_single z = src_single x ++ src_single y ->
      unescape (src_single z) = unescape (src_single x) ++ unescape (src_single y) ->
      exists w, wf w /\ source w = source (l ++ [x]) ++ source (y :: r) /\
        forall pre s post v, mi w pre s post v <-> mi ((l ++ [x]) ++ y :: r) pre s post v).
    { intros z Hz Lxy Lxz Es Eu. exists (l ++ z :: add_ids k r).
      apply wf_linked in H1 as (A1 & A2 & A3). apply wf_linked in H2 as (B1 & B2 & B3).
      apply Forall_app in A1 as [A1 A1']. inversion_clear B1 as [|? ? B1' B1'']. apply linked_app in A2 as (A2 & _ & A2').
      assert (Ix : ids (l ++ [x]) = ids l) by (rewrite ids_app; destruct x; try (now rewrite app_nil_r); now destruct y).
      assert (Iy : ids (y :: r) = ids r) by (destruct y; try reflexivity; now destruct x).
      assert (Iz : forall q, ids (z :: q) = ids q) by (intros q; destruct z; try reflexivity; now destruct x).
      split; [|split].
      - apply wf_linked. split; [|split].
        + apply Forall_app. split; [assumption|]. constructor; [assumption|]. now apply add_ids_wf.
        + apply linked_app. split; [assumption|]. split.
          * cbn [linked] in *. destruct B2 as [B2 B2']. split; [|now apply add_ids_linked].
            destruct r as [|y' r]; [exact I|]. unfold add_ids. cbn [map].
            destruct x, y, z; try easy; destruct y'; easy.
          * intros l' a b r' E E'. injection E' as <- _. specialize (A2' l' a x [] E eq_refl). destruct x, z, a; easy.
        + rewrite ids_app, Iz, ids_add, app_length, map_length, count_from_app. subst k. rewrite Ix in A3 |- *. rewrite <- A3. f_equal.
          rewrite Iy in B3. rewrite B3 at 1. apply count_from_add.
      - rewrite source_app. rewrite source_app. change (source (z :: add_ids k r)) with (src_single z ++ source (add_ids k r)).
        change (source (y :: r)) with (src_single y ++ source r). rewrite add_ids_source, Es, <- !app_assoc. f_equal.
        change (source [x]) with (src_single x ++ []). now rewrite app_nil_r.
      - intros pre s post v. replace ((l ++ [x]) ++ y :: r) with (l ++ [x; y] ++ r) by now rewrite <- app_assoc.
        change (z :: add_ids k r) with ([z] ++ add_ids k r).
        assert (M : forall pre s post v, mi [z] pre s post v <-> mi [x; y] pre s post v).
        { intros pre' s' post' v'. rewrite !none_in by (destruct x, y, z; easy). etransitivity; [apply (means_single (fun t : str => t))|].
          etransitivity; [|symmetry; apply (means_cons (fun t : str => t))].
          assert (T : forall q s v, longer x q \/ q = x -> single_means (fun t : str => t) (fun p => typed (fun _ => false) (fun _ => false) (par_input p)) q s v
            <-> s = unescape (src_single q) /\ v = []).
          { intros q s0 v0 [Hq|Hq]; [destruct q, x; try easy; reflexivity|subst q]. destruct x; try easy; reflexivity. }
          split.
          - intros H. apply T in H as [-> ->]; [|now left]. exists (unescape (src_single x)), (unescape (src_single y)), [], [].
            rewrite Eu. repeat split; [apply T; [now right|auto]|]. apply (means_single (fun t : str => t)). apply T; [now left|auto].
          - intros (s1 & s2 & v1 & v2 & -> & -> & C1 & C2). apply T in C1 as [-> ->]; [|now right].
            apply (means_single (fun t : str => t)) in C2. apply T in C2 as [-> ->]; [|now left].
            apply T; [now left|]. now rewrite Eu. }
        rewrite !mi_app.
        split; intros (s1 & s2 & v1 & v2 & -> & -> & C1 & C2); exists s1, s2, v1, v2; (split; [reflexivity|]; split; [reflexivity|]; split; [assumption|]);
          apply mi_app in C2 as (s3 & s4 & v3 & v4 & -> & -> & C3 & C4);
          apply mi_app; exists s3, s4, v3, v4; (split; [reflexivity|]; split; [reflexivity|]; split; [now apply M|]);
          now apply (ids_in k). }
    assert (Hx : wf_single x) by (destruct H1 as [H1 _]; apply Forall_app in H1 as [_ H1]; now apply Forall_inv in H1).
    assert (Hy : wf_single y) by (destruct H2 as [H2 _]; now apply Forall_inv in H2).
    destruct (classic_longer x y) as [L|L].
    - destruct x as [| | |t|t], y as [| | |u|u]; try easy.
      + apply (G (ExText (t ++ u))); [now apply text_join|exact I|exact I|reflexivity|].
        destruct Hx as [_ Hx]. apply (unescape_content text_special); [cbn; auto 10|assumption].
      + destruct Hx as [Hx1 Hx2], Hy as [Hy1 Hy2].
        apply (G (ExWhitespaces (t ++ u))); [|exact I|exact I|reflexivity|].
        * split; [now destruct t|now apply Forall_app].
        * cbn [src_single]. clear -Hx2. induction Hx2 as [|c t -> _ IH]; [reflexivity|]. cbn [app unescape].
          destruct (N.eq_dec (c_ " ") (c_ "\")); [discriminate|]. now rewrite IH.
    - apply F. intros l' x' y' r' E E'. apply app_inj_tail in E as [_ <-]. injection E' as <- _.
      destruct x, y; try exact I; try (exfalso; apply L; exact I); now apply Ht.
  Qed.
  Lemma joined_words_in l wa wb r : wf (l ++ wa) -> wf (wb ++ r) -> Forall of_word wa -> Forall of_word wb ->
    (forall l' x, l = l' ++ [x] -> ~ of_word x) -> (forall x r', r = x :: r' -> ~ of_word x) ->
    exists w, wf w /\ source w = source (l ++ wa) ++ source (wb ++ r) /\ forall pre s post v, mi w pre s post v <->
      exists s1 s2 s3 v1 v3, s = s1 ++ s2 ++ s3 /\ v = v1 ++ v3 /\ mi l pre s1 (s2 ++ s3 ++ post) v1 /\
        (exists b, In b (word_branches (wa ++ wb)) /\ bm b s2) /\ mi r (pre ++ s1 ++ s2) s3 post v3.
  Proof.
    intros H1 H2 Fa Fb Ml Mr. set (k := N.of_nat (List.length (ids (l ++ wa)))).
    assert (Fw : Forall of_word (wa ++ wb)) by now apply Forall_app.
    destruct (wa ++ wb) as [|x0 w0] eqn:Ew.
    - apply app_eq_nil in Ew as [-> ->]. rewrite !app_nil_r in *. cbn [app] in *.
      destruct (joined_in l r H1 H2) as (w & Ww & Sw & M).
      { intros l' x y r' -> ->. specialize (Ml _ _ eq_refl). unfold of_word in Ml. destruct x, y; cbn in *; try tauto; exfalso; apply Ml; discriminate. }
      exists w. split; [assumption|]. split; [assumption|]. intros pre s post v. rewrite M, mi_app. split.
      + intros (s1 & s2 & v1 & v2 & -> & -> & A & B). exists s1, [], s2, v1, v2. cbn [app]. rewrite app_nil_r. repeat (split; [easy|]). split; [|easy].
        exists []. split; [now left|constructor].
      + intros (s1 & s2 & s3 & v1 & v3 & -> & -> & A & (b & Hb & B) & C). exists s1, s3, v1, v3.
        cbn in Hb. destruct Hb as [<- | []]. inversion B. subst. cbn [app] in *. rewrite app_nil_r in C. auto.
    - rewrite <- Ew in *. assert (Nw : wa ++ wb <> []) by (rewrite Ew; discriminate). clear Ew x0 w0.
      apply wf_linked in H1 as (A1 & A2 & A3). apply wf_linked in H2 as (B1 & B2 & B3).
      apply Forall_app in A1 as [A1 A1'], B1 as [B1' B1]. apply linked_app in A2 as (A2 & _ & _), B2 as (_ & B2 & _).
      assert (Ww : Forall wf_single (wa ++ wb)) by now apply Forall_app.
      pose proof (branches_good _ Ww Fw) as G. pose proof (branches_some _ Nw Ww Fw) as Nn. pose proof (as_nodes_word (word_branches (wa ++ wb))) as Wn.
      set (n := as_nodes (word_branches (wa ++ wb))) in *.
      assert (In0 : forall w : expression str, Forall of_word w -> ids w = []).
      { clear. induction 1 as [|x w Hx _ IH]; [reflexivity|]. unfold ids in *. cbn [flat_map]. rewrite IH. destruct x; try reflexivity. now destruct Hx. }
      exists (l ++ n ++ add_ids k r). split; [|split].
      + apply wf_linked. split; [|split].
        * apply Forall_app. split; [assumption|]. apply Forall_app. split; [now apply as_nodes_wf|now apply add_ids_wf].
        * apply linked_app. split; [assumption|]. split.
          -- apply linked_app. split; [apply as_nodes_linked, G|]. split; [now apply add_ids_linked|].
             intros n' x y r' En Er. rewrite En in Wn. apply Forall_app in Wn as [_ Wn]. apply Forall_inv in Wn.
             destruct r as [|z r]; [discriminate|]. injection Er as <- _. specialize (Mr _ _ eq_refl). unfold of_word in *.
             destruct x, z; cbn in *; try tauto; exfalso; apply Mr; discriminate.
          -- intros l' x y r' -> En. specialize (Ml _ _ eq_refl). destruct n as [|z n]; [easy|]. injection En as <- _.
             apply Forall_inv in Wn. unfold of_word in *. destruct x, z; cbn in *; try tauto; exfalso; apply Ml; discriminate.
        * rewrite ids_app in A3. rewrite (In0 _ Fa), app_nil_r in A3. rewrite ids_app in B3. rewrite (In0 _ Fb) in B3. cbn [app] in B3.
          rewrite !ids_app, (In0 _ Wn), ids_add. cbn [app]. rewrite app_length, map_length, count_from_app. subst k.
          rewrite ids_app, (In0 _ Fa), app_nil_r. rewrite <- A3. f_equal. rewrite B3 at 1. apply count_from_add.
      + rewrite !source_app, add_ids_source. unfold n. rewrite as_nodes_src by apply G. rewrite branches_src, source_app by assumption.
        now rewrite <- !app_assoc.
      + assert (Hp : parameters n = []).
        { unfold parameters. clear -Wn. induction Wn as [|x w Hx _ IH]; [reflexivity|]. cbn [flat_map]. rewrite IH. destruct x; try reflexivity. now destruct Hx. }
        intros pre s post v. rewrite mi_app. split.
        * intros (s1 & s' & v1 & v' & -> & -> & M1 & M'). apply mi_app in M' as (s2 & s3 & v2 & v3 & -> & -> & M2 & M3).
          apply (none_in n Hp) in M2. apply as_nodes_means in M2 as [M2 ->]; [|assumption]. apply ids_in in M3. exists s1, s2, s3, v1, v3.
          rewrite <- !app_assoc in *. split; [reflexivity|]. split; [reflexivity|]. split; [exact M1|]. split; [exact M2|exact M3].
        * intros (s1 & s2 & s3 & v1 & v3 & -> & -> & M1 & M2 & M3). exists s1, (s2 ++ s3), v1, v3. rewrite <- !app_assoc in *. repeat (split; [easy|]).
          apply mi_app. exists s2, s3, [], v3. rewrite <- !app_assoc. repeat (split; [easy|]). split.
          -- apply (none_in n Hp). apply as_nodes_means; auto.
          -- now apply ids_in.
  Qed.
  Lemma concat_words_in a b ea eb ec la wa wb rb : addressable (a ++ b) ->
    expression_parse a = RetOk ea -> expression_parse b = RetOk eb -> expression_parse (a ++ b) = RetOk ec ->
    ends_in_word ea la wa -> starts_with_word eb wb rb -> forall pre subject post v,
    mf ec pre subject post v <->
    exists s1 s2 s3 v1 v3, subject = s1 ++ s2 ++ s3 /\ v = v1 ++ v3 /\ mf la pre s1 (s2 ++ s3 ++ post) v1 /\
      (exists branch, In branch (word_branches (wa ++ wb)) /\ branch_means frag branch s2) /\ mf rb (pre ++ s1 ++ s2) s3 post v3.
  Proof.
    intros Hs Ha Hb Hc (-> & Fa & Ml) (-> & Fb & Mr) pre s post v. destruct (addressable_app _ _ Hs) as [Hsa Hsb].
    destruct (parsed_wf _ _ Hsa Ha) as [Wa Sa]. destruct (parsed_wf _ _ Hsb Hb) as [Wb Sb]. destruct (parsed_wf _ _ Hs Hc) as [Wc Sc].
    unfold map_expression in Wa, Sa, Wb, Sb. rewrite map_app in Wa, Sa, Wb, Sb.
    destruct (joined_words_in _ _ _ _ Wa Wb) as (w & Ww & Sw & M).
    { apply Forall_map. revert Fa. apply Forall_impl. intros x. now apply of_word_map. }
    { apply Forall_map. revert Fb. apply Forall_impl. intros x. now apply of_word_map. }
    { intros l' x E. apply map_eq_app in E as (l1 & l2 & -> & _ & E). destruct l2 as [|x' [|]]; try discriminate. injection E as <-.
      rewrite of_word_map. now apply (Ml l1). }
    { intros x r' E. destruct rb as [|x' rb]; [discriminate|]. injection E as <- _. rewrite of_word_map. now apply (Mr x' rb). }
    assert (E : map_expression frag ec = w).
    { assert (P : expression_parse (a ++ b) = RetOk (locate 0 1 w)).
      { apply parse_ok_iff; [assumption|]. exists w. rewrite Sw, Sa, Sb. auto. }
      rewrite P in Hc. injection Hc as <-. apply map_frag_locate. }
    rewrite means_map_in, E, M.
    rewrite <- map_app. change (map (map_single frag) (wa ++ wb)) with (map_expression frag (wa ++ wb)). rewrite word_branches_map.
    split; intros (s1 & s2 & s3 & v1 & v3 & -> & -> & C1 & (br & Hbr & C2) & C3); exists s1, s2, s3, v1, v3;
      (split; [reflexivity|]; split; [reflexivity|]; split; [now apply means_map_in|]; split; [|now apply means_map_in]).
    - apply in_map_iff in Hbr as (br' & <- & Hbr). exists br'. split; [assumption|now apply branch_map].
    - exists (map (map_alternative frag) br). split; [now apply (in_map (map (map_alternative frag)))|now apply branch_map].
  Qed.
  Lemma concat_meaning_in a b ea eb ec : addressable (a ++ b) ->
    expression_parse a = RetOk ea -> expression_parse b = RetOk eb -> expression_parse (a ++ b) = RetOk ec ->
    where_they_meet (fun x y => ~ touches x y) ea eb -> forall pre subject post v,
    mf ec pre subject post v <->
    exists s1 s2 v1 v2, subject = s1 ++ s2 /\ v = v1 ++ v2 /\ mf ea pre s1 (s2 ++ post) v1 /\ mf eb (pre ++ s1) s2 post v2.
  Proof.
    intros Hs Ha Hb Hc Ht pre s post v. destruct (addressable_app _ _ Hs) as [Hsa Hsb].
    destruct (parsed_wf _ _ Hsa Ha) as [Wa Sa]. destruct (parsed_wf _ _ Hsb Hb) as [Wb Sb]. destruct (parsed_wf _ _ Hs Hc) as [Wc Sc].
    destruct (joined_in _ _ Wa Wb) as (w & Ww & Sw & M).
    { intros l x y r E1 E2. unfold map_expression in *. apply map_eq_app in E1 as (l' & x' & -> & <- & Hx).
      destruct x' as [|x' [|]]; try discriminate. injection Hx as <-. destruct eb as [|y' eb]; [discriminate|].
      injection E2 as <- _. specialize (Ht _ _ _ _ eq_refl eq_refl). now destruct x', y'. }
    assert (E : map_expression frag ec = w).
    { assert (P : expression_parse (a ++ b) = RetOk (locate 0 1 w)).
      { apply parse_ok_iff; [assumption|]. exists w. rewrite Sw, Sa, Sb. auto. }
      rewrite P in Hc. injection Hc as <-. apply map_frag_locate. }
    rewrite means_map_in, E, M, mi_app.
    split; intros (s1 & s2 & v1 & v2 & -> & -> & C1 & C2); exists s1, s2, v1, v2; (split; [reflexivity|]; split; [reflexivity|]; split; now apply means_map_in).
  Qed.
End In.

(** ** Custom parameters *)
Section Custom.
  Context (digits spaces words : ranges) (get : provider span) (Hget : by_name get).
  Notation custom := (custom_type digits spaces words frag get).
  Definition type_named (n : str) : str -> str -> str -> list (option str) -> Prop :=
    custom_type digits spaces words (fun t : str => t) (fun n => get (mkspan 0 1 n)) (mkParameter n 0).
  Lemma custom_named p pre m post v : custom p pre m post v <-> type_named (frag (par_input p)) pre m post v.
  Proof. unfold type_named, custom_type. cbn [par_input]. now rewrite (Hget (par_input p) (mkspan 0 1 (frag (par_input p))) eq_refl). Qed.
  Lemma custom_in e : forall pre s post v, means_in frag custom e pre s post v <-> means_in frag (fun p => type_named (frag (par_input p))) e pre s post v.
  Proof.
    induction e as [|x e IH]; intros pre s post v; [now rewrite !mi_nil|]. rewrite !mi_cons.
    split; intros (s1 & s2 & v1 & v2 & -> & -> & H1 & H2); exists s1, s2, v1, v2;
      (split; [reflexivity|]; split; [reflexivity|]; split; [destruct x; try exact H1; now apply custom_named|now apply IH]).
  Qed.
  Lemma custom_concat a b ea eb ec : addressable (a ++ b) ->
    expression_parse a = RetOk ea -> expression_parse b = RetOk eb -> expression_parse (a ++ b) = RetOk ec ->
    where_they_meet (fun x y => ~ touches x y) ea eb -> forall pre subject post v,
    means_in frag custom ec pre subject post v <->
    exists s1 s2 v1 v2, subject = s1 ++ s2 /\ v = v1 ++ v2 /\ means_in frag custom ea pre s1 (s2 ++ post) v1 /\ means_in frag custom eb (pre ++ s1) s2 post v2.
  Proof.
    intros Hs Ha Hb Hc Ht pre subject post v. rewrite custom_in, (concat_meaning_in type_named a b ea eb ec Hs Ha Hb Hc Ht).
    split; intros (s1 & s2 & v1 & v2 & -> & -> & C1 & C2); exists s1, s2, v1, v2; (split; [reflexivity|]; split; [reflexivity|]; split; now apply custom_in).
  Qed.
  Lemma custom_words a b ea eb ec la wa wb rb : addressable (a ++ b) ->
    expression_parse a = RetOk ea -> expression_parse b = RetOk eb -> expression_parse (a ++ b) = RetOk ec ->
    ends_in_word ea la wa -> starts_with_word eb wb rb -> forall pre subject post v,
    means_in frag custom ec pre subject post v <->
    exists s1 s2 s3 v1 v3, subject = s1 ++ s2 ++ s3 /\ v = v1 ++ v3 /\ means_in frag custom la pre s1 (s2 ++ s3 ++ post) v1 /\
      (exists branch, In branch (word_branches (wa ++ wb)) /\ branch_means frag branch s2) /\ means_in frag custom rb (pre ++ s1 ++ s2) s3 post v3.
  Proof.
    intros Hs Ha Hb Hc Hl Hr pre subject post v. rewrite custom_in, (concat_words_in type_named a b ea eb ec la wa wb rb Hs Ha Hb Hc Hl Hr).
    split; intros (s1 & s2 & s3 & v1 & v3 & -> & -> & C1 & C2 & C3); exists s1, s2, s3, v1, v3;
      (split; [reflexivity|]; split; [reflexivity|]; split; [now apply custom_in|]; split; [exact C2|now apply custom_in]).
  Qed.
End Custom.

(** ** Matchers that do not look around *)
Lemma blind_rm digit space word :
  (forall r p m q c, Regex.rm digit space word r p m q c -> blind r -> forall p' q', Regex.rm digit space word r p' m q' c) /\
  (forall k r p m q c, Regex.rms digit space word k r p m q c -> blind r -> forall p' q', Regex.rms digit space word k r p' m q' c).
Proof.
  apply rm_rms_ind; cbn [blind]; intros; try contradiction; try (econstructor; eauto; fail).
  - match goal with H : _ /\ _ |- _ => destruct H end. constructor; auto.
  - match goal with H : _ /\ _ |- _ => destruct H end. constructor; auto.
  - match goal with H : _ /\ _ |- _ => destruct H end. constructor; auto.
Qed.
Section Blind.
  Context (digits spaces words : ranges) (Htab : tables_ok digits spaces words) (to_string : hir -> str) (Hshow : prints_meaning to_string)
    (get : provider span) (Hget : by_name get)
    (Hblind : forall i t, get i = Some t -> exists r, regex_new t = Done r /\ tame digits spaces words r /\ blind r).
  Notation custom := (custom_type digits spaces words frag get).
  Notation whole := (regex_with_parameters digits spaces words to_string get).
  Notation is_match := (Regex.is_match (in_ranges digits) (in_ranges spaces) (in_ranges words)).
  Lemma blind_in e : forall pre s post v pre' post', means_in frag custom e pre s post v -> means_in frag custom e pre' s post' v.
  Proof.
    induction e as [|x e IH]; intros pre s post v pre' post'; [now rewrite !mi_nil|]. rewrite !mi_cons.
    intros (s1 & s2 & v1 & v2 & -> & -> & H1 & H2). exists s1, s2, v1, v2. split; [reflexivity|]. split; [reflexivity|]. split; [|now apply IH with (1 := H2)].
    destruct x as [a|o|p|t|t]; try exact H1. cbn [single_means] in *. unfold custom_type in *. destruct (get (par_input p)) as [t|] eqn:E; [|exact H1].
    destruct (Hblind _ _ E) as (r & Hr & _ & Hb). destruct H1 as (r' & c & Hr' & Hc & ->). assert (r' = r) as -> by congruence.
    exists r, c. split; [exact Hr|]. split; [|reflexivity]. now apply (proj1 (blind_rm _ _ _)) with (1 := Hc).
  Qed.
  Lemma blind_match s e t r : expression_parse s = RetOk e -> whole s = XOk t r -> forall subject, Forall scalar subject ->
    is_match r subject <-> exists v, means_in frag custom e [] subject [] v.
  Proof.
    intros He Hr subject Hsub.
    assert (Hv : Forall (custom_valid frag get (tame digits spaces words)) (parameters e)).
    { pose proof (whole_ok_checked digits spaces words to_string get s e t r He Hr) as Hc. eapply Forall_impl; [|exact Hc]. intros p Hp.
      unfold custom_valid, custom_checked in *. destruct (get (par_input p)) as [u|] eqn:E; [|exact Hp]. destruct (Hblind _ _ E) as (r' & Hr' & Ht & _). eauto. }
    destruct (whole_means digits spaces words to_string get Htab Hshow s e He Hv) as (l & _ & _ & H). destruct (H t r Hr) as [_ Hm].
    split.
    - intros (p & m & q & c & -> & Hc). assert (Hs : Forall scalar m) by (apply Forall_app in Hsub as [_ Hsub]; now apply Forall_app in Hsub as [Hsub _]).
      apply Hm in Hc as (-> & -> & Hc); [|exact Hs]. exists c. cbn [app]. now rewrite app_nil_r.
    - intros (v & Hv'). exists [], subject, [], v. rewrite app_nil_r. split; [reflexivity|]. now apply Hm.
  Qed.
  Lemma blind_concat a b ea eb ta tb tc ra rb rc : addressable (a ++ b) ->
    expression_parse a = RetOk ea -> expression_parse b = RetOk eb -> where_they_meet (fun x y => ~ touches x y) ea eb ->
    whole a = XOk ta ra -> whole b = XOk tb rb -> whole (a ++ b) = XOk tc rc -> forall subject, Forall scalar subject ->
    is_match rc subject <-> exists s1 s2, subject = s1 ++ s2 /\ is_match ra s1 /\ is_match rb s2.
  Proof.
    intros Hs Ha Hb Ht Ra Rb Rc subject Hsub.
    assert (Hc : exists ec, expression_parse (a ++ b) = RetOk ec).
    { unfold regex_with_parameters, regex_by in Rc. destruct (expression_parse (a ++ b)) as [ec| | |]; try discriminate Rc. eauto. }
    destruct Hc as (ec & Hc). rewrite (blind_match _ _ _ _ Hc Rc subject Hsub). split.
    - intros (v & H). apply (custom_concat digits spaces words get Hget a b ea eb ec Hs Ha Hb Hc Ht) in H as (s1 & s2 & v1 & v2 & -> & -> & H1 & H2).
      apply Forall_app in Hsub as [Hs1 Hs2]. exists s1, s2. split; [reflexivity|]. split.
      + apply (blind_match _ _ _ _ Ha Ra s1 Hs1). exists v1. now apply blind_in with (1 := H1).
      + apply (blind_match _ _ _ _ Hb Rb s2 Hs2). exists v2. now apply blind_in with (1 := H2).
    - intros (s1 & s2 & -> & H1 & H2). apply Forall_app in Hsub as [Hs1 Hs2].
      apply (blind_match _ _ _ _ Ha Ra s1 Hs1) in H1 as (v1 & H1). apply (blind_match _ _ _ _ Hb Rb s2 Hs2) in H2 as (v2 & H2).
      exists (v1 ++ v2). apply (custom_concat digits spaces words get Hget a b ea eb ec Hs Ha Hb Hc Ht). exists s1, s2, v1, v2.
      split; [reflexivity|]. split; [reflexivity|]. split; [now apply blind_in with (1 := H1)|now apply blind_in with (1 := H2)].
  Qed.
End Blind.

(** ** A matcher that looks around *)
Definition looking_get (i : span) : option str := if str_eqb (frag i) (s_ "x") then Some (s_ "a$") else None.
Lemma looking_concat : forall digits spaces words, exists get a b ea eb ta tb tc ra rb rc subject,
  by_name get /\ (forall i t, get i = Some t -> exists r, regex_new t = Done r /\ tame digits spaces words r) /\ addressable (a ++ b) /\
  expression_parse a = RetOk ea /\ expression_parse b = RetOk eb /\ where_they_meet (fun x y => ~ touches x y) ea eb /\
  regex_with_parameters digits spaces words (show true) get a = XOk ta ra /\
  regex_with_parameters digits spaces words (show true) get b = XOk tb rb /\
  regex_with_parameters digits spaces words (show true) get (a ++ b) = XOk tc rc /\ Forall scalar subject /\
  let is_match := Regex.is_match (in_ranges digits) (in_ranges spaces) (in_ranges words) in
  ~ is_match rc subject /\ exists s1 s2, subject = s1 ++ s2 /\ is_match ra s1 /\ is_match rb s2.
Proof.
  intros digits spaces words. exists looking_get, (s_ "{x}"), (s_ "b"). do 8 eexists. exists (s_ "ab").
  split; [intros i j E; unfold looking_get; now rewrite E|]. split.
  { intros i t. unfold looking_get. destruct (str_eqb _ _); [|discriminate]. intros E. assert (t = s_ "a$") as -> by congruence.
    eexists. split; [vm_compute; reflexivity|]. cbn. tauto. }
  split; [vm_compute; discriminate|]. split; [vm_compute; reflexivity|]. split; [vm_compute; reflexivity|]. split.
  { intros l x y r E1 E2. destruct l as [|? [|? ?]]; [|discriminate E1|discriminate E1]. assert (Ex := f_equal (hd (ExText (mkspan 0 1 []))) E1). cbn [hd app] in Ex. subst x.
    cbn. tauto. }
  split; [vm_compute; reflexivity|]. split; [vm_compute; reflexivity|]. split; [vm_compute; reflexivity|].
  split; [repeat constructor; vm_compute; intuition discriminate|]. cbv zeta. split.
  - rewrite <- matches_iff. vm_compute. discriminate.
  - exists (s_ "a"), (s_ "b"). split; [reflexivity|]. split; apply matches_iff; vm_compute; reflexivity.
Qed.
