(** What two expressions stand for where they meet. *)
From Verif Require Export SpecWords ProofConcat.

Section Words.
  Context (digit space : char -> bool).
  Notation means_str := (means (fun t : str => t) (fun p => typed digit space (par_input p))).
  Notation bm := (branch_means (fun t : str => t)).

  (** ** Joining the texts of a branch that touch *)
  Fixpoint tidy (b : single_alternation str) : single_alternation str :=
    match b with
    | [] => []
    | AltText t :: b' => match tidy b' with AltText u :: c => AltText (t ++ u) :: c | c => AltText t :: c end
    | AltOptional o :: b' => AltOptional o :: tidy b'
    end.
  Lemma tidy_nil b : tidy b = [] -> b = [].
  Proof. destruct b as [|[o|t] b]; cbn [tidy]; [easy|discriminate|]. destruct (tidy b) as [|[|] c]; discriminate. Qed.
  Lemma tidy_src b : src_branch (tidy b) = src_branch b.
  Proof.
    unfold src_branch. induction b as [|[o|t] b IH]; [reflexivity|cbn [tidy map List.concat]; now rewrite IH|].
    cbn [tidy map List.concat src_alternative]. rewrite <- IH. destruct (tidy b) as [|[o|u] c]; try reflexivity.
    cbn [map List.concat src_alternative]. now rewrite app_assoc.
  Qed.
  Lemma tidy_wf b : Forall wf_alternative b -> Forall wf_alternative (tidy b).
  Proof.
    induction 1 as [|a b Ha Hb IH]; [constructor|]. destruct a as [o|t]; cbn [tidy]; [now constructor|].
    destruct (tidy b) as [|[o|u] c]; try (now constructor). inversion_clear IH as [|? ? Hu Hc]. constructor; [|assumption].
    now apply text_join.
  Qed.
  Lemma tidy_linked b : linked (fun x y => ~ (is_text x /\ is_text y)) (tidy b).
  Proof.
    induction b as [|[o|t] b IH]; [exact I| |].
    - cbn [tidy linked]. split; [|assumption]. destruct (tidy b); cbn; tauto.
    - cbn [tidy]. destruct (tidy b) as [|[o|u] c] eqn:E; cbn [linked] in *.
      + tauto.
      + split; [cbn; tauto|assumption].
      + destruct IH as [H1 H2]. split; [|assumption]. destruct c; [exact I|]. cbn in *. tauto.
  Qed.
  Lemma tidy_text b : Exists is_text b -> Exists is_text (tidy b).
  Proof.
    induction b as [|[o|t] b IH]; intros H; cbn [tidy].
    - inversion H.
    - right. apply IH. inversion H as [? ? H'|]; [contradiction|assumption].
    - destruct (tidy b) as [|[o|u] c]; now left.
  Qed.
  Lemma tidy_means b : Forall wf_alternative b -> forall p, bm (tidy b) p <-> bm b p.
  Proof.
    induction 1 as [|a b Ha Hb IH]; intros p; [reflexivity|]. destruct a as [o|t]; cbn [tidy].
    - split; intros H; inversion_clear H as [|? ? u v Hu Hv]; constructor; try assumption; now apply IH.
    - assert (T : bm (AltText t :: tidy b) p <-> bm (AltText t :: b) p).
      { split; intros H; inversion_clear H as [|? ? u v Hu Hv]; constructor; try assumption; now apply IH. }
      rewrite <- T. clear T IH. pose proof (tidy_wf b Hb) as W. destruct (tidy b) as [|[o|u] c]; try reflexivity.
      assert (E : unescape (t ++ u) = unescape t ++ unescape u).
      { apply (unescape_content text_special); [vm_compute; tauto|apply Ha]. }
      split; intros H.
      + inversion_clear H as [|? ? x y Hx Hy]. cbn in Hx. subst x. rewrite E, <- app_assoc. constructor; [reflexivity|]. now constructor.
      + inversion_clear H as [|? ? x y Hx Hy]. inversion_clear Hy as [|? ? z y' Hz Hy']. cbn in Hx, Hz. subst x z.
        rewrite app_assoc, <- E. now constructor.
  Qed.

  (** ** Nodes of a word, given its branches *)
  Definition as_node (a : alternative str) : single_expression str :=
    match a with AltText t => ExText t | AltOptional o => ExOptional o end.
  Definition as_nodes (a : alternation str) : expression str :=
    match a with [b] => map as_node (tidy b) | _ => [ExAlternation (map tidy a)] end.
  Lemma node_src b : source (map as_node b) = src_branch b.
  Proof. unfold source, src_branch. rewrite map_map. f_equal. apply map_ext. now intros []. Qed.
  Lemma as_nodes_src a : a <> [] -> source (as_nodes a) = join (s_ "/") (map src_branch a).
  Proof.
    destruct a as [|b [|b' a]]; [easy| |]; intros _; cbn [as_nodes].
    - now rewrite node_src, tidy_src.
    - unfold source. cbn [map List.concat src_single]. rewrite app_nil_r.
      assert (E : forall a, map src_branch (map tidy a) = map src_branch a) by (intros c; rewrite map_map; apply map_ext, tidy_src).
      exact (f_equal (join (s_ "/")) (E (b :: b' :: a))).
  Qed.
  (** Branches of a word: well-formed alternatives; with more than one branch, each has a text. *)
  Definition good (a : alternation str) : Prop :=
    a <> [] /\ Forall (Forall wf_alternative) a /\ ((2 <= List.length a)%nat -> Forall (Exists is_text) a).
  Lemma as_nodes_wf a : good a -> Forall wf_single (as_nodes a).
  Proof.
    intros (H0 & H1 & H2). destruct a as [|b [|b' a]]; cbn [as_nodes].
    - easy.
    - apply Forall_inv, tidy_wf in H1. apply Forall_map. revert H1. apply Forall_impl. now intros [].
    - constructor; [|constructor]. cbn [wf_single]. rewrite map_length. split; [cbn; lia|].
      specialize (H2 ltac:(cbn; lia)). apply Forall_map. rewrite Forall_forall in *. intros x Hx. split; [now apply tidy_wf, H1|].
      split; [now apply tidy_text, H2|]. apply linked_iff, tidy_linked.
  Qed.
  Lemma as_nodes_linked a : a <> [] -> linked may_follow (as_nodes a).
  Proof.
    destruct a as [|b [|b' a]]; [easy| |]; intros _; cbn [as_nodes]; [|cbn; auto].
    pose proof (tidy_linked b) as H. induction (tidy b) as [|x c IH]; [exact I|]. cbn [map linked] in *. destruct H as [H1 H2].
    split; [|now apply IH]. destruct c as [|y c]; [exact I|]. cbn [map]. destruct x, y; cbn in *; tauto.
  Qed.
  Lemma as_nodes_ids a : ids (as_nodes a) = [].
  Proof. destruct a as [|b [|b' a]]; try reflexivity. cbn [as_nodes]. induction (tidy b) as [|[] c IH]; cbn; auto. Qed.
  Lemma as_nodes_word a : Forall of_word (as_nodes a).
  Proof.
    destruct a as [|b [|b' a]]; cbn [as_nodes]; try (constructor; [discriminate|constructor]).
    apply Forall_map. apply Forall_forall. intros [] _; discriminate.
  Qed.
  Lemma node_means b s v : means_str (map as_node b) s v <-> bm b s /\ v = [].
  Proof.
    revert s v. induction b as [|a b IH]; intros s v; cbn [map].
    - etransitivity; [apply (means_nil (fun t : str => t))|]. split; intros [H ->].
      + subst. split; [constructor|reflexivity].
      + inversion H. auto.
    - etransitivity; [apply (means_cons (fun t : str => t))|]. split.
      + intros (s1 & s2 & v1 & v2 & -> & -> & H1 & H2). apply IH in H2 as [H2 ->].
        destruct a; destruct H1 as [H1 ->]; (split; [now constructor|reflexivity]).
      + intros [H ->]. inversion_clear H as [|? ? p q Hp Hq]. exists p, q, [], []. repeat (split; [reflexivity|]).
        split; [destruct a; now split|]. now apply IH.
  Qed.
  Lemma as_nodes_means a : good a -> forall s v, means_str (as_nodes a) s v <-> (exists b, In b a /\ bm b s) /\ v = [].
  Proof.
    intros (H0 & H1 & _) s v. destruct a as [|b [|b' a]]; [easy| |]; cbn [as_nodes].
    - rewrite node_means. rewrite tidy_means by now apply Forall_inv in H1. split.
      + intros [H ->]. split; [|reflexivity]. exists b. split; [now left|assumption].
      + intros [(x & [<- | []] & H) ->]. auto.
    - etransitivity; [apply (means_single (fun t : str => t))|]. cbn [single_means]. unfold alternation_means.
      split.
      + intros [[(x & Hx & Hs)|[E _]] ->]; [|discriminate]. split; [|reflexivity]. apply in_map_iff in Hx as (y & <- & Hy).
        exists y. split; [assumption|]. revert Hs. apply tidy_means. rewrite Forall_forall in H1. now apply H1.
      + intros [(x & Hx & Hs) ->]. split; [|reflexivity]. left. exists (tidy x). split; [now apply in_map|].
        apply tidy_means; [|assumption]. rewrite Forall_forall in H1. now apply H1.
  Qed.

  (** ** The branches of a word *)
  Lemma go_on_cons {A} (x y : list A) a b : go_on (x :: y :: a) b = x :: go_on (y :: a) b.
  Proof. reflexivity. Qed.
  Lemma go_on_src a b : a <> [] -> b <> [] ->
    join (s_ "/") (map src_branch (go_on a b)) = join (s_ "/") (map src_branch a) ++ join (s_ "/") (map src_branch b).
  Proof.
    intros Ha Hb. induction a as [|x [|y a] IH]; [easy| |].
    - destruct b as [|z b]; [easy|]. cbn [go_on map]. unfold src_branch at 1. rewrite map_app, concat_app.
      fold (src_branch x) (src_branch z). destruct b; cbn [map join]; [reflexivity|]. now rewrite <- app_assoc.
    - rewrite go_on_cons. specialize (IH ltac:(discriminate)).
      assert (N : go_on (y :: a) b <> []) by (destruct a, b; discriminate).
      destruct (go_on (y :: a) b) as [|z c]; [easy|].
      change (join (s_ "/") (map src_branch (x :: z :: c))) with (src_branch x ++ s_ "/" ++ join (s_ "/") (map src_branch (z :: c))).
      change (join (s_ "/") (map src_branch (x :: y :: a))) with (src_branch x ++ s_ "/" ++ join (s_ "/") (map src_branch (y :: a))).
      rewrite IH, <- !app_assoc. reflexivity.
  Qed.
  Lemma go_on_length {A} (a b : list (list A)) : a <> [] -> b <> [] -> S (List.length (go_on a b)) = (List.length a + List.length b)%nat.
  Proof.
    intros Ha Hb. induction a as [|x [|y a] IH]; [easy| |].
    - destruct b as [|z b]; [easy|]. cbn. lia.
    - rewrite go_on_cons. cbn [List.length]. rewrite IH by discriminate. cbn [List.length]. lia.
  Qed.
  Lemma go_on_all {A} (P : list A -> Prop) a b : Forall P a -> Forall P b ->
    (forall x y, In x a -> In y b -> P (x ++ y)) -> Forall P (go_on a b).
  Proof.
    intros Ha Hb H. induction Ha as [|x a Hx Ha IH]; [assumption|]. destruct a as [|y a].
    - destruct b as [|z b]; cbn [go_on]; [auto|]. inversion_clear Hb. constructor; [|assumption]. apply H; now left.
    - rewrite go_on_cons. constructor; [assumption|]. apply IH. intros u v Hu Hv. apply H; [now right|assumption].
  Qed.
  Lemma go_on_good a b : good a -> good b -> good (go_on a b).
  Proof.
    intros (A1 & A2 & A3) (B1 & B2 & B3). split; [|split].
    - destruct a as [|x [|y a]]; [easy| |discriminate]. destruct b; [easy|discriminate].
    - apply go_on_all; auto. intros x y Hx Hy. rewrite Forall_forall in A2, B2. apply Forall_app. auto.
    - intros L. pose proof (go_on_length a b A1 B1) as E. clear A2 B2.
      destruct (Compare_dec.le_lt_dec 2 (List.length a)) as [La|La]; [|assert (Lb : (2 <= List.length b)%nat) by (unfold alternation, single_alternation, str, char in *; lia)].
      + specialize (A3 La). clear E L B1. revert A3 B3 A1. clear. intros A B N.
        induction A as [|x a Hx A IH]; [easy|]. destruct a as [|y a].
        * destruct b as [|z b]; [cbn; auto|]. cbn [go_on]. constructor; [apply Exists_app; now left|]. destruct b; [constructor|].
          specialize (B ltac:(cbn; lia)). now inversion B.
        * rewrite go_on_cons. constructor; [assumption|]. now apply IH.
      + specialize (B3 Lb). destruct a as [|x [|y a]]; [easy| |cbn in La; lia]. destruct b as [|z b]; [easy|].
        cbn [go_on]. inversion_clear B3. constructor; [apply Exists_app; now right|assumption].
  Qed.
  Lemma branches_cons (x : single_expression str) w b : node_branches x = Some b ->
    word_branches (x :: w) = go_on b (word_branches w).
  Proof. intros E. unfold word_branches. cbn [fold_right]. now rewrite E. Qed.
  Lemma node_good x b : wf_single x -> node_branches x = Some b -> good b.
  Proof.
    destruct x as [a|o|p|t|t]; intros H E; try discriminate; injection E as <-.
    - destruct H as [L F]. split; [now destruct a; cbn in L; try lia|]. split; [|intros _]; revert F; apply Forall_impl; intros y Hy; apply Hy.
    - repeat split; [discriminate|constructor; [constructor; [assumption|constructor]|constructor]|cbn; lia].
    - repeat split; [discriminate|constructor; [constructor; [assumption|constructor]|constructor]|cbn; lia].
  Qed.
  Lemma good_nil : good [[]].
  Proof. repeat split; [discriminate|repeat constructor|cbn; lia]. Qed.
  Lemma branches_good w : Forall wf_single w -> Forall of_word w -> good (word_branches w).
  Proof.
    induction 1 as [|x w Hx Hw IH]; intros F; [apply good_nil|]. inversion_clear F as [|? ? Fx Fw].
    destruct (node_branches x) as [b|] eqn:E; [|easy]. rewrite (branches_cons x w b E). apply go_on_good; [now apply (node_good x)|auto].
  Qed.
  Lemma branches_src w : Forall wf_single w -> Forall of_word w -> join (s_ "/") (map src_branch (word_branches w)) = source w.
  Proof.
    induction 1 as [|x w Hx Hw IH]; intros F; [reflexivity|]. inversion_clear F as [|? ? Fx Fw].
    destruct (node_branches x) as [b|] eqn:E; [|easy]. rewrite (branches_cons x w b E).
    rewrite go_on_src; [|apply (node_good x b Hx E)|now apply branches_good].
    rewrite IH by assumption. unfold source. cbn [map List.concat]. f_equal.
    destruct x; try discriminate; injection E as <-; cbn; now rewrite ?app_nil_r.
  Qed.
  Lemma branches_some w : w <> [] -> Forall wf_single w -> Forall of_word w -> as_nodes (word_branches w) <> [].
  Proof.
    intros N H F E. pose proof (branches_good w H F) as (G & _ & _). pose proof (as_nodes_src _ G) as S. rewrite E, branches_src in S by assumption.
    destruct w as [|x w]; [easy|]. unfold source in S. cbn [map List.concat] in S. inversion_clear H as [|? ? Hx _].
    symmetry in S. apply app_eq_nil in S as [S _]. revert S. now apply wf_single_not_nil.
  Qed.

  (** ** The tree of two expressions one after the other *)
  Lemma joined_words l wa wb r : wf (l ++ wa) -> wf (wb ++ r) -> Forall of_word wa -> Forall of_word wb ->
    (forall l' x, l = l' ++ [x] -> ~ of_word x) -> (forall x r', r = x :: r' -> ~ of_word x) ->
    exists w, wf w /\ source w = source (l ++ wa) ++ source (wb ++ r) /\ forall s v, means_str w s v <->
      exists s1 s2 s3 v1 v3, s = s1 ++ s2 ++ s3 /\ v = v1 ++ v3 /\ means_str l s1 v1 /\
        (exists b, In b (word_branches (wa ++ wb)) /\ bm b s2) /\ means_str r s3 v3.
  Proof.
    intros H1 H2 Fa Fb Ml Mr. set (k := N.of_nat (List.length (ids (l ++ wa)))).
    assert (Fw : Forall of_word (wa ++ wb)) by now apply Forall_app.
    destruct (wa ++ wb) as [|x0 w0] eqn:Ew.
    - apply app_eq_nil in Ew as [-> ->]. rewrite !app_nil_r in *. cbn [app] in *.
      destruct (joined digit space l r H1 H2) as (w & Ww & Sw & M).
      { intros l' x y r' -> ->. specialize (Ml _ _ eq_refl). unfold of_word in Ml. destruct x, y; cbn in *; try tauto; exfalso; apply Ml; discriminate. }
      exists w. split; [assumption|]. split; [assumption|]. intros s v. rewrite M.
      etransitivity; [apply (means_app (fun t : str => t))|]. split.
      + intros (s1 & s2 & v1 & v2 & -> & -> & A & B). exists s1, [], s2, v1, v2. repeat (split; [easy|]). split; [|easy].
        exists []. split; [now left|constructor].
      + intros (s1 & s2 & s3 & v1 & v3 & -> & -> & A & (b & Hb & B) & C). exists s1, s3, v1, v3.
        cbn in Hb. destruct Hb as [<- | []]. inversion B. subst. auto.
    - rewrite <- Ew in *. assert (Nw : wa ++ wb <> []) by (rewrite Ew; discriminate). clear Ew x0 w0.
      apply wf_linked in H1 as (A1 & A2 & A3). apply wf_linked in H2 as (B1 & B2 & B3).
      apply Forall_app in A1 as [A1 A1'], B1 as [B1' B1]. apply linked_app in A2 as (A2 & _ & _), B2 as (_ & B2 & _).
      assert (Ww : Forall wf_single (wa ++ wb)) by now apply Forall_app.
      pose proof (branches_good _ Ww Fw) as G. pose proof (branches_some _ Nw Ww Fw) as Nn. pose proof (as_nodes_word (word_branches (wa ++ wb))) as Wn.
      set (n := as_nodes (word_branches (wa ++ wb))) in *.
      assert (In0 : forall w : expression str, Forall of_word w -> ids w = []).
      { clear. induction 1 as [|x w Hx _ IH]; [reflexivity|]. unfold ids in *. cbn [flat_map]. rewrite IH. destruct x; try reflexivity. now destruct Hx. }
      exists (l ++ n ++ add_ids k r). split; [|split].
      + apply wf_linked. split; [|split].
        * apply Forall_app. split; [assumption|]. apply Forall_app. split; [now apply as_nodes_wf|now apply add_ids_wf].
        * apply linked_app. split; [assumption|]. split.
          -- apply linked_app. split; [apply as_nodes_linked, G|]. split; [now apply add_ids_linked|].
             intros n' x y r' En Er. rewrite En in Wn. apply Forall_app in Wn as [_ Wn]. apply Forall_inv in Wn.
             destruct r as [|z r]; [discriminate|]. injection Er as <- _. specialize (Mr _ _ eq_refl). unfold of_word in *.
             destruct x, z; cbn in *; try tauto; exfalso; apply Mr; discriminate.
          -- intros l' x y r' -> En. specialize (Ml _ _ eq_refl). destruct n as [|z n]; [easy|]. injection En as <- _.
             apply Forall_inv in Wn. unfold of_word in *. destruct x, z; cbn in *; try tauto; exfalso; apply Ml; discriminate.
        * rewrite ids_app in A3. rewrite (In0 _ Fa), app_nil_r in A3. rewrite ids_app in B3. rewrite (In0 _ Fb) in B3. cbn [app] in B3.
          rewrite !ids_app, (In0 _ Wn), ids_add. cbn [app]. rewrite app_length, map_length, count_from_app. subst k.
          rewrite ids_app, (In0 _ Fa), app_nil_r. rewrite <- A3. f_equal. rewrite B3 at 1. apply count_from_add.
      + rewrite !source_app, add_ids_source. unfold n. rewrite as_nodes_src by apply G. rewrite branches_src, source_app by assumption.
        now rewrite <- !app_assoc.
      + intros s v. etransitivity; [apply (means_app (fun t : str => t))|]. split.
        * intros (s1 & s' & v1 & v' & -> & -> & M1 & M'). apply (means_app (fun t : str => t)) in M' as (s2 & s3 & v2 & v3 & -> & -> & M2 & M3).
          apply as_nodes_means in M2 as [M2 ->]; [|assumption]. apply (proj1 (means_ids digit space k r s3 v3)) in M3. exists s1, s2, s3, v1, v3. split; [reflexivity|]. split; [reflexivity|]. split; [exact M1|]. split; [exact M2|exact M3].
        * intros (s1 & s2 & s3 & v1 & v3 & -> & -> & M1 & M2 & M3). exists s1, (s2 ++ s3), v1, v3. repeat (split; [easy|]).
          apply (means_app (fun t : str => t)). exists s2, s3, [], v3. repeat (split; [easy|]). split.
          -- apply as_nodes_means; auto.
          -- now apply means_ids.
  Qed.
End Words.

Lemma node_branches_map {I J} (f : I -> J) x : node_branches (map_single f x) = option_map (map_alternation f) (node_branches x).
Proof. now destruct x. Qed.
Lemma of_word_map {I J} (f : I -> J) x : of_word (map_single f x) <-> of_word x.
Proof. unfold of_word. destruct x; cbn; split; congruence. Qed.
Lemma go_on_map {A B} (f : A -> B) a b : map (map f) (go_on a b) = go_on (map (map f) a) (map (map f) b).
Proof.
  induction a as [|x [|y a] IH]; [reflexivity| |].
  - destruct b; cbn [go_on map]; [reflexivity|]. now rewrite map_app.
  - cbn [go_on map] in *. now rewrite IH.
Qed.
Lemma word_branches_map {I J} (f : I -> J) w : word_branches (map_expression f w) = map_alternation f (word_branches w).
Proof.
  unfold word_branches, map_expression. induction w as [|x w IH]; [reflexivity|]. cbn [map fold_right]. rewrite node_branches_map, IH.
  destruct (node_branches x); cbn [option_map]; [|reflexivity]. symmetry. apply go_on_map.
Qed.
Lemma concat_words a b ea eb ec la wa wb rb : addressable (a ++ b) ->
  expression_parse a = RetOk ea -> expression_parse b = RetOk eb -> expression_parse (a ++ b) = RetOk ec ->
  ends_in_word ea la wa -> starts_with_word eb wb rb -> forall digit space subject v,
  let means := means frag (fun p => typed digit space (frag (par_input p))) in
  means ec subject v <->
  exists s1 s2 s3 v1 v3, subject = s1 ++ s2 ++ s3 /\ v = v1 ++ v3 /\ means la s1 v1 /\
    (exists branch, In branch (word_branches (wa ++ wb)) /\ branch_means frag branch s2) /\ means rb s3 v3.
Proof.
  intros Hs Ha Hb Hc (-> & Fa & Ml) (-> & Fb & Mr) digit space s v means0. destruct (addressable_app _ _ Hs) as [Hsa Hsb].
  destruct (parsed_wf _ _ Hsa Ha) as [Wa Sa]. destruct (parsed_wf _ _ Hsb Hb) as [Wb Sb]. destruct (parsed_wf _ _ Hs Hc) as [Wc Sc].
  unfold map_expression in Wa, Sa, Wb, Sb. rewrite map_app in Wa, Sa, Wb, Sb.
  destruct (joined_words digit space _ _ _ _ Wa Wb) as (w & Ww & Sw & M).
  { apply Forall_map. revert Fa. apply Forall_impl. intros x. now apply of_word_map. }
  { apply Forall_map. revert Fb. apply Forall_impl. intros x. now apply of_word_map. }
  { intros l' x E. apply map_eq_app in E as (l1 & l2 & -> & _ & E). destruct l2 as [|x' [|]]; try discriminate. injection E as <-.
    rewrite of_word_map. now apply (Ml l1). }
  { intros x r' E. destruct rb as [|x' rb]; [discriminate|]. injection E as <- _. rewrite of_word_map. now apply (Mr x' rb). }
  assert (E : map_expression frag ec = w).
  { assert (P : expression_parse (a ++ b) = RetOk (locate 0 1 w)).
    { apply parse_ok_iff; [assumption|]. exists w. rewrite Sw, Sa, Sb. auto. }
    rewrite P in Hc. injection Hc as <-. apply map_frag_locate. }
  subst means0. etransitivity; [apply means_map|]. rewrite E. etransitivity; [apply M|].
  rewrite <- map_app. change (map (map_single frag) (wa ++ wb)) with (map_expression frag (wa ++ wb)). rewrite word_branches_map.
  split; intros (s1 & s2 & s3 & v1 & v3 & -> & -> & C1 & (br & Hbr & C2) & C3); exists s1, s2, s3, v1, v3;
    (split; [reflexivity|]; split; [reflexivity|]; split; [now apply means_map|]; split; [|now apply means_map]).
  - apply in_map_iff in Hbr as (br' & <- & Hbr). exists br'. split; [assumption|now apply branch_map].
  - exists (map (map_alternative frag) br). split; [now apply (in_map (map (map_alternative frag)))|now apply branch_map].
Qed.
(** Every expression ends in, and starts with, a word (which may have nothing in it). *)
Lemma word_dec {I} (x : single_expression I) : of_word x \/ ~ of_word x.
Proof. unfold of_word. destruct x; cbn; (left; discriminate) || (right; intros H; now apply H). Qed.
Lemma starts_word {I} (e : expression I) : exists w r, starts_with_word e w r.
Proof.
  induction e as [|x e (w & r & -> & H1 & H2)].
  - exists [], []. repeat split; [constructor|discriminate].
  - destruct (word_dec x).
    + exists (x :: w), r. repeat split; [now constructor|assumption].
    + exists [], (x :: w ++ r). repeat split; [constructor|]. intros ? ? E. now injection E as <- _.
Qed.
Lemma ends_word {I} (e : expression I) : exists l w, ends_in_word e l w.
Proof.
  induction e as [|x e (l & w & -> & H1 & H2)] using rev_ind.
  - exists [], []. repeat split; [constructor|]. intros l' x E. now destruct l'.
  - destruct (word_dec x).
    + exists l, (w ++ [x]). split; [now rewrite app_assoc|]. split; [apply Forall_app; split; [assumption|now constructor]|assumption].
    + exists ((l ++ w) ++ [x]), []. split; [now rewrite app_nil_r|]. split; [constructor|]. intros l' y E. now apply app_inj_tail in E as [_ <-].
Qed.
Lemma words_exist {I} (e : expression I) : (exists l w, ends_in_word e l w) /\ (exists w r, starts_with_word e w r).
Proof. split; [apply ends_word|apply starts_word]. Qed.
