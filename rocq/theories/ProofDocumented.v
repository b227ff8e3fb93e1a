(** Which errors each parser can return. *)
From Verif Require Export SpecDocumented ProofExact.

Lemma kind_map {I J} (f : I -> J) e : kind_of (map_error f e) = kind_of e.
Proof. now destruct e. Qed.
Lemma broken_kind special s e : broken_text special s e ->
  In (kind_of e) [EscapedEndOfLine tt; EscapedNonReservedCharacter tt].
Proof. destruct 1; cbn; auto. Qed.
Lemma parameter_kind s e : parameter_error s e -> In (kind_of e) (EscapedEndOfLine tt :: documented_parameter).
Proof.
  destruct 1 as [s e H| | | | | |]; try (cbn; tauto). unfold after. rewrite kind_map. apply broken_kind in H. cbn in *. tauto.
Qed.
Lemma optional_kind s e : optional_error s e -> In (kind_of e) documented_optional.
Proof.
  destruct 1 as [s e H| | | | | | |]; try (cbn; tauto). unfold after. rewrite kind_map. apply broken_kind in H. cbn in *. tauto.
Qed.
Lemma item_kind s e : item_error s e -> In (kind_of e) documented_optional.
Proof. intros [H%optional_kind|H%broken_kind]; [exact H|]. cbn in *. tauto. Qed.
Lemma alternation_kind s e : alternation_error s e -> In (kind_of e) documented_alternation.
Proof.
  destruct 1 as [a b s e _ _ _ H| | |]; try (cbn; tauto). unfold after. rewrite kind_map. apply item_kind in H. apply in_or_app. auto.
Qed.
Lemma single_kind s e : single_error s e -> In (kind_of e) documented_expression.
Proof.
  unfold documented_expression. intros [H%parameter_kind|H%alternation_kind]; rewrite !in_app_iff; [|auto].
  destruct H as [<-|H]; [|auto]. right; left. cbn. auto 10.
Qed.
Lemma expression_kind s e : expression_error s e -> In (kind_of e) documented_expression.
Proof. destruct 1. unfold after. rewrite kind_map. eapply single_kind; eassumption. Qed.

Lemma parameter_kinds k :
  (exists o l s e ix, ix < usize_max /\ fst (parse_parameter (mkspan o l s) ix) = Bad (BFailure e) /\ kind_of e = k) <->
  In k (EscapedEndOfLine tt :: documented_parameter).
Proof.
  split.
  - intros (o & l & s & e & ix & Hx & H & <-).
    destruct (parse_parameter (mkspan o l s) ix) as [out ix'] eqn:E. cbn [fst] in H. subst out. apply parameter_exact in E; [|exact Hx].
    inversion E as [| |? er ? He Es Ei Eo]. unfold locate_error. rewrite kind_map. eapply parameter_kind, He.
  - intros H. assert (W : forall s, match fst (parse_parameter (mkspan 0 1 s) 0) with Bad (BFailure e) => kind_of e = k | _ => False end ->
      exists o l s e ix, ix < usize_max /\ fst (parse_parameter (mkspan o l s) ix) = Bad (BFailure e) /\ kind_of e = k).
    { intros s. destruct (fst (parse_parameter (mkspan 0 1 s) 0)) as [|[| e| | |]] eqn:E; try easy. intros Hk. exists 0, 1, s, e, 0. repeat split; assumption. }
    cbn [In documented_parameter] in H. destruct H as [<-|[<-|[<-|[<-|[<-|[<-|[]]]]]]].
    + apply (W (s_ "{\")). vm_compute. reflexivity.
    + apply (W (s_ "{\a}")). vm_compute. reflexivity.
    + apply (W (s_ "{{a}}")). vm_compute. reflexivity.
    + apply (W (s_ "{(a)}")). vm_compute. reflexivity.
    + apply (W (s_ "{/}")). vm_compute. reflexivity.
    + apply (W (s_ "{a")). vm_compute. reflexivity.
Qed.
Lemma optional_kinds k :
  (exists o l s e, parse_optional (mkspan o l s) = Bad (BFailure e) /\ kind_of e = k) <-> In k documented_optional.
Proof.
  split.
  - intros (o & l & s & e & H & <-).
    apply optional_exact in H. inversion H as [| |? er He Es Eo]. unfold locate_error. rewrite kind_map. eapply optional_kind, He.
  - intros H. assert (W : forall s, match parse_optional (mkspan 0 1 s) with Bad (BFailure e) => kind_of e = k | _ => False end ->
      exists o l s e, parse_optional (mkspan o l s) = Bad (BFailure e) /\ kind_of e = k).
    { intros s. destruct (parse_optional (mkspan 0 1 s)) as [|[| e| | |]] eqn:E; try easy. intros Hk. exists 0, 1, s, e. auto. }
    cbn [In documented_optional] in H. destruct H as [<-|[<-|[<-|[<-|[<-|[<-|[<-|[<-|[]]]]]]]]].
    + apply (W (s_ "(a/b)")). vm_compute. reflexivity.
    + apply (W (s_ "()")). vm_compute. reflexivity.
    + apply (W (s_ "(\")). vm_compute. reflexivity.
    + apply (W (s_ "(\a)")). vm_compute. reflexivity.
    + apply (W (s_ "(a(b)c)")). vm_compute. reflexivity.
    + apply (W (s_ "({b})")). vm_compute. reflexivity.
    + apply (W (s_ "(a(b)")). vm_compute. reflexivity.
    + apply (W (s_ "(a")). vm_compute. reflexivity.
Qed.
Lemma alternative_kinds k :
  (exists o l s e, parse_alternative (mkspan o l s) = Bad (BFailure e) /\ kind_of e = k) <-> In k documented_alternative.
Proof.
  split.
  - intros (o & l & s & e & H & <-).
    apply alternative_exact in H. inversion H as [| | |? er He Es Eo]. unfold locate_error. rewrite kind_map. eapply item_kind, He.
  - unfold documented_alternative. intros (o & l & s & e & H & <-)%optional_kinds. exists o, l, s, e. split; [|reflexivity].
    apply optional_exact in H. inversion H as [| |? er He Es Eo]. apply alternative_exact. constructor. now left.
Qed.
Lemma alternation_kinds k :
  (exists o l s e, parse_alternation (mkspan o l s) = Bad (BFailure e) /\ kind_of e = k) <-> In k documented_alternation.
Proof.
  split.
  - intros (o & l & s & e & H & <-).
    apply alternation_exact in H. inversion H as [| | |? er He Es Eo]. unfold locate_error. rewrite kind_map. eapply alternation_kind, He.
  - intros [H|H]%in_app_or.
    + apply optional_kinds in H as (o & l & s & e & H & <-). exists o, l, s, e. split; [|reflexivity].
      apply optional_exact in H. inversion H as [| |? er He Es Eo]. apply alternation_exact.
      assert (Ha : alternation_error s (after [] er)).
      { apply (alt_broken [] [] s er); [constructor|split; [constructor|]|intros (l0 & x & E & _); destruct l0; discriminate E|now left].
        intros l0 x y r E. destruct l0; discriminate E. }
      replace (after [] er) with er in Ha by (unfold after; destruct er as [[]|[]|[]|[]|[]|[]|[]|[]|[]|[]|[]|[]|[]|[] |]; reflexivity).
      now constructor.
    + assert (W : forall s, match parse_alternation (mkspan 0 1 s) with Bad (BFailure e) => kind_of e = k | _ => False end ->
        exists o l s e, parse_alternation (mkspan o l s) = Bad (BFailure e) /\ kind_of e = k).
      { intros s. destruct (parse_alternation (mkspan 0 1 s)) as [|[| e| | |]] eqn:E; try easy. intros Hk. exists 0, 1, s, e. auto. }
      destruct H as [<-|[<-|[]]].
      * apply (W (s_ "a/")). vm_compute. reflexivity.
      * apply (W (s_ "a/(b)")). vm_compute. reflexivity.
Qed.
Definition witnesses : list str := map s_ ["(a/b)"; "()"; "(\"; "(\a)"; "(a(b)c)"; "({b})"; "(a(b)"; "(a"; "a/"; "a/(b)"; "{{a}}"; "{(a)}"; "{a"]%string.
Lemma witnessed k : In k documented_expression -> exists s, In s witnesses /\
  match expression_parse s with RetErr e => kind_of e = k | _ => False end /\
  match parse_expression (mkspan 0 1 s) with Bad (BFailure e) => kind_of e = k | _ => False end /\
  match fst (parse_single_expression (mkspan 0 1 s) 0) with Bad (BFailure e) => kind_of e = k | _ => False end.
Proof.
  intros H. unfold documented_expression, documented_alternation, documented_optional, documented_parameter in H.
  cbn [In app] in H. unfold witnesses. cbn [map].
  decompose [or] H; try contradiction; subst k; clear H;
  first
    [ exists (s_ "(a/b)"); split; [now left|]; split; [|split]; vm_compute; reflexivity
    | exists (s_ "()"); split; [do 1 right; now left|]; split; [|split]; vm_compute; reflexivity
    | exists (s_ "(\"); split; [do 2 right; now left|]; split; [|split]; vm_compute; reflexivity
    | exists (s_ "(\a)"); split; [do 3 right; now left|]; split; [|split]; vm_compute; reflexivity
    | exists (s_ "(a(b)c)"); split; [do 4 right; now left|]; split; [|split]; vm_compute; reflexivity
    | exists (s_ "({b})"); split; [do 5 right; now left|]; split; [|split]; vm_compute; reflexivity
    | exists (s_ "(a(b)"); split; [do 6 right; now left|]; split; [|split]; vm_compute; reflexivity
    | exists (s_ "(a"); split; [do 7 right; now left|]; split; [|split]; vm_compute; reflexivity
    | exists (s_ "a/"); split; [do 8 right; now left|]; split; [|split]; vm_compute; reflexivity
    | exists (s_ "a/(b)"); split; [do 9 right; now left|]; split; [|split]; vm_compute; reflexivity
    | exists (s_ "{{a}}"); split; [do 10 right; now left|]; split; [|split]; vm_compute; reflexivity
    | exists (s_ "{(a)}"); split; [do 11 right; now left|]; split; [|split]; vm_compute; reflexivity
    | exists (s_ "{a"); split; [do 12 right; now left|]; split; [|split]; vm_compute; reflexivity ].
Qed.
Lemma single_kinds k :
  (exists o l s e ix, ix < usize_max /\ fst (parse_single_expression (mkspan o l s) ix) = Bad (BFailure e) /\ kind_of e = k) <->
  In k documented_expression.
Proof.
  split.
  - intros (o & l & s & e & ix & Hx & H & <-).
    destruct (parse_single_expression (mkspan o l s) ix) as [out ix'] eqn:E. cbn [fst] in H. subst out. apply single_exact in E; [|exact Hx].
    inversion E as [| | |? er ? He Es Ei Eo]. unfold locate_error. rewrite kind_map. eapply single_kind, He.
  - intros (s & _ & _ & _ & H)%witnessed. destruct (fst (parse_single_expression (mkspan 0 1 s) 0)) as [|[| e| | |]] eqn:E; try easy.
    exists 0, 1, s, e, 0. repeat split; assumption.
Qed.
Lemma expression_kinds k :
  (exists o l s e, addressable s /\ parse_expression (mkspan o l s) = Bad (BFailure e) /\ kind_of e = k) <-> In k documented_expression.
Proof.
  split.
  - intros (o & l & s & e & Hs & H & <-).
    apply expression_exact in H; [|exact Hs]. inversion H as [|? er He Es Eo]. unfold locate_error. rewrite kind_map. eapply expression_kind, He.
  - intros (s & Hi & _ & H & _)%witnessed. destruct (parse_expression (mkspan 0 1 s)) as [|[| e| | |]] eqn:E; try easy.
    exists 0, 1, s, e. split; [|auto]. unfold witnesses in Hi. cbn [map In] in Hi. decompose [or] Hi; try contradiction; subst s; vm_compute; discriminate.
Qed.
Lemma whole_kinds k :
  (exists s e, addressable s /\ expression_parse s = RetErr e /\ kind_of e = k) <-> In k documented_expression.
Proof.
  split.
  - intros (s & e & Hs & H & <-). unfold expression_parse in H. destruct (parse_expression (span_new s)) as [rest x|[| er| | |]] eqn:E; try discriminate H.
    + change (span_new s) with (mkspan 0 1 s) in E. apply expression_exact in E; [|exact Hs]. inversion E; subst. cbn in H. discriminate H.
    + change (span_new s) with (mkspan 0 1 s) in E. apply expression_exact in E; [|exact Hs]. inversion E.
    + injection H as <-. apply expression_kinds. exists 0, 1, s, er. auto.
    + change (span_new s) with (mkspan 0 1 s) in E. apply expression_exact in E; [|exact Hs]. inversion E.
  - intros (s & Hi & H & _)%witnessed. destruct (expression_parse s) as [|e| |] eqn:E; try easy.
    exists s, e. split; [|auto]. unfold witnesses in Hi. cbn [map In] in Hi. decompose [or] Hi; try contradiction; subst s; vm_compute; discriminate.
Qed.
Lemma undocumented : exists o l s e ix, ix < usize_max /\ fst (parse_parameter (mkspan o l s) ix) = Bad (BFailure e) /\
  ~ In (kind_of e) documented_parameter.
Proof.
  exists 0, 1, (s_ "{\"). eexists. exists 0. split; [vm_compute; reflexivity|]. split; [vm_compute; reflexivity|]. vm_compute. intuition discriminate.
Qed.
Lemma slash_undocumented : (exists s e, In (c_ "/") s /\ parse_alternation (mkspan 0 1 s) = Bad (BError e)) /\
  exists s e, ~ In (c_ "/") s /\ parse_alternation (mkspan 0 1 s) = Bad (BFailure e).
Proof.
  split.
  - exists (s_ "a b/c"). eexists. split; [vm_compute; auto 10|vm_compute; reflexivity].
  - exists (s_ "a(b"). eexists. split; [vm_compute; intuition discriminate|vm_compute; reflexivity].
Qed.
