(** Proof layer: consequences of the two characterisations, in the form of the properties. *)
From Verif Require Export ProofErrors SpecParse.

Lemma at_nil o l s : mkspan o l s = at_ o l [] s.
Proof. unfold at_, span_at; cbn; f_equal; lia. Qed.

(** ** [Expression::parse] *)
Lemma parse_ok_iff s out : addressable s ->
  expression_parse s = RetOk out <-> exists e, wf e /\ source e = s /\ out = locate 0 1 e.
Proof.
  intros Hs. unfold expression_parse. split.
  - destruct (parse_expression (span_new s)) as [rest x|b] eqn:E; [|now destruct b].
    apply parse_expression_iff in E as (e & Hw & Hsrc & -> & ->); [|exact Hs].
    cbn [input_len frag blen]. change (0 =? 0) with true. cbn iota. injection 1 as <-. eauto.
  - intros (e & Hw & Hsrc & ->).
    assert (E : parse_expression (span_new s)
       = Ok (mkspan (0 + blen s) (1 + newlines s) []) (locate 0 1 e)).
    { apply parse_expression_iff; [exact Hs|]. exists e. auto. }
    rewrite E. reflexivity.
Qed.
Lemma parse_err_iff s er : addressable s ->
  expression_parse s = RetErr er <-> exists e, expression_error s e /\ er = locate_error 0 1 e.
Proof.
  intros Hs. unfold expression_parse.
  rewrite <- (parse_expression_error_iff 0 1 s er Hs). fold (span_new s).
  destruct (parse_expression_total 0 1 s Hs) as [(rest & x & E)|(e & E)]; fold (span_new s) in E;
    rewrite E.
  - apply parse_expression_iff in E as (e & Hw & Hsrc & -> & ->); [|exact Hs].
    cbn [input_len frag blen]. change (0 =? 0) with true. cbn iota. split; easy.
  - split; intros H; [now injection H as ->|now injection H as ->].
Qed.
Lemma parse_total s : addressable s ->
  (exists e, expression_parse s = RetOk e) \/ (exists er, expression_parse s = RetErr er).
Proof.
  intros Hs. unfold expression_parse.
  destruct (parse_expression_total 0 1 s Hs) as [(rest & x & E)|(e & E)]; fold (span_new s) in E;
    rewrite E; [|eauto].
  destruct (input_len rest =? 0); eauto.
Qed.

(** ** The public parsers at any place *)
Lemma returns_lift {A B} o l (g : A -> B) c : returns (lift o l g c).
Proof. now destruct c. Qed.
Lemma parameter_returns i ix : ix < usize_max -> returns (fst (parse_parameter i ix)).
Proof.
  destruct i as [o l s]. intros H. rewrite at_nil, parse_parameter_at by assumption. apply returns_lift.
Qed.
Lemma optional_returns i : returns (parse_optional i).
Proof. destruct i as [o l s]. rewrite at_nil, parse_optional_at. apply returns_lift. Qed.
Lemma alternative_returns i : returns (parse_alternative i).
Proof. destruct i as [o l s]. rewrite at_nil, parse_alternative_at. apply returns_lift. Qed.
Lemma alternation_returns i : returns (parse_alternation i).
Proof. destruct i as [o l s]. rewrite at_nil, parse_alternation_at. apply returns_lift. Qed.
Lemma single_expression_returns i ix : ix < usize_max -> returns (fst (parse_single_expression i ix)).
Proof.
  destruct i as [o l s]. intros H. rewrite at_nil, parse_single_at by assumption. apply returns_lift.
Qed.
Lemma expression_returns i : addressable (frag i) -> returns (parse_expression i).
Proof.
  destruct i as [o l s]. cbn [frag]. intros H.
  destruct (parse_expression_total o l s H) as [(r & x & ->)|(e & ->)]; exact I.
Qed.

(** ** Places *)
Lemma join_cons sep x l : join sep (x :: l) = x ++ match l with [] => [] | _ => sep ++ join sep l end.
Proof. destruct l; cbn; [now rewrite app_nil_r|reflexivity]. Qed.
Lemma place_branch_in : forall b pre x, In x (map alternative_input (place_branch pre b)) ->
  exists post, pre ++ src_branch b = fst x ++ snd x ++ post.
Proof.
  induction b as [|a b IH]; intros pre x; [easy|].
  cbn [place_branch map In]. rewrite src_branch_cons. intros [<-|H].
  - destruct a as [[o]|t]; cbn.
    + exists (s_ ")" ++ src_branch b). now rewrite <- !app_assoc.
    + eauto.
  - apply IH in H as [post H]. rewrite <- app_assoc in H. eauto.
Qed.
Lemma place_alternation_in : forall a pre x,
  In x (map alternative_input (List.concat (place_alternation pre a))) ->
  exists post, pre ++ join (s_ "/") (map src_branch a) = fst x ++ snd x ++ post.
Proof.
  induction a as [|b a IH]; intros pre x; [easy|].
  cbn [place_alternation List.concat map]. rewrite map_app, in_app_iff, join_cons. intros [H|H].
  - apply place_branch_in in H as [post H].
    exists (post ++ match map src_branch a with
                    | [] => []
                    | _ => s_ "/" ++ join (s_ "/") (map src_branch a)
                    end).
    rewrite (app_assoc pre), H, <- !app_assoc. reflexivity.
  - destruct a as [|b1 a]; [easy|]. apply IH in H as [post H].
    rewrite <- !app_assoc in H. exists post. cbn [map] in *. rewrite <- H. reflexivity.
Qed.
Lemma place_single_in y pre x : In x (inputs_single (place_single pre y)) ->
  exists post, pre ++ src_single y = fst x ++ snd x ++ post.
Proof.
  destruct y as [a|[t]|[t i]|t|w]; cbn [place_single inputs_single opt_input par_input].
  - apply place_alternation_in.
  - intros [<-|[]]. exists (s_ ")"). cbn. now rewrite <- !app_assoc.
  - intros [<-|[]]. exists (s_ "}"). cbn. now rewrite <- !app_assoc.
  - intros [<-|[]]. exists []. cbn. now rewrite app_nil_r.
  - intros [<-|[]]. exists []. cbn. now rewrite app_nil_r.
Qed.
Lemma place_in : forall e pre x, In x (inputs (place pre e)) ->
  exists post, pre ++ source e = fst x ++ snd x ++ post.
Proof.
  induction e as [|y e IH]; intros pre x; [easy|].
  unfold inputs. cbn [place flat_map]. rewrite in_app_iff, source_cons. intros [H|H].
  - apply place_single_in in H as [post H]. exists (post ++ source e).
    rewrite app_assoc, H, <- !app_assoc. reflexivity.
  - apply IH in H as [post H]. exists post. now rewrite <- H, <- app_assoc.
Qed.
Lemma inputs_single_map {I J} (f : I -> J) x : inputs_single (map_single f x) = map f (inputs_single x).
Proof.
  destruct x as [a| | | |]; cbn; try reflexivity.
  unfold map_alternation. rewrite concat_map, map_map.
  induction a as [|b a IH]; cbn; [reflexivity|]. rewrite !map_app, IH. f_equal.
  rewrite !map_map. apply map_ext. now intros [|].
Qed.
Lemma inputs_map {I J} (f : I -> J) e : inputs (map_expression f e) = map f (inputs e).
Proof.
  unfold inputs, map_expression. induction e as [|x e IH]; [reflexivity|].
  cbn [map flat_map]. rewrite IH, inputs_single_map, map_app. reflexivity.
Qed.
Lemma locate_spans o l e : Forall (occurs_at o l (source e)) (inputs (locate o l e)).
Proof.
  apply Forall_forall. intros i Hi. unfold locate in Hi. rewrite inputs_map in Hi.
  apply in_map_iff in Hi as (x & <- & Hx). apply place_in in Hx as [post H].
  exists (fst x), post. cbn in H. auto.
Qed.

(** ** Forgetting the places *)
Lemma map_map_single {I J K} (g : J -> K) (f : I -> J) x :
  map_single g (map_single f x) = map_single (fun i => g (f i)) x.
Proof.
  destruct x as [a|[]|[]| |]; cbn; try reflexivity. f_equal. unfold map_alternation.
  rewrite map_map. apply map_ext. intros b. rewrite map_map. apply map_ext. now intros [[]|].
Qed.
Lemma map_map_expression {I J K} (g : J -> K) (f : I -> J) e :
  map_expression g (map_expression f e) = map_expression (fun i => g (f i)) e.
Proof. unfold map_expression. rewrite map_map. apply map_ext. intros x. apply map_map_single. Qed.
Lemma place_branch_forget : forall b pre, map (map_alternative snd) (place_branch pre b) = b.
Proof. induction b as [|[[]|] b IH]; intros pre; cbn; rewrite ?IH; reflexivity. Qed.
Lemma place_alternation_forget : forall a pre, map_alternation snd (place_alternation pre a) = a.
Proof.
  induction a as [|b a IH]; intros pre; cbn; [reflexivity|].
  rewrite place_branch_forget. unfold map_alternation in IH. now rewrite IH.
Qed.
Lemma place_forget : forall e pre, map_expression snd (place pre e) = e.
Proof.
  unfold map_expression. induction e as [|x e IH]; intros pre; [reflexivity|].
  cbn [place map]. rewrite IH. f_equal.
  destruct x as [a|[]|[]| |]; cbn; try reflexivity. now rewrite place_alternation_forget.
Qed.
Lemma locate_forget o l e : map_expression frag (locate o l e) = e.
Proof.
  unfold locate. rewrite map_map_expression. cbn. apply place_forget.
Qed.
Lemma ids_map {I J} (f : I -> J) e : ids (map_expression f e) = ids e.
Proof.
  unfold ids, map_expression. induction e as [|x e IH]; cbn; [reflexivity|].
  rewrite IH. now destruct x.
Qed.
Lemma ids_locate o l e : ids (locate o l e) = ids e.
Proof. rewrite <- (ids_map frag), locate_forget. reflexivity. Qed.

Lemma lossless s out : addressable s ->
  expression_parse s = RetOk out -> source (map_expression frag out) = s.
Proof.
  intros Hs H. apply parse_ok_iff in H as (e & Hw & Hsrc & ->); [|exact Hs].
  now rewrite locate_forget.
Qed.
Lemma spans_exact s out : addressable s ->
  expression_parse s = RetOk out -> Forall (occurs_at 0 1 s) (inputs out).
Proof.
  intros Hs H. apply parse_ok_iff in H as (e & Hw & <- & ->); [|exact Hs]. apply locate_spans.
Qed.
Lemma round_trip e : wf e -> addressable (source e) ->
  expression_parse (source e) = RetOk (locate 0 1 e).
Proof. intros Hw Hs. apply parse_ok_iff; eauto. Qed.
Lemma source_inj e1 e2 : wf e1 -> wf e2 -> source e1 = source e2 -> e1 = e2.
Proof.
  intros H1 H2 H. apply wf_iff in H1 as (H11 & H12 & H13). apply wf_iff in H2 as (H21 & H22 & H23).
  pose proof (proj2 (c_expr_ok_iff (S (List.length (source e1))) [] (source e1) 0 (place [] e1)
    (source e1) [] tt ltac:(lia))) as E1.
  pose proof (proj2 (c_expr_ok_iff (S (List.length (source e1))) [] (source e1) 0 (place [] e2)
    (source e1) [] tt ltac:(lia))) as E2.
  rewrite E1 in E2 by (exists e1; auto 10). clear E1.
  assert (E : (place [] e1, COk (source e1) [] tt) = (place [] e2, COk (source e1) [] tt))
    by (apply E2; exists e2; auto 10).
  injection E as E. rewrite <- (place_forget e1 []), <- (place_forget e2 []). now rewrite E.
Qed.
Lemma ids_count s out : addressable s ->
  expression_parse s = RetOk out -> ids out = count_from 0 (List.length (ids out)).
Proof.
  intros Hs H. apply parse_ok_iff in H as (e & Hw & <- & ->); [|exact Hs].
  rewrite ids_locate. apply Hw.
Qed.

(** ** Indexer *)
Lemma parameter_indexer i ix :
  match parse_parameter i ix with
  | (Ok _ p, ix') => par_id p = ix /\ ix' = ix + 1
  | (Bad _, ix') => ix' = ix
  end.
Proof.
  unfold parse_parameter. cbn [parameter_d].
  destruct (tag (s_ "{") i) as [i1 b|b]; [|reflexivity].
  destruct (escaped_reserved_chars0 (take_while is_name) i1) as [i2 n|b']; [|reflexivity].
  match goal with |- context [map_err ?p ?f i2] => destruct (map_err p f i2) as [i3 x|b'] end;
    [|reflexivity].
  destruct (usize_max <? ix + 1); [reflexivity|]. cbn [par_id]. lia.
Qed.
Lemma single_expression_indexer i ix :
  match parse_single_expression i ix with
  | (Ok _ (ExParameter p), ix') => par_id p = ix /\ ix' = ix + 1
  | (_, ix') => ix' = ix
  end.
Proof.
  unfold parse_single_expression, alt, pure. cbn [alt_from].
  unfold map_parser at 1. destruct (parse_alternation i) as [r a|[]]; try reflexivity.
  unfold map_parser at 1. destruct (parse_optional i) as [r a|[]]; try reflexivity.
  pose proof (parameter_indexer i ix) as H.
  destruct (parse_parameter i ix) as [[r p|[]] ix']; try exact H. subst ix'.
  unfold map_parser at 1. destruct (verify _ _ i) as [r a|[]]; try reflexivity.
  unfold map_parser at 1. destruct (take_while1 _ i) as [r a|[]]; reflexivity.
Qed.

(** ** Error spans *)
Lemma error_span_map {I J} (f : I -> J) e : error_span (map_error f e) = option_map f (error_span e).
Proof. now destruct e. Qed.
Lemma specific_map {I J} (f : I -> J) e : specific (map_error f e) <-> specific e.
Proof. now destruct e. Qed.

(** The error is specific, and its text is non-empty and is found in [s]. *)
Definition good_error (s : str) (e : error text_at) : Prop :=
  specific e /\ exists pre t post, error_span e = Some (pre, t) /\ t <> [] /\ s = pre ++ t ++ post.
Lemma good_after p s e : good_error s e -> good_error (p ++ s) (after p e).
Proof.
  intros [H1 (pre & t & post & H2 & H3 & ->)]. split; [now apply specific_map|].
  exists (p ++ pre), t, post. unfold after. rewrite error_span_map. unfold text_at, str in *. rewrite H2. cbn.
  now rewrite <- app_assoc.
Qed.
Lemma good_after' p r s e : good_error s e -> good_error (p ++ s ++ r) (after p e).
Proof.
  intros H. apply good_after. destruct H as [H1 (pre & t & post & H2 & H3 & ->)]. split; [assumption|].
  exists pre, t, (post ++ r). now rewrite <- !app_assoc.
Qed.
Lemma broken_good special s e : broken_text special s e -> good_error s e.
Proof.
  intros [|t Hn Ht|t c r Ht Hc]; (split; [exact I|]); cbn [error_span].
  - exists [], [backslash], []. easy.
  - exists [], (firstn 2 (t ++ [backslash])), (skipn 2 (t ++ [backslash])).
    split; [reflexivity|]. split; [now destruct t|]. cbn [app]. symmetry. apply firstn_skipn.
  - exists t, [backslash; c], r. easy.
Qed.
Lemma parameter_good s e : parameter_error s e -> good_error s e.
Proof.
  destruct 1 as [s e He|t Ht|t s n r Ht Hp Hc|t s n r Ht Hp|t r0 Ht Hno|t r0 Ht Hno|t r Ht].
  1: { apply good_after. now eapply broken_good; eauto. }
  1: { split; [exact I|]. now exists [], (s_ "{"), t. }
  1: { destruct Hp as [-> _]. split; [exact I|]. exists (s_ "{" ++ t), (s_ "{" ++ n ++ s_ "}"), r.
       split; [reflexivity|]. split; [easy|]. now rewrite <- !app_assoc. }
  1: { destruct Hp as [-> _]. split; [exact I|]. exists (s_ "{" ++ t), (s_ "(" ++ n ++ s_ ")"), r.
       split; [reflexivity|]. split; [easy|]. now rewrite <- !app_assoc. }
  all: split; [exact I|]; eexists _, _, _; split; [reflexivity|]; split; [easy|];
    rewrite <- !app_assoc; reflexivity.
Qed.
Lemma optional_good s e : optional_error s e -> good_error s e.
Proof.
  destruct 1 as [s e He|t Ht|r|t s n r Ht Hp Hc|t s n r Ht Hp|t r Ht|t r0 Ht Hno|t r0 Ht Hno].
  1: { apply good_after. now eapply broken_good; eauto. }
  1: { split; [exact I|]. now exists [], (s_ "("), t. }
  1: { split; [exact I|]. now exists [], (s_ "()"), r. }
  1: { destruct Hp as [-> _]. split; [exact I|]. exists (s_ "(" ++ t), (s_ "(" ++ n ++ s_ ")"), r.
       split; [reflexivity|]. split; [easy|]. now rewrite <- !app_assoc. }
  1: { destruct Hp as [-> _]. split; [exact I|]. exists (s_ "(" ++ t), (s_ "{" ++ n ++ s_ "}"), r.
       split; [reflexivity|]. split; [easy|]. now rewrite <- !app_assoc. }
  all: split; [exact I|]; eexists _, _, _; split; [reflexivity|]; split; [easy|];
    rewrite <- !app_assoc; reflexivity.
Qed.
Lemma item_good s e : item_error s e -> good_error s e.
Proof. intros [H|H]; [now apply optional_good|now eapply broken_good; eauto]. Qed.
Lemma src_branch_not_nil b : branch b -> src_branch b <> [].
Proof.
  intros [Hn [Hb _]]. destruct b as [|x b]; [easy|]. inversion Hb; subst. rewrite src_branch_cons.
  destruct x as [|t]; [easy|]. destruct H1 as [H1 _]. now destruct t.
Qed.
Lemma alternation_good s e : alternation_error s e -> good_error s e.
Proof.
  destruct 1 as [a b s e Ha Hb Hcut He|r|a b r Ha Hb Hr|a r Hl Ha Hr Ho].
  - rewrite app_assoc. apply good_after. now apply item_good.
  - split; [exact I|]. now exists [], (s_ "/"), r.
  - split; [exact I|]. exists (slashed a ++ src_branch b), (s_ "/"), r.
    split; [reflexivity|]. split; [easy|]. now rewrite <- !app_assoc.
  - split; [exact I|]. exists [], (join (s_ "/") (map src_branch a)), r.
    split; [reflexivity|]. split; [|reflexivity]. destruct a as [|b a]; [cbn in Hl; lia|].
    inversion Ha; subst. cbn [map]. rewrite join_cons. pose proof (src_branch_not_nil b H1).
    now destruct (src_branch b).
Qed.
Lemma single_good s e : single_error s e -> good_error s e.
Proof. intros [H|H]; [now apply parameter_good|now apply alternation_good]. Qed.
Lemma expression_good s e : expression_error s e -> good_error s e.
Proof. intros [x s' e' _ _ _ H]. now apply good_after, single_good. Qed.

Lemma errors_specific s er : addressable s -> expression_parse s = RetErr er -> specific er.
Proof.
  intros Hs H. apply parse_err_iff in H as (e & He & ->); [|exact Hs].
  apply expression_good in He as [He _]. now apply specific_map.
Qed.
Lemma error_occurs s er : addressable s -> expression_parse s = RetErr er ->
  exists i, error_span er = Some i /\ frag i <> [] /\ occurs_at 0 1 s i.
Proof.
  intros Hs H. apply parse_err_iff in H as (e & He & ->); [|exact Hs].
  apply expression_good in He as [_ (pre & t & post & H1 & H2 & H3)].
  unfold locate_error. rewrite error_span_map. unfold text_at, str in *. rewrite H1. eexists. split; [reflexivity|].
  split; [exact H2|]. exists pre, post. auto.
Qed.

(** ** The parsers one by one *)
Lemma parameter_ok_iff o l s ix rest p ix' : ix < usize_max ->
  parse_parameter (mkspan o l s) ix = (Ok rest p, ix') <->
  exists t r, content name_special t /\ s = s_ "{" ++ t ++ s_ "}" ++ r /\
    rest = span_at o l (s_ "{" ++ t ++ s_ "}", r) /\
    p = mkParameter (span_at o l (s_ "{", t)) ix /\ ix' = ix + 1.
Proof.
  intros Hix. rewrite at_nil, parse_parameter_at by assumption. split.
  - destruct (c_parameter [] s ix) as [q r a|e|e] eqn:E; cbn [lift]; [|easy..].
    apply c_parameter_ok_iff in E as (t & Ht & -> & -> & ->).
    injection 1 as <- <- <-. exists t, r. cbn. auto 10.
  - intros (t & r & Ht & -> & -> & -> & ->).
    rewrite (proj2 (c_parameter_ok_iff [] (s_ "{" ++ t ++ s_ "}" ++ r) ix
               (s_ "{" ++ t ++ s_ "}") r (mkParameter (s_ "{", t) ix))) by (exists t; auto).
    reflexivity.
Qed.
Lemma parameter_fail_iff o l s ix er ix' : ix < usize_max ->
  parse_parameter (mkspan o l s) ix = (Bad (BFailure er), ix') <->
  ix' = ix /\ exists e, parameter_error s e /\ er = locate_error o l e.
Proof.
  intros Hix. rewrite at_nil, parse_parameter_at by assumption.
  pose proof (c_parameter_fail_iff [] s ix) as HF. split.
  - destruct (c_parameter [] s ix) as [q r a|e|e] eqn:E; cbn [lift]; [easy..|].
    injection 1 as <- <-. split; [reflexivity|].
    destruct (proj1 (HF e) eq_refl) as (e' & He & ->). rewrite after_nil. eauto.
  - intros (-> & e & He & ->). rewrite (proj2 (HF e)) by (exists e; now rewrite after_nil).
    reflexivity.
Qed.
Lemma parameter_error_iff o l s ix : ix < usize_max ->
  (exists e ix', parse_parameter (mkspan o l s) ix = (Bad (BError e), ix'))
  <-> ~ (exists r, s = s_ "{" ++ r).
Proof.
  intros Hix. rewrite at_nil, parse_parameter_at by assumption.
  pose proof (c_parameter_err_iff [] s ix) as HE. transitivity (exists e, c_parameter [] s ix = CErr e).
  - destruct (c_parameter [] s ix) as [q r a|e|e] eqn:E; cbn [lift].
    + split; [now intros (e & ix' & H)|now intros [e H]].
    + split; eauto.
    + split; [now intros (e' & ix' & H)|now intros [e' H]].
  - rewrite HE. destruct s as [|c s]; [split; [now intros _ [r H]|easy]|]. split.
    + intros Hc [r H]. now injection H.
    + intros H ->. apply H. now exists s.
Qed.
Lemma optional_ok_iff o l s rest x :
  parse_optional (mkspan o l s) = Ok rest x <->
  exists t r, t <> [] /\ content optional_special t /\ s = s_ "(" ++ t ++ s_ ")" ++ r /\
    rest = span_at o l (s_ "(" ++ t ++ s_ ")", r) /\ x = mkOptional (span_at o l (s_ "(", t)).
Proof.
  rewrite at_nil, parse_optional_at. split.
  - destruct (c_optional [] s) as [q r a|e|e] eqn:E; cbn [lift]; [|easy..].
    apply c_optional_ok_iff in E as (t & [Hn Ht] & -> & -> & ->).
    injection 1 as <- <-. exists t, r. cbn. auto 10.
  - intros (t & r & Hn & Ht & -> & -> & ->).
    rewrite (proj2 (c_optional_ok_iff [] (s_ "(" ++ t ++ s_ ")" ++ r)
               (s_ "(" ++ t ++ s_ ")") r (mkOptional (s_ "(", t)))); [reflexivity|].
    exists t. repeat split; auto.
Qed.
Lemma optional_fail_iff o l s er :
  parse_optional (mkspan o l s) = Bad (BFailure er) <->
  exists e, optional_error s e /\ er = locate_error o l e.
Proof.
  rewrite at_nil, parse_optional_at. pose proof (c_optional_fail_iff [] s) as HF. split.
  - destruct (c_optional [] s) as [q r a|e|e] eqn:E; cbn [lift]; [easy..|].
    injection 1 as <-. destruct (proj1 (HF e) eq_refl) as (e' & He & ->). rewrite after_nil. eauto.
  - intros (e & He & ->). rewrite (proj2 (HF e)) by (exists e; now rewrite after_nil). reflexivity.
Qed.
Lemma optional_error_iff o l s :
  (exists e, parse_optional (mkspan o l s) = Bad (BError e)) <-> ~ (exists r, s = s_ "(" ++ r).
Proof.
  rewrite at_nil, parse_optional_at. pose proof (c_optional_err_iff [] s) as HE.
  transitivity (exists e, c_optional [] s = CErr e).
  - destruct (c_optional [] s) as [q r a|e|e] eqn:E; cbn [lift].
    + split; intros [e H]; easy.
    + split; eauto.
    + split; intros [e' H]; easy.
  - rewrite HE. destruct s as [|c s]; [split; [now intros _ [r H]|easy]|]. split.
    + intros Hc [r H]. now injection H.
    + intros H ->. apply H. now exists s.
Qed.
Lemma alternative_ok_iff o l s rest x :
  parse_alternative (mkspan o l s) = Ok rest x <->
  exists b r, wf_alternative b /\ s = src_alternative b ++ r /\ (is_text b -> ends text_special r) /\
    rest = span_at o l (src_alternative b, r) /\
    x = map_alternative (span_at o l) (place_alternative [] b).
Proof.
  rewrite at_nil, parse_alternative_at. split.
  - destruct (c_alternative [] s) as [q r a|e|e] eqn:E; cbn [lift]; [|easy..].
    apply c_alternative_ok_iff in E as (b & Hb & -> & Hr & -> & ->).
    injection 1 as <- <-. exists b, r. cbn. auto 10.
  - intros (b & r & Hb & -> & Hr & -> & ->).
    rewrite (proj2 (c_alternative_ok_iff [] (src_alternative b ++ r)
               (src_alternative b) r (place_alternative [] b))); [reflexivity|].
    exists b. auto 10.
Qed.
Lemma alternation_ok_iff o l s rest x :
  parse_alternation (mkspan o l s) = Ok rest x <->
  exists a r, wf_single (ExAlternation a) /\ s = src_single (ExAlternation a) ++ r /\ word_end r /\
    rest = span_at o l (src_single (ExAlternation a), r) /\
    x = map_alternation (span_at o l) (place_alternation [] a).
Proof.
  rewrite at_nil, parse_alternation_at. split.
  - destruct (c_alternation [] s) as [q r a|e|e] eqn:E; cbn [lift]; [|easy..].
    apply c_alternation_ok_iff in E as (b & Hb & -> & Hr & -> & ->).
    injection 1 as <- <-. exists b, r. cbn. auto 10.
  - intros (b & r & Hb & -> & Hr & -> & ->).
    rewrite (proj2 (c_alternation_ok_iff [] (src_single (ExAlternation b) ++ r)
               (src_single (ExAlternation b)) r (place_alternation [] b))); [reflexivity|].
    exists b. auto 10.
Qed.
Lemma alternation_fail_iff o l s er :
  parse_alternation (mkspan o l s) = Bad (BFailure er) <->
  exists e, alternation_error s e /\ er = locate_error o l e.
Proof.
  rewrite at_nil, parse_alternation_at. pose proof (c_alternation_fail_iff [] s) as HF. split.
  - destruct (c_alternation [] s) as [q r a|e|e] eqn:E; cbn [lift]; [easy..|].
    injection 1 as <-. destruct (proj1 (HF e) eq_refl) as (e' & He & ->). rewrite after_nil. eauto.
  - intros (e & He & ->). rewrite (proj2 (HF e)) by (exists e; now rewrite after_nil). reflexivity.
Qed.
Lemma alternation_error_iff o l s :
  (exists e, parse_alternation (mkspan o l s) = Bad (BError e)) <-> one_branch s.
Proof.
  rewrite at_nil, parse_alternation_at. rewrite <- (c_alternation_err_iff [] s).
  destruct (c_alternation [] s) as [q r a|e|e] eqn:E; cbn [lift].
  - split; intros [e H]; easy.
  - split; eauto.
  - split; intros [e' H]; easy.
Qed.
Lemma single_fail_iff o l s ix er ix' : ix < usize_max ->
  parse_single_expression (mkspan o l s) ix = (Bad (BFailure er), ix') <->
  ix' = ix /\ exists e, single_error s e /\ er = locate_error o l e.
Proof.
  intros Hix. rewrite at_nil, parse_single_at by assumption.
  pose proof (c_single_fail_iff [] s ix) as HF. split.
  - destruct (c_single [] s ix) as [q r a|e|e] eqn:E; cbn [lift]; [easy..|].
    injection 1 as <- <-. split; [reflexivity|].
    destruct (proj1 (HF e) eq_refl) as (e' & He & ->). rewrite after_nil. eauto.
  - intros (-> & e & He & ->). rewrite (proj2 (HF e)) by (exists e; now rewrite after_nil).
    reflexivity.
Qed.
Lemma single_error_iff o l s ix : ix < usize_max ->
  (exists e ix', parse_single_expression (mkspan o l s) ix = (Bad (BError e), ix')) <-> s = [].
Proof.
  intros Hix. rewrite at_nil, parse_single_at by assumption.
  rewrite <- (c_single_err_iff [] s ix).
  destruct (c_single [] s ix) as [q r a|e|e] eqn:E; cbn [lift].
  - split; [now intros (e & ix' & H)|now intros [e H]].
  - split; eauto.
  - split; [now intros (e' & ix' & H)|now intros [e' H]].
Qed.

(** ** Location independence *)
Lemma shift_span_at o l o' l' x : span_at (o + o') (l + l') x = shift_span o l (span_at o' l' x).
Proof. unfold span_at, shift_span; cbn. f_equal; lia. Qed.
Lemma map_map_error {I J K} (g : J -> K) (f : I -> J) e :
  map_error g (map_error f e) = map_error (fun i => g (f i)) e.
Proof. now destruct e. Qed.
Lemma map_error_ext {I J} (f g : I -> J) e : (forall i, f i = g i) -> map_error f e = map_error g e.
Proof. intros H. destruct e; cbn; f_equal; auto. Qed.
Lemma shift_error o l o' l' e :
  map_error (span_at (o + o') (l + l')) e = map_error (shift_span o l) (map_error (span_at o' l') e).
Proof. rewrite map_map_error. apply map_error_ext. intros i. apply shift_span_at. Qed.
Lemma shift_lift {A B} o l o' l' (g : N -> N -> A -> B) f c :
  (forall a, g (o + o') (l + l') a = f (g o' l' a)) ->
  lift (o + o') (l + l') (g (o + o') (l + l')) c = shift_result o l f (lift o' l' (g o' l') c).
Proof.
  intros H. destruct c as [q r a|e|e]; cbn [lift shift_result shift_bad].
  - unfold at_. now rewrite H, shift_span_at.
  - now rewrite <- shift_error.
  - now rewrite <- shift_error.
Qed.
Lemma map_single_ext {I J} (f g : I -> J) x : (forall i, f i = g i) -> map_single f x = map_single g x.
Proof.
  intros H. destruct x as [a|[]|[]| |]; cbn; rewrite ?H; unfold map_optional, map_parameter; cbn;
    rewrite ?H; auto.
  f_equal. apply map_ext. intros b. apply map_ext. intros [[]|]; cbn; unfold map_optional; cbn;
    now rewrite H.
Qed.
Lemma shift_single o l o' l' x :
  map_single (span_at (o + o') (l + l')) x
  = map_single (shift_span o l) (map_single (span_at o' l') x).
Proof. rewrite map_map_single. apply map_single_ext. intros i. apply shift_span_at. Qed.
Lemma shift_expression o l o' l' e :
  map_expression (span_at (o + o') (l + l')) e
  = map_expression (shift_span o l) (map_expression (span_at o' l') e).
Proof. unfold map_expression. rewrite map_map. apply map_ext. intros. apply shift_single. Qed.

Lemma at_shift o l i : shift_span o l i = at_ (o + off i) (l + line i) [] (frag i).
Proof. unfold shift_span. apply at_nil. Qed.
Lemma span_eta i : i = at_ (off i) (line i) [] (frag i).
Proof. rewrite <- at_nil. now destruct i. Qed.
Lemma parameter_shift o l i ix : ix < usize_max ->
  parse_parameter (shift_span o l i) ix
  = let '(r, ix') := parse_parameter i ix in
    (shift_result o l (map_parameter (shift_span o l)) r, ix').
Proof.
  intros H. destruct i as [o' l' s]. rewrite at_shift. cbn [off line frag].
  rewrite (at_nil o' l' s).
  rewrite (parse_parameter_at (o + o')), (parse_parameter_at o') by assumption.
  f_equal. apply (shift_lift o l o' l' (fun o l => map_parameter (span_at o l))).
  intros [x n]. unfold map_parameter. cbn. now rewrite shift_span_at.
Qed.
Lemma optional_shift o l i :
  parse_optional (shift_span o l i)
  = shift_result o l (map_optional (shift_span o l)) (parse_optional i).
Proof.
  destruct i as [o' l' s]. rewrite at_shift. cbn [off line frag].
  rewrite (at_nil o' l' s).
  rewrite (parse_optional_at (o + o')), (parse_optional_at o').
  apply (shift_lift o l o' l' (fun o l => map_optional (span_at o l))).
  intros [x]. unfold map_optional. cbn. now rewrite shift_span_at.
Qed.
Lemma shift_alternative o l o' l' x :
  map_alternative (span_at (o + o') (l + l')) x
  = map_alternative (shift_span o l) (map_alternative (span_at o' l') x).
Proof. destruct x as [[x]|x]; cbn; unfold map_optional; cbn; now rewrite shift_span_at. Qed.
Lemma alternative_shift o l i :
  parse_alternative (shift_span o l i)
  = shift_result o l (map_alternative (shift_span o l)) (parse_alternative i).
Proof.
  destruct i as [o' l' s]. rewrite at_shift. cbn [off line frag].
  rewrite (at_nil o' l' s).
  rewrite (parse_alternative_at (o + o')), (parse_alternative_at o').
  apply (shift_lift o l o' l' (fun o l => map_alternative (span_at o l))).
  intros x. apply shift_alternative.
Qed.
Lemma alternation_shift o l i :
  parse_alternation (shift_span o l i)
  = shift_result o l (map_alternation (shift_span o l)) (parse_alternation i).
Proof.
  destruct i as [o' l' s]. rewrite at_shift. cbn [off line frag].
  rewrite (at_nil o' l' s).
  rewrite (parse_alternation_at (o + o')), (parse_alternation_at o').
  apply (shift_lift o l o' l' (fun o l => map_alternation (span_at o l))).
  intros x. unfold map_alternation. rewrite map_map. apply map_ext. intros b. rewrite map_map.
  apply map_ext. intros y. apply shift_alternative.
Qed.
Lemma single_expression_shift o l i ix : ix < usize_max ->
  parse_single_expression (shift_span o l i) ix
  = let '(r, ix') := parse_single_expression i ix in
    (shift_result o l (map_single (shift_span o l)) r, ix').
Proof.
  intros H. destruct i as [o' l' s]. rewrite at_shift. cbn [off line frag].
  rewrite (at_nil o' l' s).
  rewrite (parse_single_at (o + o')), (parse_single_at o') by assumption.
  f_equal. apply (shift_lift o l o' l' (fun o l => map_single (span_at o l))).
  intros x. apply shift_single.
Qed.
Lemma expression_shift o l i : addressable (frag i) ->
  parse_expression (shift_span o l i)
  = shift_result o l (map_expression (shift_span o l)) (parse_expression i).
Proof.
  destruct i as [o' l' s]. cbn [frag]. intros Hs. unfold shift_span at 1. cbn [off line frag].
  destruct (parse_expression_total o' l' s Hs) as [(rest & x & E)|(e & E)]; rewrite E;
    cbn [shift_result].
  - apply parse_expression_iff in E as (e & Hw & Hsrc & -> & ->); [|exact Hs].
    apply parse_expression_iff; [exact Hs|]. exists e. split; [assumption|]. split; [assumption|].
    split; [symmetry; apply shift_expression|]. unfold shift_span. cbn. f_equal; lia.
  - apply parse_expression_error_iff in E as (e' & He & ->); [|exact Hs].
    apply parse_expression_error_iff; [exact Hs|]. exists e'. split; [assumption|].
    symmetry. apply shift_error.
Qed.
