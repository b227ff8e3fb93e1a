(** Proof layer: which error is reported when, and composition of expressions. *)
From Verif Require Export ProofParse.

(** ** Broken escapes *)
Definition about_escape {I} (e : error I) : Prop :=
  match e with EscapedNonReservedCharacter _ | EscapedEndOfLine _ => True | _ => False end.
Lemma broken_about special s e : broken_text special s e -> about_escape e.
Proof. now destruct 1. Qed.
Lemma after_about p e : about_escape (after p e) <-> about_escape e.
Proof. now destruct e. Qed.
Lemma parameter_about s e : parameter_error s e -> about_escape e ->
  exists s' e', s = s_ "{" ++ s' /\ e = after (s_ "{") e' /\ broken_text name_special s' e'.
Proof. destruct 1; try easy. intros _. eauto. Qed.
Lemma optional_about s e : optional_error s e -> about_escape e ->
  exists s' e', s = s_ "(" ++ s' /\ e = after (s_ "(") e' /\ broken_text optional_special s' e'.
Proof. destruct 1; try easy. intros _. eauto. Qed.

Lemma escape_error_iff s e : about_escape e ->
  expression_error s e <->
  exists pre special s' e', text_start pre special /\ s = pre ++ s' /\ broken_text special s' e' /\
                            e = after pre e'.
Proof.
  intros Ha. split.
  - intros H. destruct H as [x s e Hx Hf Hl [He|He]]; rewrite after_about in Ha.
    + apply parameter_about in He as (s' & e' & -> & -> & He); [|assumption].
      exists (source x ++ s_ "{"), name_special, s', e'. rewrite after_after, <- app_assoc.
      split; [constructor; split; assumption|]. auto.
    + assert (Hw : word_start x).
      { split; [split; assumption|]. intros l y Hy. specialize (Hl l y Hy).
        destruct y; try exact I; (apply alternation_error_head in He; apply He;
          destruct Hl as (c & r & -> & Hc); cbn in Hc; destruct Hc as [<-|[]]; cbn; tauto). }
      destruct He as [a b s e Hba Hb Hcut He|r|a b r Hba Hb Hr|a r Hlen Hba Hr Ho]; try easy.
      rewrite after_about in Ha. destruct He as [He|He].
      * apply optional_about in He as (s' & e' & -> & -> & He); [|assumption].
        exists (source x ++ slashed a ++ src_branch b ++ s_ "("), optional_special, s', e'.
        rewrite !after_after, <- !app_assoc. split; [now constructor|]. auto.
      * exists (source x ++ slashed a ++ src_branch b), text_special, s, e.
        rewrite !after_after, <- !app_assoc. split; [|auto].
        constructor; auto. intros Ht. eapply broken_not_ends; [exact He|].
        destruct (Hcut Ht) as (c & r & -> & Hc). cbn in Hc. destruct Hc as [<-|[]].
        split; [cbn; tauto|easy].
  - intros (pre & special & s' & e' & Hts & -> & He & ->).
    destruct Hts as [x [Hx Hf]|x a b [[Hx Hf] Hl] Hba Hb|x a b [[Hx Hf] Hl] Hba Hb Hn].
    + rewrite <- app_assoc, <- after_after. constructor; auto.
      * intros l y _. destruct y; try exact I; (eexists _, _; split; [reflexivity|cbn; tauto]).
      * left. now constructor.
    + rewrite <- !app_assoc, <- after_after. constructor; auto.
      * intros l y Hy. specialize (Hl l y Hy). now destruct y.
      * right. replace (after (slashed a ++ src_branch b ++ s_ "(") e')
          with (after (slashed a ++ src_branch b) (after (s_ "(") e'))
          by (rewrite after_after, <- app_assoc; reflexivity).
        apply (alt_broken a b (s_ "(" ++ s') (after (s_ "(") e')); auto.
        -- intros _. eexists _, _. split; [reflexivity|cbn; tauto].
        -- left. now constructor.
    + rewrite <- !app_assoc, <- after_after. constructor; auto.
      * intros l y Hy. specialize (Hl l y Hy). now destruct y.
      * right. constructor; auto; [easy|]. now right.
Qed.

Lemma locate_error_eol o l e i : EscapedEndOfLine i = locate_error o l e ->
  exists x, e = EscapedEndOfLine x /\ i = span_at o l x.
Proof. destruct e; cbn; try easy. injection 1 as ->. eauto. Qed.
Lemma locate_error_nonreserved o l e i : EscapedNonReservedCharacter i = locate_error o l e ->
  exists x, e = EscapedNonReservedCharacter x /\ i = span_at o l x.
Proof. destruct e; cbn; try easy. injection 1 as ->. eauto. Qed.

Lemma end_of_line_iff s i : addressable s ->
  expression_parse s = RetErr (EscapedEndOfLine i) <->
  exists pre special, text_start pre special /\ s = pre ++ [backslash] /\
    i = span_at 0 1 (pre, [backslash]).
Proof.
  intros Hs. rewrite parse_err_iff by assumption. split.
  - intros (e & He & Heq). apply locate_error_eol in Heq as (x & -> & ->).
    apply escape_error_iff in He as (pre & special & s' & e' & Hts & -> & He & Heq); [|exact I].
    exists pre, special. split; [assumption|]. destruct He; try easy.
    injection Heq as ->. rewrite app_nil_r. auto.
  - intros (pre & special & Hts & -> & ->). exists (EscapedEndOfLine (pre, [backslash])).
    split; [|reflexivity]. apply escape_error_iff; [exact I|].
    exists pre, special, [backslash], (EscapedEndOfLine ([], [backslash])).
    split; [assumption|]. split; [reflexivity|]. split; [constructor|]. cbn. now rewrite app_nil_r.
Qed.
Lemma non_reserved_iff s i : addressable s ->
  expression_parse s = RetErr (EscapedNonReservedCharacter i) <->
  (exists pre special t c r, text_start pre special /\ content special t /\
     s = pre ++ t ++ [backslash; c] ++ r /\ ~ In c reserved /\
     i = span_at 0 1 (pre ++ t, [backslash; c])) \/
  (exists pre special t, text_start pre special /\ content special t /\ t <> [] /\
     s = pre ++ t ++ [backslash] /\ i = span_at 0 1 (pre, firstn 2 (t ++ [backslash]))).
Proof.
  intros Hs. rewrite parse_err_iff by assumption. split.
  - intros (e & He & Heq). apply locate_error_nonreserved in Heq as (x & -> & ->).
    apply escape_error_iff in He as (pre & special & s' & e' & Hts & -> & He & Heq); [|exact I].
    destruct He as [|t Hn Ht|t c r Ht Hc]; [easy|..]; injection Heq as ->.
    + right. exists pre, special, t. rewrite app_nil_r. auto 10.
    + left. exists pre, special, t, c, r. auto 10.
  - intros [(pre & special & t & c & r & Hts & Ht & -> & Hc & ->)
           |(pre & special & t & Hts & Ht & Hn & -> & ->)].
    + exists (EscapedNonReservedCharacter (pre ++ t, [backslash; c])).
      split; [|reflexivity]. apply escape_error_iff; [exact I|].
      exists pre, special, (t ++ [backslash; c] ++ r), (EscapedNonReservedCharacter (t, [backslash; c])).
      split; [assumption|]. split; [reflexivity|]. split; [now constructor|]. reflexivity.
    + exists (EscapedNonReservedCharacter (pre, firstn 2 (t ++ [backslash]))).
      split; [|reflexivity]. apply escape_error_iff; [exact I|].
      exists pre, special, (t ++ [backslash]),
        (EscapedNonReservedCharacter ([], firstn 2 (t ++ [backslash]))).
      split; [assumption|]. split; [reflexivity|]. split; [now constructor|].
      unfold after. cbn [map_error fst snd]. now rewrite app_nil_r.
Qed.

(** ** Errors of parameters and optionals, one by one *)
Local Ltac no_broken :=
  match goal with
  | H : broken_text _ _ _ |- _ => destruct H; cbn in *; discriminate
  end.
Section ParameterErrors.
  Context (o l : N) (s : str) (ix ix' : N) (Hix : ix < usize_max).
  Let fails (e : error span) := parse_parameter (mkspan o l s) ix = (Bad (BFailure e), ix').

  Local Ltac start :=
    unfold fails; rewrite parameter_fail_iff by exact Hix; split;
    [intros (-> & e & He & Heq); split; [reflexivity|];
     destruct He as [u e He|t Ht|t u n r Ht [-> Hn] Hc|t u n r Ht [-> Hn]|t r Ht Hno|t r Ht Hno|t r Ht];
     try discriminate; try no_broken; injection Heq as -> | ].

  Lemma unfinished_parameter_iff i :
    fails (UnfinishedParameter i) <->
    ix' = ix /\ exists t, content name_special t /\ s = s_ "{" ++ t /\ i = mkspan o l (s_ "{").
  Proof.
    start.
    - exists t. split; [assumption|]. split; [reflexivity|]. unfold span_at. cbn. f_equal; lia.
    - intros (-> & t & Ht & -> & ->). split; [reflexivity|].
      exists (UnfinishedParameter ([], s_ "{")). split; [now constructor|].
      cbn. unfold span_at. cbn. do 2 f_equal; lia.
  Qed.
  Lemma nested_parameter_iff i :
    fails (NestedParameter i) <->
    ix' = ix /\ exists t n t' r, content name_special t /\ content name_special n /\
      content name_special t' /\
      s = s_ "{" ++ t ++ s_ "{" ++ n ++ s_ "}" ++ t' ++ s_ "}" ++ r /\
      i = span_at o l (s_ "{" ++ t, s_ "{" ++ n ++ s_ "}").
  Proof.
    start.
    - destruct Hc as (t' & r' & -> & Ht'). exists t, n, t', r'. auto 10.
    - intros (-> & t & n & t' & r & Ht & Hn & Ht' & -> & ->). split; [reflexivity|].
      eexists. split; [eapply par_nested; [exact Ht|split; [reflexivity|exact Hn]|]|reflexivity].
      exists t', r. auto.
  Qed.
  Lemma optional_in_parameter_iff i :
    fails (OptionalInParameter i) <->
    ix' = ix /\ exists t n r, content name_special t /\ n <> [] /\ content optional_special n /\
      s = s_ "{" ++ t ++ s_ "(" ++ n ++ s_ ")" ++ r /\
      i = span_at o l (s_ "{" ++ t, s_ "(" ++ n ++ s_ ")").
  Proof.
    start.
    - destruct Hn. exists t, n, r. auto 10.
    - intros (-> & t & n & r & Ht & Hn & Hn' & -> & ->). split; [reflexivity|].
      eexists. split; [eapply par_optional; [exact Ht|split; [reflexivity|split; [exact Hn|exact Hn']]]|].
      reflexivity.
  Qed.
  Lemma unescaped_in_parameter_iff i :
    fails (UnescapedReservedCharacter i) <->
    ix' = ix /\ exists t c r, content name_special t /\ s = s_ "{" ++ t ++ [c] ++ r /\
      i = span_at o l (s_ "{" ++ t, [c]) /\
      (c = c_ "/" \/
       c = c_ "{" /\ ~ (exists n t' r', content name_special n /\ content name_special t' /\
                          r = n ++ s_ "}" ++ t' ++ s_ "}" ++ r') \/
       c = c_ "(" /\ ~ (exists n r', n <> [] /\ content optional_special n /\ r = n ++ s_ ")" ++ r')).
  Proof.
    start.
    - exists t, (c_ "{"), r. split; [assumption|]. split; [reflexivity|]. split; [reflexivity|].
      right. left. split; [reflexivity|]. intros (n & t' & r' & Hn & Ht' & ->).
      eapply Hno; [split; [reflexivity|exact Hn]|]. exists t', r'. auto.
    - exists t, (c_ "("), r. split; [assumption|]. split; [reflexivity|]. split; [reflexivity|].
      right. right. split; [reflexivity|]. intros (n & r' & Hn & Hn' & ->).
      eapply Hno. split; [reflexivity|]. split; [exact Hn|exact Hn'].
    - exists t, (c_ "/"), r. auto 10.
    - intros (-> & t & c & r & Ht & -> & -> & [->|[[-> H]|[-> H]]]); (split; [reflexivity|]).
      + eexists. split; [apply (par_slash t r); exact Ht|reflexivity].
      + eexists. split; [apply (par_brace t r); [exact Ht|]|reflexivity].
        intros n r' [Heq Hn] (t' & r'' & -> & Ht'). apply H. exists n, t', r''.
        injection Heq as ->. auto.
      + eexists. split; [apply (par_paren t r); [exact Ht|]|reflexivity].
        intros n r' [Heq [Hn Hn']]. apply H. exists n, r'. injection Heq as ->. auto.
  Qed.
  (** No other error. *)
  Lemma parameter_errors e : fails e ->
    match e with
    | UnfinishedParameter _ | NestedParameter _ | OptionalInParameter _ | UnescapedReservedCharacter _
    | EscapedNonReservedCharacter _ | EscapedEndOfLine _ => True
    | _ => False
    end.
  Proof.
    unfold fails. rewrite parameter_fail_iff by exact Hix. intros (_ & e' & He & ->).
    destruct He as [u e' He| | | | | |]; try exact I. now destruct He.
  Qed.
End ParameterErrors.

Section OptionalErrors.
  Context (o l : N) (s : str).
  Let fails (e : error span) := parse_optional (mkspan o l s) = Bad (BFailure e).

  Local Ltac start :=
    unfold fails; rewrite optional_fail_iff; split;
    [intros (e & He & Heq);
     destruct He as [u e He|t Ht|r|t u n r Ht [-> Hn] Hc|t u n r Ht [-> Hn]|t r Ht|t r Ht Hno|t r Ht Hno];
     try discriminate; try no_broken; injection Heq as -> | ].

  Lemma unfinished_optional_iff i :
    fails (UnfinishedOptional i) <->
    exists t, content optional_special t /\ s = s_ "(" ++ t /\ i = mkspan o l (s_ "(").
  Proof.
    start.
    - exists t. split; [assumption|]. split; [reflexivity|]. unfold span_at. cbn. f_equal; lia.
    - intros (t & Ht & -> & ->).
      exists (UnfinishedOptional ([], s_ "(")). split; [now constructor|].
      cbn. unfold span_at. cbn. do 2 f_equal; lia.
  Qed.
  Lemma empty_optional_iff i :
    fails (EmptyOptional i) <-> exists r, s = s_ "()" ++ r /\ i = mkspan o l (s_ "()").
  Proof.
    start.
    - exists r. split; [reflexivity|]. unfold span_at. cbn. f_equal; lia.
    - intros (r & -> & ->).
      exists (EmptyOptional ([], s_ "()")). split; [constructor|].
      cbn. unfold span_at. cbn. do 2 f_equal; lia.
  Qed.
  Lemma nested_optional_iff i :
    fails (NestedOptional i) <->
    exists t n t' r, content optional_special t /\ n <> [] /\ content optional_special n /\
      content optional_special t' /\
      s = s_ "(" ++ t ++ s_ "(" ++ n ++ s_ ")" ++ t' ++ s_ ")" ++ r /\
      i = span_at o l (s_ "(" ++ t, s_ "(" ++ n ++ s_ ")").
  Proof.
    start.
    - destruct Hc as (t' & r' & -> & Ht'). destruct Hn. exists t, n, t', r'. auto 10.
    - intros (t & n & t' & r & Ht & Hn & Hn' & Ht' & -> & ->).
      eexists. split; [eapply opt_nested; [exact Ht|split; [reflexivity|split; [exact Hn|exact Hn']]|]|].
      + exists t', r. auto.
      + reflexivity.
  Qed.
  Lemma parameter_in_optional_iff i :
    fails (ParameterInOptional i) <->
    exists t n r, content optional_special t /\ content name_special n /\
      s = s_ "(" ++ t ++ s_ "{" ++ n ++ s_ "}" ++ r /\
      i = span_at o l (s_ "(" ++ t, s_ "{" ++ n ++ s_ "}").
  Proof.
    start.
    - exists t, n, r. auto 10.
    - intros (t & n & r & Ht & Hn & -> & ->).
      eexists. split; [eapply opt_parameter; [exact Ht|split; [reflexivity|exact Hn]]|].
      reflexivity.
  Qed.
  Lemma alternation_in_optional_iff i :
    fails (AlternationInOptional i) <->
    exists t r, content optional_special t /\ s = s_ "(" ++ t ++ s_ "/" ++ r /\
      i = span_at o l (s_ "(" ++ t, s_ "/").
  Proof.
    start.
    - exists t, r. auto.
    - intros (t & r & Ht & -> & ->). eexists. split; [apply (opt_slash t r Ht)|reflexivity].
  Qed.
  Lemma unescaped_in_optional_iff i :
    fails (UnescapedReservedCharacter i) <->
    exists t c r, content optional_special t /\ s = s_ "(" ++ t ++ [c] ++ r /\
      i = span_at o l (s_ "(" ++ t, [c]) /\
      (c = c_ "(" /\ ~ (exists n t' r', n <> [] /\ content optional_special n /\
                          content optional_special t' /\ r = n ++ s_ ")" ++ t' ++ s_ ")" ++ r') \/
       c = c_ "{" /\ ~ (exists n r', content name_special n /\ r = n ++ s_ "}" ++ r')).
  Proof.
    start.
    - exists t, (c_ "("), r. split; [assumption|]. split; [reflexivity|]. split; [reflexivity|].
      left. split; [reflexivity|]. intros (n & t' & r' & Hn & Hn' & Ht' & ->).
      eapply Hno; [split; [reflexivity|split; [exact Hn|exact Hn']]|]. exists t', r'. auto.
    - exists t, (c_ "{"), r. split; [assumption|]. split; [reflexivity|]. split; [reflexivity|].
      right. split; [reflexivity|]. intros (n & r' & Hn & ->).
      eapply Hno. split; [reflexivity|exact Hn].
    - intros (t & c & r & Ht & -> & -> & [[-> H]|[-> H]]).
      + eexists. split; [apply (opt_paren t r); [exact Ht|]|reflexivity].
        intros n r' [Heq [Hn Hn']] (t' & r'' & -> & Ht'). apply H. exists n, t', r''.
        injection Heq as ->. auto.
      + eexists. split; [apply (opt_brace t r); [exact Ht|]|reflexivity].
        intros n r' [Heq Hn]. apply H. exists n, r'. injection Heq as ->. auto.
  Qed.
  Lemma optional_errors e : fails e ->
    match e with
    | UnfinishedOptional _ | EmptyOptional _ | NestedOptional _ | ParameterInOptional _
    | AlternationInOptional _ | UnescapedReservedCharacter _
    | EscapedNonReservedCharacter _ | EscapedEndOfLine _ => True
    | _ => False
    end.
  Proof.
    unfold fails. rewrite optional_fail_iff. intros (e' & He & ->).
    destruct He as [u e' He| | | | | | |]; try exact I. now destruct He.
  Qed.
End OptionalErrors.

(** ** Errors of alternations *)
Lemma item_error_not_alt s e : item_error s e ->
  match e with EmptyAlternation _ | OnlyOptionalInAlternation _ => False | _ => True end.
Proof.
  intros [H|H]; [destruct H as [? ? H| | | | | | |]; try exact I; now destruct H|now destruct H].
Qed.
Section AlternationErrors.
  Context (o l : N) (s : str).
  Let fails (e : error span) := parse_alternation (mkspan o l s) = Bad (BFailure e).

  Lemma empty_alternation_iff i :
    fails (EmptyAlternation i) <->
    (exists r, s = s_ "/" ++ r /\ i = mkspan o l (s_ "/")) \/
    (exists a r, a <> [] /\ Forall branch a /\ at_branch_end r /\
       s = join (s_ "/") (map src_branch a) ++ s_ "/" ++ r /\
       i = span_at o l (join (s_ "/") (map src_branch a), s_ "/")).
  Proof.
    assert (Hjoin : forall a b, join (s_ "/") (map src_branch (a ++ [b])) = slashed a ++ src_branch b).
    { induction a as [|c a IH]; intros b; [reflexivity|].
      rewrite slashed_cons, <- !app_assoc, <- IH. cbn [app map]. rewrite join_cons. f_equal.
      destruct a; reflexivity. }
    unfold fails. rewrite alternation_fail_iff. split.
    - intros (e & He & Heq). destruct He as [a b s e Ha Hb Hcut He|r|a b r Ha Hb Hr|a r Hl Ha Hr Ho].
      + apply item_error_not_alt in He. destruct e; easy.
      + left. injection Heq as ->. exists r. split; [reflexivity|]. unfold span_at. cbn. f_equal; lia.
      + right. injection Heq as ->. exists (a ++ [b]), r. rewrite Hjoin, <- app_assoc.
        split; [now destruct a|]. split; [apply Forall_app; auto|]. auto.
      + easy.
    - intros [(r & -> & ->)|(a & r & Hn & Ha & Hr & -> & ->)].
      + exists (EmptyAlternation ([], s_ "/")). split; [constructor|].
        cbn. unfold span_at. cbn. do 2 f_equal; lia.
      + destruct (exists_last Hn) as (a' & b & ->). apply Forall_app in Ha as [Ha Hb].
        inversion Hb; subst. rewrite Hjoin, <- app_assoc. eexists.
        split; [apply (alt_dangling_slash a' b r); assumption|reflexivity].
  Qed.
  Lemma only_optional_iff i :
    fails (OnlyOptionalInAlternation i) <->
    (exists a r, (2 <= List.length a)%nat /\ Forall branch a /\
       Exists (fun b => ~ Exists is_text b) a /\ at_word_end r /\
       s = join (s_ "/") (map src_branch a) ++ r /\
       i = mkspan o l (join (s_ "/") (map src_branch a))).
  Proof.
    unfold fails. rewrite alternation_fail_iff. split.
    - intros (e & He & Heq). destruct He as [a b s e Ha Hb Hcut He|r|a b r Ha Hb Hr|a r Hl Ha Hr Ho].
      + apply item_error_not_alt in He. destruct e; easy.
      + easy.
      + easy.
      + injection Heq as ->. exists a, r. unfold span_at. cbn [fst snd blen newlines].
        rewrite !N.add_0_r. auto 10.
    - intros (a & r & Hl & Ha & Ho & Hr & -> & ->). eexists.
      split; [apply (alt_only_optional a r); assumption|]. cbn. unfold span_at.
      cbn [fst snd blen newlines]. now rewrite !N.add_0_r.
  Qed.
  Lemma alternation_recoverable_iff :
    (exists e, parse_alternation (mkspan o l s) = Bad (BError e)) <->
    exists b r, items b /\ at_word_end r /\ s = src_branch b ++ r.
  Proof.
    rewrite alternation_error_iff. unfold one_branch. split.
    - intros (b & r & Hb & -> & Hr). exists b, r. rewrite items_iff. rewrite word_end_iff' in Hr. auto.
    - intros (b & r & Hb & Hr & ->). exists b, r. rewrite items_iff in Hb.
      unfold at_word_end in Hr. rewrite <- word_end_iff' in Hr. auto.
  Qed.
End AlternationErrors.

(** ** Composition *)
Lemma source_app e1 e2 : source (e1 ++ e2) = source e1 ++ source e2.
Proof. unfold source. now rewrite map_app, concat_app. Qed.
Lemma place_app : forall e1 e2 pre, place pre (e1 ++ e2) = place pre e1 ++ place (pre ++ source e1) e2.
Proof.
  induction e1 as [|x e1 IH]; intros e2 pre; [cbn; now rewrite app_nil_r|].
  cbn [app place]. rewrite IH, source_cons, <- app_assoc. reflexivity.
Qed.
Definition push (p : str) (x : text_at) : text_at := (p ++ fst x, snd x).
Lemma place_branch_push p : forall b pre,
  place_branch (p ++ pre) b = map (map_alternative (push p)) (place_branch pre b).
Proof.
  induction b as [|x b IH]; intros pre; [reflexivity|]. cbn [place_branch map].
  rewrite <- app_assoc, IH. f_equal. destruct x as [[t]|t]; cbn;
    unfold map_optional, push; cbn; rewrite <- ?app_assoc; reflexivity.
Qed.
Lemma place_alternation_push p : forall a pre,
  place_alternation (p ++ pre) a = map_alternation (push p) (place_alternation pre a).
Proof.
  induction a as [|x a IH]; intros pre; [reflexivity|]. cbn [place_alternation map_alternation map].
  rewrite <- app_assoc, IH, place_branch_push. reflexivity.
Qed.
Lemma place_push p : forall e pre, place (p ++ pre) e = map_expression (push p) (place pre e).
Proof.
  unfold map_expression. induction e as [|x e IH]; intros pre; [reflexivity|]. cbn [place map].
  rewrite <- app_assoc, IH. f_equal. destruct x as [a|[]|[]| |]; cbn; unfold map_optional, map_parameter, push; cbn;
    rewrite ?place_alternation_push, <- ?app_assoc; reflexivity.
Qed.
Lemma newlines_app x y : newlines (x ++ y) = newlines x + newlines y.
Proof. induction x as [|c x IH]; cbn [newlines app]; [lia|]. rewrite IH. lia. Qed.
Lemma span_at_push o l p x : span_at o l (push p x) = shift_span (blen p) (newlines p) (span_at o l x).
Proof.
  unfold span_at, push, shift_span. cbn [fst snd off line frag]. rewrite blen_app, newlines_app.
  f_equal; lia.
Qed.
Lemma locate_app o l e1 e2 :
  locate o l (e1 ++ e2)
  = locate o l e1 ++ map_expression (shift_span (blen (source e1)) (newlines (source e1))) (locate o l e2).
Proof.
  unfold locate. rewrite place_app. unfold map_expression at 1. rewrite map_app. f_equal.
  rewrite <- (app_nil_r ([] ++ source e1)). cbn [app]. rewrite place_push.
  change (map (map_single (span_at o l)) ?x) with (map_expression (span_at o l) x).
  rewrite !map_map_expression. unfold map_expression. apply map_ext. intros x.
  apply map_single_ext. intros i. apply span_at_push.
Qed.
Lemma add_ids_source k e : source (add_ids k e) = source e.
Proof.
  unfold source, add_ids. rewrite map_map. f_equal. apply map_ext. now intros [].
Qed.
Lemma add_ids_place k : forall e pre, place pre (add_ids k e) = add_ids k (place pre e).
Proof.
  induction e as [|x e IH]; intros pre; [reflexivity|].
  destruct x; cbn [add_ids map place]; unfold add_ids in IH; rewrite IH; reflexivity.
Qed.
Lemma add_ids_map {I J} (f : I -> J) k e : map_expression f (add_ids k e) = add_ids k (map_expression f e).
Proof. unfold map_expression, add_ids. rewrite !map_map. apply map_ext. now intros []. Qed.
Lemma add_ids_locate k o l e : locate o l (add_ids k e) = add_ids k (locate o l e).
Proof. unfold locate. rewrite add_ids_place. apply add_ids_map. Qed.
Lemma ids_app {I} (e1 e2 : expression I) : ids (e1 ++ e2) = ids e1 ++ ids e2.
Proof. unfold ids. apply flat_map_app. Qed.
Lemma ids_add {I} k (e : expression I) : ids (add_ids k e) = map (fun n => n + k) (ids e).
Proof. unfold ids, add_ids. induction e as [|x e IH]; [reflexivity|]. destruct x; cbn; now rewrite IH. Qed.
Lemma count_from_add : forall n k m, map (fun x => x + m) (count_from k n) = count_from (k + m) n.
Proof.
  induction n as [|n IH]; intros k m; [reflexivity|]. cbn [count_from map]. rewrite IH. f_equal.
  f_equal. lia.
Qed.
Lemma count_from_app : forall n m k, count_from k (n + m) = count_from k n ++ count_from (k + N.of_nat n) m.
Proof.
  induction n as [|n IH]; intros m k; [cbn; f_equal; lia|]. cbn [count_from Nat.add app].
  rewrite IH. do 3 f_equal. lia.
Qed.
Lemma linked_app {A} (R : A -> A -> Prop) x y :
  linked R (x ++ y) <-> linked R x /\ linked R y /\
    (forall l a b r, x = l ++ [a] -> y = b :: r -> R a b).
Proof.
  induction x as [|a x IH].
  - cbn. split; [|tauto]. intros H. repeat split; auto. intros l a b r Hx. now destruct l.
  - cbn [app linked]. rewrite IH. split.
    + intros (H1 & H2 & H3 & H4). destruct x as [|b x]; cbn [app] in *.
      * repeat split; auto. intros l a' b' r Hx Hy. destruct l as [|z l].
        -- injection Hx as ->. now subst y.
        -- injection Hx as _ Hx. now destruct l.
      * repeat split; auto; try apply H2. intros l a' b' r Hx Hy. destruct l as [|z l]; [easy|].
        injection Hx as _ Hx. eauto.
    + intros ((H1 & H2) & H3 & H4). repeat split; auto.
      * destruct x as [|b x]; cbn [app].
        -- destruct y as [|b y]; [exact I|]. now apply (H4 [] a b y).
        -- exact H1.
      * intros l a' b' r Hx Hy. apply (H4 (a :: l) a' b' r); [now rewrite Hx|assumption].
Qed.
Lemma add_ids_linked k e : linked may_follow (add_ids k e) <-> linked may_follow e.
Proof.
  unfold add_ids. induction e as [|x e IH]; [easy|]. cbn [map linked]. rewrite IH.
  destruct e as [|y e]; [easy|]. cbn [map]. now destruct x, y.
Qed.
Lemma add_ids_wf k e : Forall wf_single e -> Forall wf_single (add_ids k e).
Proof.
  intros H. apply Forall_forall. intros x Hx. apply in_map_iff in Hx as (y & <- & Hy).
  rewrite Forall_forall in H. apply H in Hy. now destruct y.
Qed.
Lemma wf_linked e : wf e <-> Forall wf_single e /\ linked may_follow e /\
  ids e = count_from 0 (List.length (ids e)).
Proof. unfold wf. now rewrite <- linked_iff. Qed.

(** General form: any two expressions that may stand side by side. *)
Lemma wf_append e1 e2 : wf e1 -> wf e2 ->
  (forall l x y r, e1 = l ++ [x] -> e2 = y :: r -> may_follow x y) ->
  wf (e1 ++ add_ids (N.of_nat (List.length (ids e1))) e2).
Proof.
  intros H1 H2 Hf. apply wf_linked in H1 as (H11 & H12 & H13).
  apply wf_linked in H2 as (H21 & H22 & H23). apply wf_linked. split; [|split].
  - apply Forall_app. split; [assumption|]. now apply add_ids_wf.
  - apply linked_app. split; [assumption|]. split; [now apply add_ids_linked|].
    intros l a b r Ha Hb. destruct e2 as [|y e2]; [easy|]. injection Hb as <- _.
    specialize (Hf l a y e2 Ha eq_refl). now destruct a, y.
  - rewrite ids_app, ids_add, app_length, map_length, count_from_app, <- H13. f_equal.
    rewrite H23 at 1. apply count_from_add.
Qed.
Lemma compose_general e1 e2 : wf e1 -> wf e2 ->
  (forall l x y r, e1 = l ++ [x] -> e2 = y :: r -> may_follow x y) ->
  addressable (source e1 ++ source e2) ->
  expression_parse (source e1 ++ source e2)
  = RetOk (locate 0 1 e1 ++
           add_ids (N.of_nat (List.length (ids e1)))
             (map_expression (shift_span (blen (source e1)) (newlines (source e1))) (locate 0 1 e2))).
Proof.
  intros H1 H2 Hf Hs. apply parse_ok_iff; [exact Hs|].
  exists (e1 ++ add_ids (N.of_nat (List.length (ids e1))) e2). split; [now apply wf_append|].
  rewrite source_app, add_ids_source, locate_app, add_ids_locate, add_ids_map. auto.
Qed.

Lemma addressable_app x y : addressable (x ++ y) -> addressable x /\ addressable y.
Proof. unfold addressable. rewrite app_length. lia. Qed.
Lemma compose_whitespace a b ea eb :
  addressable (a ++ s_ " " ++ b) ->
  (forall t, a <> t ++ s_ " ") -> (forall t, b <> s_ " " ++ t) ->
  expression_parse a = RetOk ea -> expression_parse b = RetOk eb ->
  expression_parse (a ++ s_ " " ++ b)
  = RetOk (ea ++ [ExWhitespaces (mkspan (blen a) (1 + newlines a) (s_ " "))] ++
           add_ids (N.of_nat (List.length (ids ea)))
             (map_expression (shift_span (blen a + 1) (newlines a)) eb)).
Proof.
  intros Hs Ha Hb Hpa Hpb. destruct (addressable_app _ _ Hs) as [Hsa Hs'].
  destruct (addressable_app _ _ Hs') as [_ Hsb].
  apply parse_ok_iff in Hpa as (e1 & Hw1 & <- & ->); [|exact Hsa].
  apply parse_ok_iff in Hpb as (e2 & Hw2 & <- & ->); [|exact Hsb].
  assert (Hww : wf [ExWhitespaces (s_ " ")]).
  { split; [|split].
    - constructor; [|constructor]. split; [easy|]. constructor; [reflexivity|constructor].
    - intros l x y r H. destruct l as [|? [|]]; easy.
    - reflexivity. }
  assert (Hw12 : wf (e1 ++ [ExWhitespaces (s_ " ")])).
  { apply (wf_append e1 [ExWhitespaces (s_ " ")]); auto.
    intros l x y r Hl Hr. injection Hr as <- <-. destruct x; try exact I. subst e1.
    destruct Hw1 as (Hf & _). apply Forall_app in Hf as [_ Hf]. inversion Hf as [|? ? Hx _]; subst.
    destruct Hx as [Hn Hx]. destruct (exists_last Hn) as (w' & c & ->).
    apply Forall_app in Hx as [_ Hc]. inversion Hc; subst.
    apply (Ha (source l ++ w')). rewrite source_app. cbn. now rewrite app_nil_r, <- app_assoc. }
  pose proof (compose_general (e1 ++ [ExWhitespaces (s_ " ")]) e2 Hw12 Hw2) as H.
  rewrite source_app, <- app_assoc in H. change (source [ExWhitespaces (s_ " ")]) with (s_ " ") in H.
  rewrite H; [|clear H|exact Hs].
  - f_equal. rewrite locate_app, <- app_assoc. f_equal. rewrite ids_app, app_nil_r, ids_locate.
    f_equal.
    + unfold locate, map_expression, shift_span, span_at. cbn [map place place_single map_single off line frag
        fst snd blen newlines]. rewrite !N.add_0_r, (N.add_comm _ 1). reflexivity.
    + rewrite blen_app, newlines_app. change (blen (s_ " ")) with 1. change (newlines (s_ " ")) with 0.
      now rewrite N.add_0_r.
  - intros l x y r Hl Hr. destruct (app_inj_tail _ _ _ _ Hl) as [_ <-]. destruct y as [| | | |u]; try exact I. subst e2.
    destruct Hw2 as (Hf & _). inversion Hf as [|? ? Hx0 _]; subst. destruct Hx0 as [Hn Hx].
    destruct u as [|c w]; [easy|]. inversion Hx; subst. apply (Hb (w ++ source r)).
    reflexivity.
Qed.

(** ** Counterexamples and examples. *)
Lemma end_of_line_refuted : exists pre special t,
  text_start pre special /\ content special t /\ addressable (pre ++ t ++ [backslash]) /\
  expression_parse (pre ++ t ++ [backslash])
  <> RetErr (EscapedEndOfLine (span_at 0 1 (pre ++ t, [backslash]))).
Proof.
  exists [], text_special, (s_ "ab"). split; [|split; [|split]].
  - apply (starts_text [] [] []).
    + split; [split; [constructor|]|]; intros l; destruct l; easy.
    + constructor.
    + split; [constructor|]. intros l; destruct l; easy.
    + intros (l & x & H & _). destruct l; easy.
  - repeat constructor; cbn; intuition easy.
  - vm_compute. easy.
  - vm_compute. easy.
Qed.
Lemma non_reserved_refuted : exists s i, addressable s /\
  expression_parse s = RetErr (EscapedNonReservedCharacter i) /\
  ~ (exists pre c r, s = pre ++ [backslash; c] ++ r /\ ~ In c reserved).
Proof.
  exists (s_ "ab\"), (mkspan 0 1 (s_ "ab")). split; [vm_compute; easy|]. split; [vm_compute; easy|].
  intros (pre & c & r & H & _). destruct pre as [|x [|y [|z [|]]]]; easy.
Qed.
Lemma example_tree :
  let e := [ExAlternation [[AltText (s_ "a"); AltOptional (mkOptional (s_ "s"))]; [AltText (s_ "b")]];
            ExWhitespaces (s_ "  "); ExParameter (mkParameter (s_ "int") 0)] in
  wf e /\ source e = s_ "a(s)/b  {int}".
Proof.
  cbv zeta. split; [|reflexivity]. apply wf_linked. split; [|split; [|reflexivity]].
  - repeat apply Forall_cons; try apply Forall_nil.
    + split; [cbn; lia|]. repeat apply Forall_cons; try apply Forall_nil.
      * split; [|split].
        -- repeat apply Forall_cons; try apply Forall_nil; (split; [easy|]); cbn;
             repeat constructor; cbn; intuition easy.
        -- now constructor.
        -- apply linked_iff. cbn. split; [|easy]. intros [_ []].
      * split; [|split].
        -- repeat apply Forall_cons; try apply Forall_nil; (split; [easy|]); cbn;
             repeat constructor; cbn; intuition easy.
        -- now constructor.
        -- apply linked_iff. cbn. easy.
    + split; [easy|]. repeat constructor.
    + cbn. unfold wf_parameter. cbn. repeat constructor; cbn; intuition easy.
  - cbn. auto.
Qed.
