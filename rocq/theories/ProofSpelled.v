(** Built-in parameters spelled as custom ones. *)
From Verif Require Export SpecSpelled ProofPrefer.

Lemma spelled_some n t : spelled n = Some t ->
  n = s_ "int" /\ t = s_ "(?:-?\d+)|(?:\d+)" \/
  n = s_ "float" /\ t = s_ "[+-]?(?:inf|NaN|(?:\d+|\d+\.\d*|\d*\.\d+)(?:[eE][+-]?\d+)?)" \/
  n = s_ "word" /\ t = s_ "[^\s]+" \/
  n = s_ "string" /\ t = s_ """([^""\\]*(?:\\.[^""\\]*)*)""|'([^'\\]*(?:\\.[^'\\]*)*)'" \/
  n = [] /\ t = s_ ".*".
Proof.
  unfold spelled. intros H.
  destruct (str_eqb n (s_ "int")) eqn:E1; [left; apply str_eqb_eq in E1; split; congruence|right].
  destruct (str_eqb n (s_ "float")) eqn:E2; [left; apply str_eqb_eq in E2; split; congruence|right].
  destruct (str_eqb n (s_ "word")) eqn:E3; [left; apply str_eqb_eq in E3; split; congruence|right].
  destruct (str_eqb n (s_ "string")) eqn:E4; [left; apply str_eqb_eq in E4; split; congruence|right].
  destruct (str_eqb n []) eqn:E5; [apply str_eqb_eq in E5; split; congruence|discriminate].
Qed.
Lemma spelled_built_in n t : spelled n = Some t -> built_in n.
Proof. intros H. apply spelled_some in H. unfold built_in. cbn [In]. intuition (subst; auto 10). Qed.
(** ** The same regex *)
Lemma spelled_plain n t : spelled n = Some t -> n <> s_ "string" -> exists r, regex_new t = Done r /\
  (forall digits spaces words, tame digits spaces words r) /\ has_outer r = false /\ (forall p : parameter span, frag (par_input p) = n -> builtin_re frag p = [RCap None r]) /\
  forall p : parameter span, frag (par_input p) = n -> expand_parameter iter_elements p = ok (s_ "(" ++ t ++ s_ ")").
Proof.
  intros H Hn. apply spelled_some in H.
  destruct H as [[-> ->]|[[-> ->]|[[-> ->]|[[-> _]|[-> ->]]]]].
  4: now destruct Hn.
  all: eexists; (split; [vm_compute; reflexivity|]); (split; [intros; cbn; repeat split; now left|]); (split; [reflexivity|]); split;
      intros p Hp; [unfold builtin_re, name; rewrite Hp; reflexivity|unfold expand_parameter, iter_elements; rewrite Hp; reflexivity].
Qed.
Section Same.
  Context (digits spaces words : ranges) (Htab : tables_ok digits spaces words) (to_string : hir -> str) (get : provider span).
  Lemma spelled_expand p : get (par_input p) = None \/ get (par_input p) = spelled (frag (par_input p)) -> (get (par_input p) <> None -> frag (par_input p) <> s_ "string") ->
    expand_custom iter_elements digits spaces words to_string get p = expand_parameter iter_elements p.
  Proof.
    intros Hg Hs. unfold expand_custom. destruct (get (par_input p)) as [t|] eqn:E; [|reflexivity]. destruct Hg as [Hg|Hg]; [discriminate|].
    symmetry in Hg. destruct (spelled_plain _ _ Hg) as (r & Hr & Ht & Ho & _ & He); [now apply Hs|].
    pose proof (outer_detected digits spaces words Htab t r Hr (Ht _ _ _)) as Hc. rewrite Ho in Hc. rewrite Hr, (He p eq_refl).
    destruct (contains t (c_ "(")); [|reflexivity]. cbn [andb] in Hc. now rewrite Hc.
  Qed.
  Lemma spelled_same s : spells frag get ->
    (forall e p, expression_parse s = RetOk e -> In p (parameters e) -> get (par_input p) <> None -> frag (par_input p) <> s_ "string") ->
    regex_with_parameters digits spaces words to_string get s = expression_regex s.
  Proof.
    intros Hg H. unfold regex_with_parameters, expression_regex, regex_by. destruct (expression_parse s) as [e| | |]; try reflexivity.
    replace (expand_expression_custom iter_elements digits spaces words to_string get e) with (expand_expression iter_elements e); [reflexivity|].
    unfold expand_expression, expand_expression_custom. do 2 f_equal. apply flat_map_ext_in. intros [a|o|p|t|t] Hx; try reflexivity.
    cbn [expand_single_custom expand_single]. symmetry. apply spelled_expand; [apply Hg|]. exact (H e p eq_refl (in_parameters e p Hx)).
  Qed.
End Same.

(** ** The same captures *)
Definition string_matcher : str := s_ """([^""\\]*(?:\\.[^""\\]*)*)""|'([^'\\]*(?:\\.[^'\\]*)*)'".
Definition re_string_matcher : re :=
  RAlt (RCat (RLit quote2) (RCat (RCap None inside2) (RLit quote2)))
       (RCat (RLit quote1) (RCat (RCap None inside1) (RLit quote1))).
Lemma string_matcher_read : regex_new string_matcher = Done re_string_matcher.
Proof. vm_compute. reflexivity. Qed.
Section Captured.
  Context (digits spaces words : ranges) (Htab : tables_ok digits spaces words) (wrap : bool) (get : provider span) (Hget : spells frag get).
  Notation oequiv := (ProofOrder.oequiv digits spaces words).
  Notation translated := (translated digits spaces words).
  Notation compiled := (compiled digits spaces words).
  Notation exactly := (exactly digits spaces words wrap).
  Notation custom_re := (custom_re frag digits spaces words (show wrap) get).
  Lemma string_exactly : exactly re_string_matcher.
  Proof. split; [cbn; repeat split; now left|]. intros _. split; [vm_compute; reflexivity|right; vm_compute; reflexivity]. Qed.
  Lemma spelled_read n t : spelled n = Some t -> exists r, regex_new t = Done r /\ exactly r /\
    (n <> s_ "string" -> has_outer r = false /\ forall p : parameter span, frag (par_input p) = n -> builtin_re frag p = [RCap None r]).
  Proof.
    intros H. destruct (list_eq_dec N.eq_dec n (s_ "string")) as [->|Hn].
    - injection H as <-. exists re_string_matcher. split; [exact string_matcher_read|]. split; [exact string_exactly|]. now intros Hn.
    - destruct (spelled_plain n t H Hn) as (r & Hr & Ht & Ho & Hb & _). exists r. split; [exact Hr|]. split; [|auto].
      split; [apply Ht|]. now rewrite Ho.
  Qed.
  Lemma spelled_valid p : built_in (frag (par_input p)) -> custom_valid frag get exactly p.
  Proof.
    intros Hb. unfold custom_valid. destruct (Hget (par_input p)) as [E|E]; [now rewrite E|]. destruct (get (par_input p)) as [t|]; [|exact Hb].
    symmetry in E. destruct (spelled_read _ _ E) as (r & Hr & He & _). eauto.
  Qed.
  Lemma spelled_groups p : flat_map groups (custom_re p) = flat_map groups (builtin_re frag p).
  Proof.
    unfold ProofParams.custom_re. destruct (get (par_input p)) as [t|] eqn:Eg; [|reflexivity].
    destruct (Hget (par_input p)) as [E|E]; [congruence|]. rewrite Eg in E. symmetry in E. destruct (spelled_read _ _ E) as (r & Hr & [Ht _] & Hn).
    destruct (list_eq_dec N.eq_dec (frag (par_input p)) (s_ "string")) as [Es|Es].
    - apply spelled_some in E. rewrite Es in E. destruct E as [[E _]|[[E _]|[[E _]|[[_ E]|[E _]]]]]; try discriminate E. fold string_matcher in E. subst t.
      assert (r = re_string_matcher) as -> by (rewrite string_matcher_read in Hr; congruence).
      rewrite (matcher_groups digits spaces words (show wrap) Htab string_matcher (par_id p) re_string_matcher Hr Ht).
      + unfold builtin_re, name. rewrite Es. reflexivity.
      + assert (H : forall w, show w (rename_capture_groups (translate digits spaces words re_string_matcher) (par_id p)) =
          show true (rename_capture_groups (translate digits spaces words re_string_matcher) (par_id p))).
        { intros []; [reflexivity|]. apply show_no_nested. vm_compute. reflexivity. }
        change (faithful (show wrap) (rename_capture_groups (translate digits spaces words re_string_matcher) (par_id p))). unfold faithful. rewrite H. apply show_true_faithful.
        apply (renamed_printable digits spaces words (fun _ => Some string_matcher) Htab p string_matcher re_string_matcher eq_refl Hr).
        unfold custom_valid. eauto.
    - destruct (Hn Es) as [Ho Hb]. rewrite (Hb p eq_refl). unfold matcher_re. rewrite Hr, Ho. reflexivity.
  Qed.
  Lemma spelled_element x : wf_single (map_single frag x) -> Forall re_ok (re_single frag (builtin_re frag) x) ->
    Forall2 oequiv (re_custom frag digits spaces words get x) (re_first frag x).
  Proof.
    intros Hw Hok. unfold re_custom. destruct (custom get x) as [t|] eqn:Eg.
    2: { induction (re_first frag x); constructor; [apply oequiv_refl|assumption]. }
    destruct x as [a|o|p|u|u]; try discriminate Eg. cbn in Eg. destruct (Hget (par_input p)) as [E|E]; [congruence|]. rewrite Eg in E. symmetry in E.
    pose proof (translated_single digits spaces words Htab frag (ExParameter p) Hw Hok) as Htr. cbn [re_single re_first] in *.
    destruct (spelled_read _ _ E) as (r & Hr & _ & Hn). rewrite Hr.
    destruct (list_eq_dec N.eq_dec (frag (par_input p)) (s_ "string")) as [Es|Es].
    - apply spelled_some in E. rewrite Es in E. destruct E as [[E _]|[[E _]|[[E _]|[[_ E]|[E _]]]]]; try discriminate E. fold string_matcher in E. subst t.
      assert (r = re_string_matcher) as -> by (rewrite string_matcher_read in Hr; congruence).
      assert (Eb : builtin_re frag p = [re_string (par_id p)]) by (unfold builtin_re, name; rewrite Es; reflexivity). rewrite Eb in *.
      inversion_clear Htr as [|? ? ? ? Ht _]. constructor; [|constructor].
      eapply oequiv_trans; [|apply (Ht 1)]. change (if has_outer re_string_matcher then _ else _) with (compiled re_string_matcher).
      unfold Compiled.compiled. apply o_same_nameless. vm_compute. reflexivity.
    - destruct (Hn Es) as [Ho Hb]. rewrite Ho. rewrite (Hb p eq_refl) in *. inversion_clear Htr as [|? ? ? ? Ht _]. constructor; [|constructor].
      eapply oequiv_trans; [|apply (Ht 1)]. apply oequiv_sym. apply (translated_capture digits spaces words None r (compiled r)). apply translated_compiled.
  Qed.
  Notation whole := (regex_with_parameters digits spaces words (show wrap) get).
  Lemma spelled_whole s e : addressable s -> expression_parse s = RetOk e -> all_built_in frag e ->
    exists t, whole s = XOk t (re_by frag custom_re e) /\ groups (re_by frag custom_re e) = groups (re_of frag e) /\
      forall subject, Forall scalar subject ->
        hir_captures digits spaces words (re_by frag custom_re e) subject = hir_captures digits spaces words (re_of frag e) subject.
  Proof.
    intros Hs He Hb.
    assert (Hv : Forall (custom_valid frag get exactly) (parameters e)) by (eapply Forall_impl; [|exact Hb]; intros p; apply spelled_valid).
    assert (Hc : Forall (custom_checked frag get) (parameters e)) by (eapply Forall_impl; [|exact Hv]; intros p Hp; eapply custom_valid_checked, Hp).
    assert (Hg : groups (re_by frag custom_re e) = groups (re_of frag e)).
    { unfold re_of. rewrite !groups_by. apply flat_map_ext_in. intros p _. apply spelled_groups. }
    assert (Hnd : NoDup (group_names (re_of frag e))).
    { destruct (proj2 (regex_compiles s Hs)) as (t & r & Hr & _ & Hn); [eauto|]. destruct (regex_inv s e t r Hs He Hr) as (_ & _ & ->). exact Hn. }
    destruct (whole_read digits spaces words (show wrap) get s e He Hc (exactly_adds digits spaces words Htab wrap get e Hv)) as [[E _]|[_ E]].
    2: { exfalso. apply E. rewrite Hg. exact Hnd. }
    eexists. split; [exact E|]. split; [exact Hg|]. intros subject Hsub.
    assert (Hok : re_ok (re_by frag custom_re e)).
    { rewrite (whole_checked digits spaces words (show wrap) get s e He Hc) in E. destruct (regex_new _) as [r0| |] eqn:E0; try discriminate.
      apply regex_new_ok in E0. assert (r0 = re_by frag custom_re e) as <- by congruence. exact E0. }
    assert (Hok' : re_ok (re_of frag e)).
    { destruct (proj2 (regex_compiles s Hs)) as (t & r & Hr & Hn & _); [eauto|]. destruct (regex_inv s e t r Hs He Hr) as (_ & _ & ->).
      now apply regex_new_ok in Hn. }
    destruct (parsed_wf s e Hs He) as [[Hw _] _].
    unfold hir_captures, Compiled.compiled, translate.
    rewrite (captures_alike _ _ _ _ _ _ (translated_whole digits spaces words Htab wrap get e Hw Hv Hok 1) Hsub).
    rewrite (captures_alike _ _ _ _ _ _ (translated_expression digits spaces words Htab frag e Hw Hok' 1) Hsub).
    apply captures_alike; [|exact Hsub]. apply o_mk_cat_ext. constructor; [apply oequiv_refl|]. apply Forall2_app; [|constructor; [apply oequiv_refl|constructor]].
    assert (Hr : Forall re_ok (flat_map (re_single frag (builtin_re frag)) e)).
    { unfold re_of, re_by in Hok'. apply ok_mk_cat in Hok'. inversion_clear Hok' as [|? ? _ H]. now apply Forall_app in H as [H _]. }
    clear - Hw Hr Htab Hget wrap. induction e as [|x e IH]; [constructor|]. cbn [flat_map map_expression map] in *. apply Forall_app in Hr as [Hx Hr].
    inversion_clear Hw as [|? ? Hw1 Hw2]. apply Forall2_app; [now apply spelled_element|now apply IH].
  Qed.
  Lemma spelled_captures s : addressable s ->
    match expression_regex s with
    | XOk t r => exists t' r', whole s = XOk t' r' /\ groups r' = groups r /\
        forall subject, Forall scalar subject -> hir_captures digits spaces words r' subject = hir_captures digits spaces words r subject
    | o => whole s = o
    end.
  Proof.
    intros Hs. destruct (regex_total s Hs) as [(er & He & E)|[(e & He & Hb & E)|(e1 & p & e2 & He & Hb & Hp & E)]]; rewrite E.
    - unfold regex_with_parameters, regex_by. now rewrite He.
    - destruct (spelled_whole s e Hs He Hb) as (t & Hr & Hg & Hc). eauto.
    - rewrite (whole_fault digits spaces words (show wrap) get s e1 p e2 (NotFound (par_input p)) He); [reflexivity| |].
      + eapply Forall_impl; [|exact Hb]. intros q Hq. eapply custom_valid_checked, spelled_valid, Hq.
      + assert (Eg : get (par_input p) = None).
        { destruct (Hget (par_input p)) as [H|H]; [exact H|]. destruct (get (par_input p)) as [t|]; [|reflexivity]. symmetry in H.
          now apply spelled_built_in in H. }
        unfold fault. rewrite Eg. auto.
  Qed.
End Captured.

(** ** Providers that are alike *)
Section Alike.
  Context (digits spaces words : ranges) (get get' : provider span).
  Lemma alike_read e : Forall (alike digits spaces words frag get get') (parameters e) -> forall pre s l,
    read_in frag (tried digits spaces words frag get) e pre s l -> read_in frag (tried digits spaces words frag get') e pre s l.
  Proof.
    intros Ha pre s l H. induction H as [pre|x e pre p v t l Hx Hl IH]; [constructor|]. constructor.
    - destruct x as [a|o|q|u|u]; try exact Hx. cbn [single_means] in *. inversion_clear Ha as [|? ? H _]. now apply H.
    - apply IH. destruct x; try exact Ha. now inversion_clear Ha.
  Qed.
  Lemma alike_better e : Forall (alike digits spaces words frag get get') (parameters e) -> forall pre s l l',
    better_in (custom_prefers digits spaces words frag get) e pre s l l' -> better_in (custom_prefers digits spaces words frag get') e pre s l l'.
  Proof.
    intros Ha pre s l l' H. induction H as [x e pre s y l y' l' Hx|x e pre p v t l l' Hl IH].
    - apply better_in_here. destruct x as [a|o|q|u|u]; try exact Hx. inversion_clear Ha as [|? ? H _]. now apply H.
    - apply better_in_later. apply IH. destruct x; try exact Ha. now inversion_clear Ha.
  Qed.
End Alike.
Lemma alike_sym digits spaces words get get' p : alike digits spaces words frag get get' p -> alike digits spaces words frag get' get p.
Proof. intros [H1 H2]. split; intros; symmetry; auto. Qed.
Lemma alike_best digits spaces words get get' e pre s l : Forall (alike digits spaces words frag get get') (parameters e) ->
  best_in frag (tried digits spaces words frag get) (custom_prefers digits spaces words frag get) e pre s l ->
  best_in frag (tried digits spaces words frag get') (custom_prefers digits spaces words frag get') e pre s l.
Proof.
  intros Ha [H1 H2]. assert (Hs : Forall (alike digits spaces words frag get' get) (parameters e)) by (eapply Forall_impl; [|exact Ha]; intros p; apply alike_sym).
  split; [now apply alike_read with get|]. intros l' Hl'. destruct (H2 l') as [->|H]; [now apply alike_read with get'|now left|].
  right. now apply alike_better with get.
Qed.
Lemma alike_captures digits spaces words : tables_ok digits spaces words -> plain_digits (in_ranges digits) -> forall wrap wrap' get get' s e t r t' r',
  addressable s -> expression_parse s = RetOk e ->
  Forall (custom_valid frag get (exactly digits spaces words wrap)) (parameters e) ->
  Forall (custom_valid frag get' (exactly digits spaces words wrap')) (parameters e) ->
  Forall (alike digits spaces words frag get get') (parameters e) ->
  regex_with_parameters digits spaces words (show wrap) get s = XOk t r ->
  regex_with_parameters digits spaces words (show wrap') get' s = XOk t' r' ->
  forall subject, Forall scalar subject ->
    hir_captures digits spaces words r subject = hir_captures digits spaces words r' subject.
Proof.
  intros Htab Hd wrap wrap' get get' s e t r t' r' Hs He Hv Hv' Ha Hr Hr' subject Hsub.
  assert (H : forall c, hir_captures digits spaces words r subject = Some c <-> hir_captures digits spaces words r' subject = Some c).
  { intros c. rewrite (custom_takes_best digits spaces words Htab wrap get s e t r Hs He Hv Hr Hd subject c Hsub).
    rewrite (custom_takes_best digits spaces words Htab wrap' get' s e t' r' Hs He Hv' Hr' Hd subject c Hsub).
    split; intros (l & Hl & ->); exists l; (split; [|reflexivity]); [now apply alike_best with get|].
    apply alike_best with get'; [|exact Hl]. eapply Forall_impl; [|exact Ha]. intros p. apply alike_sym. }
  destruct (hir_captures digits spaces words r subject) as [c|]; [symmetry; now apply H|].
  destruct (hir_captures digits spaces words r' subject) as [c|]; [now apply H|reflexivity].
Qed.
