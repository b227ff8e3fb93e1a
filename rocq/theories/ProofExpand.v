(** The expansion of an expression, for any way of expanding parameters. *)
From Coq Require Import PeanoNat.
From Verif Require Export ProofTypes.

(** ** The crate's iterators, drained *)
Lemma drain_finishes {St A} (next : iter St A) s l fuel :
  (List.length l < fuel)%nat -> finishes next s l -> drain fuel next s = l.
Proof. intros Hf H. unfold drain. now rewrite (collect_finishes next l s fuel Hf H). Qed.
Lemma quote_length c : (List.length (quote c) <= 2)%nat.
Proof. unfold quote. destruct (in_dec _ _ _); cbn; lia. Qed.
Lemma unescape_length t : (List.length (unescape t) <= List.length t)%nat.
Proof.
  enough (forall n t, (List.length t <= n)%nat -> (List.length (unescape t) <= List.length t)%nat) by (apply (H (List.length t)); lia).
  clear t. induction n as [|n IH]; intros [|c t] H; cbn in *; try lia.
  destruct (N.eq_dec _ _); [destruct t as [|d t]|]; cbn in *; try lia.
  - specialize (IH t). lia.
  - specialize (IH t). lia.
Qed.
Lemma quotes_length l : (List.length (flat_map quote l) <= 2 * List.length l)%nat.
Proof.
  induction l as [|c l IH]; cbn; [lia|]. rewrite app_length. pose proof (quote_length c). lia.
Qed.
Lemma escape_for_regex_eq t : escape_for_regex t = flat_map quote (unescape t).
Proof.
  apply drain_finishes.
  - pose proof (quotes_length (unescape t)). pose proof (unescape_length t). lia.
  - apply escape_finishes, iterates_finishes, list_iterates.
Qed.
Lemma removelast_length {A} (l : list A) : (List.length (removelast l) <= List.length l)%nat.
Proof. induction l as [|x [|y l] IH]; cbn in *; lia. Qed.
Lemma skip_last_eq {A} (l : list A) : skip_last l = removelast l.
Proof.
  apply drain_finishes.
  - pose proof (removelast_length l). lia.
  - apply skip_last_finishes, iterates_finishes, list_iterates.
Qed.
Lemma owned_eq t : owned t = t.
Proof. apply drain_finishes; [lia|apply iterates_finishes, owned_chars_iterates]. Qed.

Lemma str_eqb_eq a b : str_eqb a b = true <-> a = b.
Proof.
  revert b; induction a as [|x a IH]; intros [|y b]; cbn; try easy.
  rewrite andb_true_iff, N.eqb_eq, IH. split; [intros [-> ->]; reflexivity|]. intros H. now injection H.
Qed.
Lemma distinct_iff l : distinct l = true <-> NoDup l.
Proof.
  induction l as [|x l IH]; cbn; [split; [constructor|reflexivity]|].
  rewrite andb_true_iff, negb_true_iff, IH. split.
  - intros [H1 H2]. constructor; [|exact H2]. intros Hx.
    eapply eq_true_false_abs; [|exact H1]. apply existsb_exists. exists x. split; [exact Hx|now apply str_eqb_eq].
  - inversion_clear 1. split; [|assumption]. apply not_true_iff_false. intros (y & Hy & ->%str_eqb_eq)%existsb_exists. contradiction.
Qed.

Lemma groups_mk_cat l : groups (mk_cat l) = flat_map groups l.
Proof.
  induction l as [|r l IH]; [reflexivity|]. destruct l as [|r' l].
  - cbn. now rewrite app_nil_r.
  - change (mk_cat (r :: r' :: l)) with (RCat r (mk_cat (r' :: l))). cbn [groups]. now rewrite IH.
Qed.
Lemma groups_mk_alt l : groups (mk_alt l) = flat_map groups l.
Proof.
  induction l as [|r l IH]; [reflexivity|]. destruct l as [|r' l].
  - cbn. now rewrite app_nil_r.
  - change (mk_alt (r :: r' :: l)) with (RAlt r (mk_alt (r' :: l))). cbn [groups]. now rewrite IH.
Qed.
Lemma groups_lits t : flat_map groups (map RLit t) = [].
Proof. induction t; cbn; auto. Qed.

Section Expand.
  Context {I : Type} (elements : I -> str).

  (** Texts of the elements without parameters. *)
  Definition text_of (i : I) : str := escape_for_regex (elements i).
  Definition optional_text (o : optional I) : str := s_ "(?:" ++ text_of (opt_input o) ++ s_ ")?".
  Definition alternative_text (a : alternative I) : str :=
    match a with AltOptional o => optional_text o | AltText t => text_of t end.
  Definition branch_text (b : single_alternation I) : str := flat_map alternative_text b.
  Definition alternation_text (a : alternation I) : str :=
    s_ "(?:" ++ removelast (flat_map (fun b => branch_text b ++ s_ "|") a) ++ s_ ")".

  Lemma map_removelast {A B} (f : A -> B) l : map f (removelast l) = removelast (map f l).
  Proof. induction l as [|x [|y l] IH]; cbn in *; [reflexivity|reflexivity|]. now rewrite IH. Qed.
  Lemma ok_app a b : @ok I (a ++ b) = ok a ++ ok b.
  Proof. apply map_app. Qed.
  Lemma ok_flat_map {A} (f : A -> str) l : @ok I (flat_map f l) = flat_map (fun x => ok (f x)) l.
  Proof. induction l as [|x l IH]; cbn [flat_map]; [reflexivity|]. now rewrite ok_app, IH. Qed.
  Lemma flat_map_ext_in {A B} (f g : A -> list B) l : (forall x, In x l -> f x = g x) -> flat_map f l = flat_map g l.
  Proof. induction l as [|x l IH]; cbn; intros H; [reflexivity|]. f_equal; auto. Qed.
  Lemma expand_alternative_ok a : expand_alternative elements a = ok (alternative_text a).
  Proof. now destruct a. Qed.
  Lemma expand_alternation_ok a : expand_alternation elements a = ok (alternation_text a).
  Proof.
    unfold expand_alternation, alternation_text. rewrite !ok_app, skip_last_eq. do 2 f_equal.
    transitivity (removelast (@ok I (flat_map (fun b => branch_text b ++ s_ "|") a)));
      [|symmetry; apply map_removelast].
    f_equal. rewrite ok_flat_map.
    apply flat_map_ext_in. intros b _. unfold expand_single_alternation, branch_text.
    rewrite ok_app, ok_flat_map. f_equal. apply flat_map_ext_in. intros x _. apply expand_alternative_ok.
  Qed.

  (** The regexes they are. *)
  Definition re_text (i : I) : list re := map RLit (unescape (elements i)).
  Definition re_optional (o : optional I) : re := RRep 0 (Some 1) true (mk_cat (re_text (opt_input o))).
  Definition re_alternative (a : alternative I) : list re :=
    match a with AltOptional o => [re_optional o] | AltText t => re_text t end.
  Definition re_branch (b : single_alternation I) : re := mk_cat (flat_map re_alternative b).
  Definition re_alternation (a : alternation I) : re := mk_alt (map re_branch a).

  Lemma adds_text i : adds (text_of i) (re_text i).
  Proof. unfold text_of. rewrite escape_for_regex_eq. apply adds_quotes. Qed.
  Lemma adds_optional o : adds (optional_text o) [re_optional o].
  Proof.
    unfold optional_text. change (s_ ")?") with (s_ ")" ++ s_ "?").
    rewrite (app_assoc (text_of _)), (app_assoc (s_ "(?:")).
    apply adds_question, adds_one_group, adds_reads, adds_text.
  Qed.
  Lemma adds_alternative a : adds (alternative_text a) (re_alternative a).
  Proof. destruct a; [apply adds_optional|apply adds_text]. Qed.
  Lemma adds_branch b : adds (branch_text b) (flat_map re_alternative b).
  Proof. apply adds_flat_map. intros. apply adds_alternative. Qed.
  Lemma removelast_bars b a : removelast (flat_map (fun b => branch_text b ++ s_ "|") (b :: a)) =
    branch_text b ++ bars (map (fun b => (branch_text b, flat_map re_alternative b)) a).
  Proof.
    revert b; induction a as [|b' a IH]; intros b.
    - cbn [flat_map bars map]. rewrite !app_nil_r. apply removelast_last.
    - change (flat_map _ (b :: b' :: a)) with ((branch_text b ++ s_ "|") ++ flat_map (fun b => branch_text b ++ s_ "|") (b' :: a)).
      rewrite removelast_app.
      + rewrite IH. cbn [bars map flat_map fst]. rewrite <- !app_assoc. reflexivity.
      + cbn. now destruct (branch_text b').
  Qed.
  Lemma adds_alternation a : adds_one (alternation_text a) (re_alternation a).
  Proof.
    apply adds_one_group. destruct a as [|b a].
    - apply adds_reads with (rs := []), adds_nil.
    - rewrite removelast_bars. unfold re_alternation. cbn [map].
      replace (map re_branch a) with (cats (map (fun b => (branch_text b, flat_map re_alternative b)) a)).
      + apply reads_branches; [apply adds_branch|]. apply Forall_map, Forall_forall. intros x _. apply adds_branch.
      + unfold cats. rewrite map_map. reflexivity.
  Qed.
  Lemma groups_text i : flat_map groups (re_text i) = [].
  Proof. apply groups_lits. Qed.
  Lemma groups_optional o : groups (re_optional o) = [].
  Proof. cbn. rewrite groups_mk_cat. apply groups_text. Qed.
  Lemma groups_alternation a : groups (re_alternation a) = [].
  Proof.
    unfold re_alternation. rewrite groups_mk_alt. induction a as [|b a IH]; [reflexivity|]. cbn. rewrite IH, app_nil_r.
    unfold re_branch. rewrite groups_mk_cat. induction b as [|x b IHb]; [reflexivity|]. cbn. rewrite flat_map_app, IHb, app_nil_r.
    destruct x; cbn; [|apply groups_text]. rewrite app_nil_r. apply groups_optional.
  Qed.

  (** ** Expressions, given the expansion [pf] of a parameter *)
  Section By.
    Context (pf : parameter I -> list (item I)).
    Definition single_by (x : single_expression I) : list (item I) :=
      match x with ExParameter p => pf p | _ => expand_single elements x end.
    Definition expand_by (e : expression I) : list (item I) :=
      ok (s_ "^") ++ flat_map single_by e ++ ok (s_ "$").

    (** With [pf p = ok (tf p)]. *)
    Context (tf : parameter I -> str).
    Definition single_text (x : single_expression I) : str :=
      match x with
      | ExAlternation a => alternation_text a
      | ExOptional o => optional_text o
      | ExParameter p => tf p
      | ExText t | ExWhitespaces t => text_of t
      end.
    Definition text_by (e : expression I) : str := s_ "^" ++ flat_map single_text e ++ s_ "$".
    Definition known (e : expression I) : Prop := forall p, In p (parameters e) -> pf p = ok (tf p).
    Lemma parameters_app (a b : expression I) : parameters (a ++ b) = parameters a ++ parameters b.
    Proof. apply flat_map_app. Qed.
    Lemma single_ok x : known [x] -> single_by x = ok (single_text x).
    Proof.
      destruct x; cbn; intros H; [apply expand_alternation_ok|reflexivity| |reflexivity|reflexivity].
      apply H. now left.
    Qed.
    Lemma collect_ok_app t l : collect_result (@ok I t ++ l) =
      match collect_result l with inl u => inl (t ++ u) | inr e => inr e end.
    Proof.
      induction t as [|c t IH]; [cbn; now destruct (collect_result l)|].
      change (@ok I (c :: t) ++ l) with (IOk c :: (@ok I t ++ l)). cbn [collect_result]. rewrite IH. now destruct (collect_result l).
    Qed.
    Lemma collect_ok t : collect_result (@ok I t) = inl t.
    Proof. pose proof (collect_ok_app t []) as H. rewrite app_nil_r in H. rewrite H. cbn. now rewrite app_nil_r. Qed.
    Lemma known_cons x e : known (x :: e) <-> known [x] /\ known e.
    Proof.
      unfold known. change (x :: e) with ([x] ++ e). rewrite parameters_app. split.
      - intros H. split; intros p Hp; apply H, in_or_app; auto.
      - intros [H1 H2] p Hp. apply in_app_or in Hp as [Hp|Hp]; auto.
    Qed.
    Lemma body_ok e : known e -> flat_map single_by e = ok (flat_map single_text e).
    Proof.
      induction e as [|x e IH]; intros H; [reflexivity|]. apply known_cons in H as [H1 H2].
      cbn [flat_map]. now rewrite ok_app, <- IH, <- single_ok.
    Qed.
    Lemma collect_known e : known e -> collect_result (expand_by e) = inl (text_by e).
    Proof.
      intros H. unfold expand_by, text_by. rewrite body_ok by assumption. rewrite <- !ok_app. apply collect_ok.
    Qed.
    Lemma collect_error e1 p e2 err : known e1 -> pf p = [IErr err] ->
      collect_result (expand_by (e1 ++ ExParameter p :: e2)) = inr err.
    Proof.
      intros H Hp. unfold expand_by. rewrite flat_map_app, body_ok by assumption. cbn [flat_map single_by].
      rewrite Hp, <- app_assoc, collect_ok_app, collect_ok_app. reflexivity.
    Qed.

    (** With [adds (tf p) (rf p)]. *)
    Context (rf : parameter I -> list re).
    Definition re_single (x : single_expression I) : list re :=
      match x with
      | ExAlternation a => [re_alternation a]
      | ExOptional o => [re_optional o]
      | ExParameter p => rf p
      | ExText t | ExWhitespaces t => re_text t
      end.
    Definition re_by (e : expression I) : re := mk_cat (RLook LStart :: flat_map re_single e ++ [RLook LEnd]).
    Definition read (e : expression I) : Prop := forall p, In p (parameters e) -> adds (tf p) (rf p).
    Lemma adds_single x : (forall p, x = ExParameter p -> adds (tf p) (rf p)) -> adds (single_text x) (re_single x).
    Proof.
      destruct x; cbn; intros H; [apply adds_one_adds, adds_alternation|apply adds_optional|now apply H|apply adds_text|apply adds_text].
    Qed.
    Lemma in_parameters (e : expression I) p : In (ExParameter p) e -> In p (parameters e).
    Proof. intros H. apply in_flat_map. exists (ExParameter p). split; [exact H|now left]. Qed.
    Lemma parse_text e : read e -> parse_syntax (text_by e) = Done (re_by e).
    Proof.
      intros H. apply parse_syntax_reads. unfold re_by, text_by. apply adds_reads.
      apply (adds_app _ _ [RLook LStart]).
      { intros m items alts stack []; eexists; (split; [constructor|reflexivity]). }
      apply adds_app.
      - apply adds_flat_map. intros x Hx. apply adds_single. intros p ->. apply H, in_parameters, Hx.
      - intros m items alts stack []; eexists; (split; [constructor|reflexivity]).
    Qed.
    Lemma groups_single x : flat_map groups (re_single x) =
      match x with ExParameter p => flat_map groups (rf p) | _ => [] end.
    Proof.
      destruct x; cbn [re_single flat_map]; rewrite ?app_nil_r;
        [apply groups_alternation|apply groups_optional|reflexivity|apply groups_text|apply groups_text].
    Qed.
    Lemma groups_by e : groups (re_by e) = flat_map (fun p => flat_map groups (rf p)) (parameters e).
    Proof.
      unfold re_by. rewrite groups_mk_cat. cbn [flat_map groups app]. rewrite flat_map_app. cbn [flat_map groups]. rewrite !app_nil_r.
      induction e as [|x e IH]; [reflexivity|]. cbn [flat_map]. rewrite flat_map_app, IH, groups_single.
      change (x :: e) with ([x] ++ e). rewrite parameters_app, flat_map_app. f_equal.
      destruct x; cbn; rewrite ?app_nil_r; reflexivity.
    Qed.

    (** ** Meaning *)
    Context (digit space word : char -> bool).
    Context (param : parameter I -> str -> str -> str -> list (option str) -> Prop).
    Notation rml := (rml digit space word).
    Notation cf := (cf digit space word).
    Lemma cf_optional o : cf (re_optional o) (optional_means elements o).
    Proof.
      unfold re_optional, optional_means. eapply cf_iff; [apply cf_opt, cf_lits|]. intros s. reflexivity.
    Qed.
    Lemma cf_alternative a : cf (mk_cat (re_alternative a)) (alternative_means elements a).
    Proof. destruct a; [apply cf_optional|apply cf_lits]. Qed.
    Lemma cf_branch b : cf (re_branch b) (branch_means elements b).
    Proof.
      split; [unfold re_branch; rewrite groups_mk_cat; induction b as [|x b IH]; [reflexivity|]; cbn; rewrite flat_map_app, IH, app_nil_r;
        destruct x; cbn; [rewrite app_nil_r; apply groups_optional|apply groups_text]|].
      unfold re_branch. induction b as [|x b IH]; intros p m q c; rewrite rml_mk_cat; cbn [flat_map].
      - split; [intros [-> ->]%rml_nil_inv; split; [constructor|reflexivity]|].
        intros [H ->]. inversion H; subst. constructor.
      - rewrite rml_app. split.
        + intros (s & t & c1 & c2 & -> & -> & H1 & H2). apply rml_mk_cat, cf_alternative in H1 as [H1 ->].
          apply rml_mk_cat, IH in H2 as [H2 ->]. split; [now constructor|reflexivity].
        + intros [H ->]. inversion H; subst. exists p0, q0, [], []. repeat split.
          * apply rml_mk_cat, cf_alternative. auto.
          * apply rml_mk_cat, IH. auto.
    Qed.
    Lemma cf_alternation a : cf (re_alternation a) (alternation_means elements a).
    Proof.
      unfold re_alternation. eapply cf_iff.
      - apply cf_mk_alt. intros r (b & <- & _)%in_map_iff. eexists. apply cf_branch.
      - intros s. cbv beta. unfold alternation_means. split.
        + intros [(r & (b & <- & Hb)%in_map_iff & Hr)|[H ->]].
          * left. exists b. split; [exact Hb|]. apply Hr, cf_branch.
          * right. destruct a; [auto|easy].
        + intros [(b & Hb & Hs)|[-> ->]]; [left|now right].
          exists (re_branch b). split; [now apply in_map|]. intros L HL.
          apply (proj2 HL [] s [] []). now apply cf_branch.
    Qed.
    Definition typed_by (e : expression I) : Prop := forall p, In p (parameters e) ->
      forall pre m post c, rml (rf p) pre m post c <-> param p pre m post c.
    Lemma rml_single x pre m post c : (forall p, x = ExParameter p -> forall pre m post c,
        rml (rf p) pre m post c <-> param p pre m post c) ->
      rml (re_single x) pre m post c <-> single_means elements (fun q s v => param q pre s post v) x m c.
    Proof.
      destruct x; cbn; intros H.
      - rewrite rml_one. apply cf_alternation.
      - rewrite rml_one. apply cf_optional.
      - now apply H.
      - apply rml_lits.
      - apply rml_lits.
    Qed.
    Lemma rml_body e pre m post c : typed_by e ->
      rml (flat_map re_single e) pre m post c <-> means_in elements param e pre m post c.
    Proof.
      revert pre m c. induction e as [|x e IH]; intros pre m c H; cbn [flat_map].
      - split; [intros [-> ->]%rml_nil_inv; constructor|inversion 1; subst; constructor].
      - assert (Hx : forall p, x = ExParameter p -> forall pre m post c, rml (rf p) pre m post c <-> param p pre m post c).
        { intros p ->. apply H, in_parameters. now left. }
        assert (He : typed_by e).
        { intros p Hp. apply H. change (x :: e) with ([x] ++ e). rewrite parameters_app. apply in_or_app. auto. }
        rewrite rml_app. split.
        + intros (s & t & c1 & c2 & -> & -> & H1 & H2). apply (rml_single x) in H1; [|assumption].
          apply IH in H2; [|assumption]. now constructor.
        + inversion 1; subst. exists s, t, v, w. repeat split; [apply rml_single; assumption|now apply IH].
    Qed.
    Lemma rm_by e pre m post c : typed_by e ->
      Regex.rm digit space word (re_by e) pre m post c <->
      pre = [] /\ post = [] /\ means_in elements param e [] m [] c.
    Proof. intros H. unfold re_by. rewrite rml_mk_cat, rml_anchored, rml_body by assumption. reflexivity. Qed.
  End By.
End Expand.

Lemma means_in_inv {I} (text : I -> str) param x e pre s post v :
  means_in text param (x :: e) pre s post v -> exists s1 t v1 w, s = s1 ++ t /\ v = v1 ++ w /\
    single_means text (fun q s v => param q pre s (t ++ post) v) x s1 v1 /\ means_in text param e (pre ++ s1) t post w.
Proof. inversion 1; subst. eauto 10. Qed.
(** Without looking around, the two ways of giving a meaning agree. *)
Lemma means_in_iff {I} (text : I -> str) (param : parameter I -> str -> list (option str) -> Prop) e pre s post v :
  means_in text (fun q _ s _ v => param q s v) e pre s post v <-> means text param e s v.
Proof.
  revert pre s v; induction e as [|x e IH]; intros pre s v; split.
  - inversion 1; subst. exists []. repeat split. constructor.
  - intros (l & H & -> & ->). inversion H; subst. constructor.
  - intros (s1 & t & v1 & w & -> & -> & H1 & H2)%means_in_inv.
    apply IH in H2 as (l & Hl & -> & ->). exists ((s1, v1) :: l). repeat split.
    constructor; assumption.
  - intros (l & H & -> & ->). inversion H; subst. destruct y as [p w]. cbn. constructor; [assumption|].
    apply IH. exists l'. auto.
Qed.
