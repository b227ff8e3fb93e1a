(** The regexes of the built-in parameters: how they are read, and what they match. *)
From Coq Require Import PeanoNat DecimalString DecimalPos DecimalN.
From Verif Require Export ProofRegex ProofMeaning.

(** ** Decimal numbers *)
Lemma s_inj a b : s_ a = s_ b -> a = b.
Proof.
  revert b; induction a as [|x a IH]; intros [|y b]; cbn; intros H; try easy.
  injection H as H1 H2. f_equal; [|now apply IH].
  unfold c_ in H1. rewrite <- (ascii_N_embedding x), <- (ascii_N_embedding y). now f_equal.
Qed.
Lemma to_uint_nonnil n : N.to_uint n <> Decimal.Nil.
Proof. destruct n; [easy|apply DecimalPos.Unsigned.to_uint_nonnil]. Qed.
Lemma dec_inj a b : dec a = dec b -> a = b.
Proof.
  intros H%s_inj. apply (f_equal NilZero.uint_of_string) in H.
  rewrite !NilZero.usu in H.
  - injection H as H. apply (f_equal N.of_uint) in H. now rewrite !DecimalN.Unsigned.of_to in H.
  - apply to_uint_nonnil.
  - apply to_uint_nonnil.
Qed.
Lemma dec_digits n : Forall (fun c => is_digit_char c = true) (dec n).
Proof.
  unfold dec. generalize (N.to_uint n). intros u.
  assert (H : Forall (fun c => is_digit_char c = true) (s_ (NilEmpty.string_of_uint u))).
  { induction u; cbn; constructor; easy. }
  destruct u; try exact H. now repeat constructor.
Qed.
Lemma dec_nonempty n : dec n <> [].
Proof. unfold dec. now destruct (N.to_uint n). Qed.

(** The names of groups. *)
Definition group_name (id k : N) : str := s_ "__" ++ dec id ++ s_ "_" ++ dec k.
Lemma is_digit_small c : is_digit_char c = true -> c < 128.
Proof.
  unfold is_digit_char. intros [_ H]%andb_prop. apply N.leb_le in H.
  change (c_ "9") with 57 in H. lia.
Qed.
Definition readable (n : str) : Prop := forall acc s, exists acc',
  run n (set_mode (MName acc) s) = Done (set_mode (MName acc') s) /\ acc' = rev n ++ acc.
Lemma run_dec n acc s : acc <> [] -> run (dec n) (set_mode (MName acc) s) = Done (set_mode (MName (rev (dec n) ++ acc)) s).
Proof.
  intros Ha. apply run_name. eapply Forall_impl; [|apply dec_digits]. intros c Hc. cbn.
  split; [now apply is_digit_small|auto].
Qed.
Lemma group_name_readable id k : readable (group_name id k).
Proof.
  intros acc s. eexists. split; [|reflexivity]. unfold group_name.
  rewrite run_app, (run_name (s_ "__")); [|repeat constructor; cbn; tauto]. cbn [obind].
  rewrite run_app, run_dec by easy. cbn [obind].
  rewrite run_app, (run_name (s_ "_")); [|repeat constructor; cbn; tauto]. cbn [obind].
  rewrite run_dec by easy. rewrite !rev_app_distr, <- !app_assoc. reflexivity.
Qed.
Lemma group_name_nonempty id k : group_name id k <> [].
Proof. easy. Qed.
Lemma split_digits a b x y : Forall (fun c => is_digit_char c = true) a -> Forall (fun c => is_digit_char c = true) b ->
  a ++ c_ "_" :: x = b ++ c_ "_" :: y -> a = b /\ x = y.
Proof.
  revert b; induction a as [|c a IH]; intros [|d b]; cbn; intros Ha Hb H.
  - now injection H as ->.
  - injection H as <- _. now inversion Hb.
  - injection H as -> _. now inversion Ha.
  - injection H as -> H. inversion_clear Ha. inversion_clear Hb. destruct (IH b) as [-> ->]; auto.
Qed.
Lemma group_name_inj i j k l : group_name i k = group_name j l -> i = j /\ k = l.
Proof.
  unfold group_name. intros H. apply app_inv_head in H.
  apply split_digits in H as [H1 H2]; [|apply dec_digits|apply dec_digits].
  split; now apply dec_inj.
Qed.

(** ** How they are read *)
Definition get (o : outcome re) : re := match o with Done r => r | _ => REmpty end.
Definition re_int := Eval vm_compute in get (parse_syntax int_regex).
Definition re_float := Eval vm_compute in get (parse_syntax float_regex).
Definition re_word := Eval vm_compute in get (parse_syntax word_regex).
Definition re_anonymous := Eval vm_compute in get (parse_syntax anonymous_regex).
Definition inside2 := Eval vm_compute in get (parse_syntax (s_ "[^""\\]*(?:\\.[^""\\]*)*")).
Definition inside1 := Eval vm_compute in get (parse_syntax (s_ "[^'\\]*(?:\\.[^'\\]*)*")).
Definition re_string (id : N) : re :=
  RAlt (RCat (RLit quote2) (RCat (RCap (Some (group_name id 0)) inside2) (RLit quote2)))
       (RCat (RLit quote1) (RCat (RCap (Some (group_name id 1)) inside1) (RLit quote1))).

Ltac read_constant := intros ? ? ? ? []; vm_compute; reflexivity.
Lemma adds_int : adds_one int_regex re_int. Proof. read_constant. Qed.
Lemma adds_float : adds_one float_regex re_float. Proof. read_constant. Qed.
Lemma adds_word : adds_one word_regex re_word. Proof. read_constant. Qed.
Lemma adds_anonymous : adds_one anonymous_regex re_anonymous. Proof. read_constant. Qed.
Lemma reads_inside2 : reads (s_ "[^""\\]*(?:\\.[^""\\]*)*") inside2.
Proof. intros stack. eexists MRep, _, _. split; [constructor|]. split; vm_compute; reflexivity. Qed.
Lemma reads_inside1 : reads (s_ "[^'\\]*(?:\\.[^'\\]*)*") inside1.
Proof. intros stack. eexists MRep, _, _. split; [constructor|]. split; vm_compute; reflexivity. Qed.
Lemma string_regex_eq id : string_regex id =
  s_ "(?:" ++
    ((s_ """" ++ (s_ "(?P<" ++ group_name id 0 ++ s_ ">" ++ s_ "[^""\\]*(?:\\.[^""\\]*)*" ++ s_ ")") ++ s_ """")
     ++ bars [(s_ "'" ++ (s_ "(?P<" ++ group_name id 1 ++ s_ ">" ++ s_ "[^'\\]*(?:\\.[^'\\]*)*" ++ s_ ")") ++ s_ "'",
               [RLit quote1; RCap (Some (group_name id 1)) inside1; RLit quote1])])
  ++ s_ ")".
Proof. unfold string_regex, group_name, bars. cbn [flat_map fst]. rewrite <- !app_assoc. reflexivity. Qed.
Lemma adds_string id : adds_one (string_regex id) (re_string id).
Proof.
  rewrite string_regex_eq. apply adds_one_group.
  apply (reads_branches _ [RLit quote2; RCap (Some (group_name id 0)) inside2; RLit quote2]).
  - apply (adds_app _ _ [_] [_; _]); [apply adds_one_adds, (adds_quote quote2)|].
    apply (adds_app _ _ [_] [_]); [|apply adds_one_adds, (adds_quote quote2)].
    apply adds_one_adds, adds_one_named; [easy|apply group_name_readable|apply reads_inside2].
  - constructor; [|constructor]. cbn [fst snd].
    apply (adds_app _ _ [_] [_; _]); [apply adds_one_adds, (adds_quote quote1)|].
    apply (adds_app _ _ [_] [_]); [|apply adds_one_adds, (adds_quote quote1)].
    apply adds_one_adds, adds_one_named; [easy|apply group_name_readable|apply reads_inside1].
Qed.

(** ** What they match *)
Section Match.
  Context (digit space word : char -> bool).
  Notation rm := (rm digit space word).
  Notation cf := (cf digit space word).
  Notation class_has := (class_has digit space word).

  Definition d_class := RClass (mkClass false [CPerl false PDigit]).
  Lemma cf_digit : cf d_class (chars (fun c => digit c = true)).
  Proof.
    eapply cf_iff; [apply cf_class|]. intros s. unfold chars, Regex.class_has. cbn.
    split; intros (c & -> & H); exists c; (split; [reflexivity|]); now destruct (digit c).
  Qed.
  Lemma cf_number g : cf (RRep 1 None g d_class) (number digit).
  Proof. apply cf_plus, cf_digit. Qed.
  Lemma cf_digits g : cf (RRep 0 None g d_class) (digits digit).
  Proof. apply cf_star, cf_digit. Qed.

  Lemma app_eq_nil_l (s : str) P : (exists x y : str, s = x ++ y /\ x = [] /\ P y) <-> P s.
  Proof. split; [intros (x & y & -> & -> & H); exact H|intros H; now exists [], s]. Qed.

  Ltac cf_step :=
    lazymatch goal with
    | |- cf (RRep 1 None _ (RClass (mkClass false [CPerl false PDigit]))) _ => apply cf_number
    | |- cf (RRep 0 None _ (RClass (mkClass false [CPerl false PDigit]))) _ => apply cf_digits
    | |- cf (RCat _ _) _ => apply cf_cat
    | |- cf (RAlt _ _) _ => apply cf_alt
    | |- cf (RLit _) _ => apply cf_lit
    | |- cf (RClass _) _ => apply cf_class
    | |- cf (RRep 0 (Some 1) _ _) _ => apply cf_opt
    end.

  Lemma cf_int : exists r, re_int = RCap None r /\ cf r (int_string digit).
  Proof.
    eexists. split; [reflexivity|]. eapply cf_iff; [repeat cf_step|]. intros s. cbv beta. split.
    - intros [(x & y & -> & Hx & Hy)|H].
      + exists x, y. repeat split; [|apply Hy|apply Hy]. destruct Hx as [-> | ->]; [right; now left|now left].
      + exists [], s. auto.
    - intros (sign & b & -> & Hs & Hb). destruct Hs as [->|[<-|[]]].
      + now right.
      + left. exists (s_ "-"), b. split; [reflexivity|]. split; [now left|exact Hb].
  Qed.

  Lemma cf_sign g : cf (RRep 0 (Some 1) g (RClass (mkClass false [CRange (c_ "+") (c_ "+"); CRange (c_ "-") (c_ "-")])))
    (fun s => s = [] \/ In s [s_ "+"; s_ "-"]).
  Proof.
    eapply cf_iff; [apply cf_opt, cf_class|]. intros s. unfold chars. split.
    - intros [(c & -> & H)|H]; [right|now left]. unfold Regex.class_has in H.
      cbn [cl_items cl_negated existsb item_has] in H.
      rewrite xorb_false_l, orb_false_r in H. apply orb_prop in H as [H|H]; apply andb_prop in H as [H1 H2];
        apply N.leb_le in H1, H2;
        [replace c with (c_ "+") by lia|replace c with (c_ "-") by lia]; cbn; tauto.
    - intros [->|[<-|[<-|[]]]]; [now right|left; now exists (c_ "+")|left; now exists (c_ "-")].
  Qed.

  Lemma cf_mantissa : cf (RAlt (RRep 1 None true d_class)
      (RAlt (RCat (RRep 1 None true d_class) (RCat (RLit 46) (RRep 0 None true d_class)))
            (RCat (RRep 0 None true d_class) (RCat (RLit 46) (RRep 1 None true d_class)))))
    (mantissa digit).
  Proof.
    eapply cf_iff; [unfold d_class; repeat cf_step|]. intros s. cbv beta. unfold mantissa, number, digits. split.
    - intros [H|[(a & x & -> & [Ha Hd] & y & b & -> & -> & Hb)|(a & x & -> & Ha & y & b & -> & -> & [Hb Hd])]];
        [now left| |]; right; exists a, b; (split; [reflexivity|]); rewrite Forall_app; repeat split; try assumption.
      + intros E. apply app_eq_nil in E as [E _]. contradiction.
      + intros E. apply app_eq_nil in E as [_ E]. contradiction.
    - intros [H|(a & b & -> & Hn & Hd)]; [now left|right]. apply Forall_app in Hd as [Ha Hb].
      destruct a as [|c a].
      + right. exists [], (s_ "." ++ b). repeat split; [constructor|]. exists (s_ "."), b. repeat split; assumption.
      + left. exists (c :: a), (s_ "." ++ b). repeat split; [easy|assumption|]. exists (s_ "."), b. repeat split; assumption.
  Qed.
  Lemma cf_e : cf (RClass (mkClass false [CRange 101 101; CRange 69 69])) (fun s => exists e, s = [e] /\ In e (s_ "eE")).
  Proof.
    eapply cf_iff; [apply cf_class|]. intros s. unfold chars. split; intros (c & -> & H); exists c; (split; [reflexivity|]).
    - unfold Regex.class_has in H. cbn [cl_items cl_negated existsb item_has] in H.
      rewrite xorb_false_l, orb_false_r in H. apply orb_prop in H as [H|H]; apply andb_prop in H as [H1 H2];
        apply N.leb_le in H1, H2;
        [replace c with (c_ "e") by (change (c_ "e") with 101; lia)|replace c with (c_ "E") by (change (c_ "E") with 69; lia)]; cbn; tauto.
    - now destruct H as [<-|[<-|[]]].
  Qed.
  Lemma cf_exponent : cf (RRep 0 (Some 1) true (RCat (RClass (mkClass false [CRange 101 101; CRange 69 69]))
      (RCat (RRep 0 (Some 1) true (RClass (mkClass false [CRange 43 43; CRange 45 45]))) (RRep 1 None true d_class))))
    (exponent digit).
  Proof.
    eapply cf_iff; [apply cf_opt, cf_cat; [apply cf_e|apply cf_cat; [apply cf_sign|apply cf_number]]|].
    intros s. cbv beta. unfold exponent, signed. split.
    - intros [(x & y & -> & (e & -> & He) & a & b & -> & Ha & Hb)|H]; [right|now left].
      exists e, (a ++ b). split; [reflexivity|]. split; [exact He|]. exists a, b. auto.
    - intros [H|(e & x & -> & He & a & b & -> & Ha & Hb)]; [now right|left].
      exists [e], (a ++ b). split; [reflexivity|]. split; [eauto|]. exists a, b. auto.
  Qed.
  Lemma cf_float : exists r, re_float = RCap None r /\ cf r (float_string digit).
  Proof.
    eexists. split; [reflexivity|]. eapply cf_iff.
    - apply cf_cat; [apply cf_sign|]. apply cf_alt; [exact (cf_lits _ _ _ (s_ "inf"))|].
      apply cf_alt; [exact (cf_lits _ _ _ (s_ "NaN"))|]. apply cf_cat; [apply cf_mantissa|apply cf_exponent].
    - intros s. cbv beta. unfold float_string, signed, unsigned_float. reflexivity.
  Qed.

  Lemma cf_word : exists r, re_word = RCap None r /\ cf r (word_string space).
  Proof.
    eexists. split; [reflexivity|]. unfold word_string. eapply cf_plus, cf_iff; [apply cf_class|].
    intros s. unfold chars, Regex.class_has. cbn. split; intros (c & -> & H); exists c; (split; [reflexivity|]); now destruct (space c).
  Qed.
  Lemma cf_anonymous : exists r, re_anonymous = RCap None r /\ cf r (fun s => ~ In newline s).
  Proof.
    eexists. split; [reflexivity|]. eapply cf_iff; [apply cf_star, cf_dot|]. intros s. rewrite Forall_forall. split.
    - intros H Hn. now apply (H newline).
    - intros H c Hc ->. contradiction.
  Qed.

  Definition not_in_quotes q := RClass (mkClass true [CRange q q; CRange 92 92]).
  Lemma cf_not_in_quotes q : cf (not_in_quotes q) (chars (fun c => c <> q /\ c <> backslash)).
  Proof.
    eapply cf_iff; [apply cf_class|]. intros s. unfold chars, Regex.class_has.
    cbn [cl_items cl_negated existsb item_has].
    split; intros (c & -> & H); exists c; (split; [reflexivity|]); change backslash with 92 in *.
    - rewrite orb_false_r in H. apply negb_true_iff, orb_false_iff in H as [H1 H2].
      split; intros ->; rewrite N.leb_refl in *; easy.
    - destruct H as [H1 H2]. rewrite orb_false_r. apply negb_true_iff, orb_false_iff.
      split; apply andb_false_iff; rewrite !N.leb_gt; lia.
  Qed.
  Lemma cf_inside q : cf (RCat (RRep 0 None true (not_in_quotes q))
      (RRep 0 None true (RCat (RLit 92) (RCat RDot (RRep 0 None true (not_in_quotes q)))))) (quoted q).
  Proof.
    eapply cf_iff.
    - apply cf_cat; [apply cf_star, cf_not_in_quotes|]. apply cf_rep, cf_cat; [apply cf_lit|].
      apply cf_cat; [apply cf_dot|apply cf_star, cf_not_in_quotes].
    - assert (Hp : forall x b, Forall (fun c => c <> q /\ c <> backslash) x -> quoted q b -> quoted q (x ++ b)).
      { induction 1 as [|c x [H1 H2] Hx IH]; intros Hb; cbn; [exact Hb|]. constructor; auto. }
      intros s. cbv beta. split.
      + intros (x & y & -> & Hx & l & _ & _ & -> & Hl). apply Hp; [exact Hx|].
        induction Hl as [|z l (a & b & -> & -> & d & y & -> & (c & -> & Hc) & Hy) Hl IH]; cbn; [constructor|].
        apply quoted_escape; [exact Hc|]. now apply Hp.
      + induction 1 as [|c b H1 H2 Hb (x & y & -> & Hx & l & _ & _ & -> & Hl)|c b H1 Hb (x & y & -> & Hx & l & _ & _ & -> & Hl)].
        * exists [], []. split; [reflexivity|]. split; [constructor|]. exists []. repeat split; [lia|constructor].
        * exists (c :: x), (List.concat l). split; [reflexivity|]. split; [now constructor|].
          exists l. repeat split; [lia|assumption].
        * exists [], (backslash :: c :: x ++ List.concat l). split; [reflexivity|]. split; [constructor|].
          exists ((backslash :: c :: x) :: l). repeat split; [lia|]. constructor; [|assumption].
          exists [backslash], (c :: x). repeat split. exists [c], x. repeat split; [now exists c|assumption].
  Qed.

  (** The pieces of each type, in any context. *)
  Lemma rm_quotes a n r q p m post c : cf r (quoted q) ->
    rm (RCat (RLit a) (RCat (RCap n r) (RLit a))) p m post c <->
    exists b, m = a :: b ++ [a] /\ quoted q b /\ c = [Some b].
  Proof.
    intros H. split.
    - intros (x & y & ca & cb & -> & -> & H1 & H2)%rm_cat_inv. inversion H1; subst.
      apply rm_cat_inv in H2 as (x & z & c2 & c3 & -> & -> & H2 & H3).
      apply (cap_cf _ _ _ _ _ _ _ _ _ _ H) in H2 as [Hq ->]. inversion H3; subst. exists x. auto.
    - intros (b & -> & Hb & ->). change (a :: b ++ [a]) with ([a] ++ (b ++ [a])).
      change [Some b] with ([] ++ [Some b] ++ []). constructor; [constructor|]. constructor; [|constructor].
      now apply (cap_cf _ _ _ _ _ _ _ _ _ _ H).
  Qed.
  Lemma rm_string id p m q c : rm (re_string id) p m q c <-> typed digit space (s_ "string") m c.
  Proof.
    unfold re_string. split.
    - intros [(d & -> & H)|(d & -> & H)]%rm_alt_inv.
      + apply (rm_quotes _ _ _ quote2) in H as (b & -> & Hb & ->); [|apply (cf_inside quote2)].
        now apply (typed_string2 digit space).
      + apply (rm_quotes _ _ _ quote1) in H as (b & -> & Hb & ->); [|apply (cf_inside quote1)].
        now apply (typed_string1 digit space).
    - inversion 1; subst.
      + set (r1 := RCat (RLit quote1) _).
        change [Some b; None] with ([Some b] ++ no_captures r1). apply rm_left.
        apply (rm_quotes _ _ _ quote2); [apply (cf_inside quote2)|eauto].
      + set (r2 := RCat (RLit quote2) _).
        change [None; Some b] with (no_captures r2 ++ [Some b]). apply rm_right.
        apply (rm_quotes _ _ _ quote1); [apply (cf_inside quote1)|eauto].
  Qed.
  Lemma rm_simple L name r r0 p m q c : (exists r, r0 = RCap None r /\ cf r L) -> r = r0 ->
    (forall m c, typed digit space name m c <-> L m /\ c = [Some m]) ->
    rm r p m q c <-> typed digit space name m c.
  Proof. intros (x & -> & H) -> E. rewrite E. now apply cap_cf. Qed.
  Ltac typed_inv := intros; split; [inversion 1; subst; auto|intros [? ->]; now constructor].
  Lemma rm_int p m q c : rm re_int p m q c <-> typed digit space (s_ "int") m c.
  Proof. eapply rm_simple; [apply cf_int|reflexivity|typed_inv]. Qed.
  Lemma rm_float p m q c : rm re_float p m q c <-> typed digit space (s_ "float") m c.
  Proof. eapply rm_simple; [apply cf_float|reflexivity|typed_inv]. Qed.
  Lemma rm_word p m q c : rm re_word p m q c <-> typed digit space (s_ "word") m c.
  Proof. eapply rm_simple; [apply cf_word|reflexivity|typed_inv]. Qed.
  Lemma rm_anonymous p m q c : rm re_anonymous p m q c <-> typed digit space [] m c.
  Proof. eapply rm_simple; [apply cf_anonymous|reflexivity|typed_inv]. Qed.
End Match.
