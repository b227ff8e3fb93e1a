(** What [Display] prints is read back with the same meaning. *)
From Coq Require Import PeanoNat.
From Verif Require Export ProofHir4 ProofDecimal.
From Verif Require Import CharLevel.

(** ** Counts *)
Lemma run_count t : Forall (fun c => is_digit_char c = true) t -> forall n s,
  run t (set_mode (MCount n) s) = Done (set_mode (MCount (fold_left add_digit t n)) s).
Proof.
  induction 1 as [|c t Hc Ht IH]; intros n s; [reflexivity|]. rewrite run_cons. cbn [step st_mode set_mode]; try unfold step_count; rewrite Hc; cbn [obind].
  change (mkState _ _ _ _) with (set_mode (MCount (add_digit n c)) s). now rewrite IH.
Qed.
Lemma run_count_to k t : Forall (fun c => is_digit_char c = true) t -> forall n s,
  run t (set_mode (MCountTo k n) s) = Done (set_mode (MCountTo k (fold_left add_digit t n)) s).
Proof.
  induction 1 as [|c t Hc Ht IH]; intros n s; [reflexivity|]. rewrite run_cons. cbn [step st_mode set_mode]; try unfold step_count; rewrite Hc; cbn [obind].
  change (mkState _ _ _ _) with (set_mode (MCountTo k (add_digit n c)) s). now rewrite IH.
Qed.
Lemma add_digits t : forall n, fold_left add_digit t (Some n) = Some (acc_value t n).
Proof. induction t as [|c t IH]; intros n; [reflexivity|]. cbn [fold_left]. change (add_digit (Some n) c) with (Some (n * 10 + (c - c_ "0"))). rewrite IH. reflexivity. Qed.
Lemma dec_digits_value n : fold_left add_digit (dec n) None = Some n.
Proof.
  destruct (dec_decimal n) as (H1 & _ & H2 & _). destruct (dec n) as [|c t]; [easy|]. cbn [fold_left].
  change (add_digit None c) with (Some (0 * 10 + (c - c_ "0"))). rewrite add_digits. f_equal. exact H2.
Qed.
Definition printed_greedy (min : N) (max : option N) (g : bool) : bool :=
  match max with Some n => if min =? n then true else g | None => g end.
Lemma count_comma s n : n <= u32_max -> step_count s (Some n) (c_ ",") = Done (set_mode (MCountTo n None) s).
Proof. intros H. apply N.ltb_ge in H. unfold step_count. rewrite H. reflexivity. Qed.
Lemma count_close s n : n <= u32_max -> step_count s (Some n) (c_ "}") = repeat_last n (Some n) s.
Proof. intros H. apply N.ltb_ge in H. unfold step_count. rewrite H. reflexivity. Qed.
Lemma adds_rep t r min max g : adds_settled t r -> rep_ok min max -> (min =? 1) && opt_eqb N.eqb max (Some 1) = false ->
  adds (t ++ rep_suffix min max g) [RRep min max (printed_greedy min max g) r].
Proof.
  intros Ht Hr Hone m items alts stack Hm. rewrite run_app. destruct (Ht m items alts stack Hm) as (m0 & [Hm0 Hrep] & ->). cbn [obind rev app].
  assert (Hlazy : forall a b, exists m', ready m' /\
    run (if g then [] else s_ "?") (mkState MRep (RRep a b true r :: items) alts stack) = Done (mkState m' (RRep a b g r :: items) alts stack))
    by (intros a b; destruct g; [exists MRep|exists MNormal]; split; constructor).
  assert (Hbrace : forall n u, n <= u32_max ->
    run (s_ "{" ++ dec n ++ u) (mkState m0 (r :: items) alts stack) = run u (set_mode (MCount (Some n)) (mkState MNormal (r :: items) alts stack))).
  { intros n u Hn. assert (E : run (s_ "{" ++ dec n ++ u) (mkState m0 (r :: items) alts stack) =
      run (dec n ++ u) (set_mode (MCount None) (mkState MNormal (r :: items) alts stack))).
    { pose proof (dec_digits n) as Hd. pose proof (dec_digits_value n) as Hv. destruct (dec n) as [|c w]; [discriminate Hv|].
      inversion_clear Hd. destruct Hm0; [reflexivity..|]. change (s_ "{" ++ (c :: w) ++ u) with (c_ "{" :: c :: w ++ u).
      change ((c :: w) ++ u) with (c :: w ++ u). cbn [run step st_mode set_mode]. change (c_ "{" =? c_ "{") with true. cbv iota. cbn [obind run step st_mode set_mode].
      rewrite digit_no_letter by assumption. reflexivity. }
    rewrite E, run_app, (run_count _ (dec_digits n)). cbn [obind]. now rewrite dec_digits_value. }
  assert (Hop : forall op a b, op = [c_ "?"] /\ a = 0 /\ b = Some 1 \/ op = [c_ "*"] /\ a = 0 /\ b = None \/ op = [c_ "+"] /\ a = 1 /\ b = None ->
    run op (mkState m0 (r :: items) alts stack) = Done (mkState MRep (RRep a b true r :: items) alts stack)).
  { intros op a b [(-> & -> & ->)|[(-> & -> & ->)|(-> & -> & ->)]]; destruct Hm0; try reflexivity. now destruct Hrep. }
  assert (Hcomma : forall n u, n <= u32_max ->
    run (s_ "," ++ u) (set_mode (MCount (Some n)) (mkState MNormal (r :: items) alts stack)) =
    run u (set_mode (MCountTo n None) (mkState MNormal (r :: items) alts stack))).
  { intros n u Hn. rewrite run_app. change (s_ ",") with [c_ ","]. rewrite run_cons. cbn [step st_mode set_mode]. now rewrite count_comma. }
  destruct Hr as [Hmin Hmax]. unfold rep_suffix, printed_greedy. destruct max as [n|].
  - destruct ((min =? 0) && (n =? 1)) eqn:E01.
    + apply andb_prop in E01 as [->%N.eqb_eq ->%N.eqb_eq]. rewrite run_app, (Hop _ 0 (Some 1)) by auto. cbn [obind]. apply (Hlazy 0 (Some 1)).
    + cbn [opt_eqb] in Hone. rewrite Hone. destruct (N.eqb_spec min n) as [->|Hne].
      * exists MRep. split; [constructor|]. rewrite Hbrace by exact Hmin. change (s_ "}") with [c_ "}"]. rewrite run_cons. cbn [step st_mode set_mode].
        now rewrite count_close.
      * rewrite Hbrace by exact Hmin. rewrite Hcomma by exact Hmin. rewrite run_app, (run_count_to _ _ (dec_digits n)), dec_digits_value. cbn [obind].
        rewrite run_app. cbn [s_ run step st_mode set_mode]. destruct (N.ltb_spec u32_max n); [lia|]. destruct (N.ltb_spec n min); [lia|]. apply (Hlazy min (Some n)).
  - destruct (N.eqb_spec min 0) as [->|H0]; [rewrite run_app, (Hop _ 0 None) by auto; apply (Hlazy 0 None)|].
    destruct (N.eqb_spec min 1) as [->|H1]; [rewrite run_app, (Hop _ 1 None) by auto; apply (Hlazy 1 None)|].
    rewrite Hbrace by exact Hmin. change (s_ ",}" ++ ?u) with (s_ "," ++ s_ "}" ++ u). rewrite Hcomma by exact Hmin. rewrite run_app. apply (Hlazy min None).
Qed.

(** ** Chars *)
Lemma meta_escape c : is_meta c = true -> escape_meaning c = Done (EscLit c).
Proof. intros Hd. unfold is_meta in Hd. apply contains_In in Hd. cbn in Hd. repeat destruct Hd as [<-|Hd]; try reflexivity. easy. Qed.
Lemma plain_char c d : is_meta c = false -> is_meta d = true -> (c =? d) = false.
Proof. intros H1 H2. destruct (N.eqb_spec c d) as [->|]; [congruence|reflexivity]. Qed.
Lemma adds_show_char c : adds_one (show_char c) (RLit c).
Proof.
  intros m items alts stack Hm. unfold show_char. destruct (is_meta c) eqn:E.
  - rewrite run_cons. replace (step _ (c_ "\")) with (Done (mkState MEsc items alts stack)) by now destruct Hm.
    cbn [obind]. rewrite run_cons. cbn [step st_mode]. rewrite (meta_escape c E). reflexivity.
  - rewrite run_cons, step_plain; [reflexivity|assumption|].
    apply forallb_forall. intros d Hd. rewrite plain_char; [reflexivity|exact E|]. cbn in Hd. repeat destruct Hd as [<-|Hd]; try reflexivity. easy.
Qed.
Lemma adds_show_chars t : adds (flat_map show_char t) (map RLit t).
Proof.
  replace (map RLit t) with (flat_map (fun c => [RLit c]) t) by (induction t; cbn; congruence).
  apply adds_flat_map. intros c _. apply adds_one_adds, adds_show_char.
Qed.

(** ** Classes *)
Inductive in_class : list class_item -> mode -> Prop :=
| in_class_0 : in_class [] MClass0
| in_class_in l : in_class l (MClassIn false l)
| in_class_lit l a : in_class (CRange a a :: l) (MClassLit false l a).
Lemma step_class_char l c s : is_meta c = false -> step_class false l s c = Done (set_mode (MClassLit false l c) s).
Proof.
  intros E. unfold step_class. rewrite (plain_char c (c_ "]") E eq_refl), (plain_char c (c_ "-") E eq_refl), (plain_char c (c_ "\") E eq_refl).
  replace (contains (s_ "[&~") c) with false; [reflexivity|]. symmetry. apply contains_false. cbn. intros H. revert E.
  repeat destruct H as [<-|H]; try discriminate. easy.
Qed.
Lemma run_class_char l m c items alts stack : in_class l m ->
  run (show_char c) (mkState m items alts stack) = Done (mkState (MClassLit false l c) items alts stack).
Proof.
  intros Hm. unfold show_char. destruct (is_meta c) eqn:E.
  - rewrite run_cons. replace (step _ (c_ "\")) with (Done (mkState (MClassEsc false l None) items alts stack)) by now destruct Hm.
    cbn [obind]. rewrite run_cons. cbn [step st_mode]. rewrite (meta_escape c E). reflexivity.
  - rewrite run_cons. destruct Hm; cbn [step st_mode].
    + rewrite (plain_char c (c_ "^") E eq_refl), (plain_char c (c_ "-") E eq_refl), (plain_char c (c_ "]") E eq_refl).
      rewrite step_class_char by exact E. reflexivity.
    + rewrite step_class_char by exact E. reflexivity.
    + rewrite (plain_char c (c_ "-") E eq_refl), (plain_char c (c_ "&") E eq_refl). cbn [andb]. rewrite step_class_char by exact E. reflexivity.
Qed.
Definition print_items (x : N * N) : list class_item :=
  let '(a, b) := x in
  if a =? b then [CRange a a] else if a + 1 =? b then [CRange a a; CRange b b] else [CRange a b].
Lemma run_class_range l m x items alts stack : in_class l m -> fst x <= snd x -> exists m', in_class (rev (print_items x) ++ l) m' /\ m' <> MClass0 /\
  run (show_range x) (mkState m items alts stack) = Done (mkState m' items alts stack).
Proof.
  destruct x as [a b]. cbn [fst snd]. intros Hm Hab. unfold show_range, print_items. destruct (N.eqb_spec a b) as [->|Hne].
  - rewrite run_class_char with (l := l) by exact Hm. eexists. split; [|split; [|reflexivity]]; [constructor|easy].
  - destruct (N.eqb_spec (a + 1) b) as [Heq|Hne'].
    + rewrite run_app, run_class_char with (l := l) by exact Hm. cbn [obind].
      rewrite run_class_char with (l := CRange a a :: l) by constructor. eexists. split; [|split; [|reflexivity]]; [constructor|easy].
    + rewrite run_app, run_class_char with (l := l) by exact Hm. cbn [obind]. exists (MClassIn false (CRange a b :: l)).
      split; [constructor|]. split; [easy|]. change (s_ "-" ++ show_char b) with (c_ "-" :: show_char b). rewrite run_cons.
      change (step _ (c_ "-")) with (Done (mkState (MClassRange false l a) items alts stack)). cbn [obind]. unfold show_char.
      assert (Hr : forall s, add_range false l s a b = Done (set_mode (MClassIn false (CRange a b :: l)) s)).
      { intros s. unfold add_range. destruct (N.ltb_spec b a); [lia|reflexivity]. }
      destruct (is_meta b) eqn:E.
      * rewrite run_cons. change (step _ (c_ "\")) with (Done (mkState (MClassEsc false l (Some a)) items alts stack)).
        cbn [obind]. rewrite run_cons. cbn [step st_mode]. rewrite (meta_escape b E). cbn [obind class_lit]. rewrite Hr. reflexivity.
      * rewrite run_cons. cbn [step st_mode]. rewrite (plain_char b (c_ "]") E eq_refl), (plain_char b (c_ "-") E eq_refl), (plain_char b (c_ "\") E eq_refl).
        rewrite Hr. reflexivity.
Qed.
Lemma run_class_ranges k : ranges_ok k -> forall l m items alts stack, in_class l m -> exists m', in_class (rev (flat_map print_items k) ++ l) m' /\
  (k <> [] -> m' <> MClass0) /\ run (flat_map show_range k) (mkState m items alts stack) = Done (mkState m' items alts stack).
Proof.
  induction 1 as [|x k Hx Hk IH]; intros l m items alts stack Hm.
  - exists m. split; [exact Hm|]. split; [easy|reflexivity].
  - destruct (run_class_range l m x items alts stack Hm Hx) as (m1 & H1 & H2 & H3).
    destruct (IH (rev (print_items x) ++ l) m1 items alts stack H1) as (m2 & H4 & H5 & H6). exists m2. cbn [flat_map].
    rewrite rev_app_distr, <- app_assoc. split; [exact H4|]. rewrite run_app, H3. cbn [obind]. split; [|exact H6].
    intros _. destruct k; [|now apply H5]. cbn in H6. injection H6 as <-. exact H2.
Qed.
Lemma adds_class k : ranges_ok k -> k <> [] ->
  adds_one (s_ "[" ++ flat_map show_range k ++ s_ "]") (RClass (mkClass false (flat_map print_items k))).
Proof.
  intros Hk Hne m items alts stack Hm. change (s_ "[" ++ ?t) with (c_ "[" :: t). rewrite run_cons.
  replace (step _ (c_ "[")) with (Done (mkState MClass0 items alts stack)) by now destruct Hm. cbn [obind]. rewrite run_app.
  destruct (run_class_ranges k Hk [] MClass0 items alts stack in_class_0) as (m' & H1 & H2 & ->). cbn [obind]. rewrite app_nil_r in H1.
  specialize (H2 Hne). rewrite <- (rev_involutive (flat_map print_items k)). destruct H1; [easy|reflexivity|reflexivity].
Qed.
Lemma print_items_has digit space word k c : class_has digit space word (mkClass false (flat_map print_items k)) c = in_ranges k c.
Proof.
  unfold class_has. cbn [cl_negated cl_items]. rewrite Bool.xorb_false_l. unfold in_ranges.
  induction k as [|[a b] k IH]; [reflexivity|]. cbn [flat_map existsb]. rewrite existsb_app, IH. f_equal. cbn [fst snd print_items].
  destruct (N.eqb_spec a b) as [->|]; [cbn; apply orb_false_r|]. destruct (N.eqb_spec (a + 1) b) as [<-|]; cbn [existsb item_has]; [|apply orb_false_r].
  rewrite orb_false_r. destruct (N.leb_spec a c), (N.leb_spec c a), (N.leb_spec (a + 1) c), (N.leb_spec c (a + 1)); cbn; try reflexivity; lia.
Qed.

(** ** The whole *)
Lemma same_equiv r r' : groups r = groups r' -> (forall digits spaces words, equiv digits spaces words r r') -> same_meaning r r'.
Proof. intros H1 H2. split; [exact H1|]. intros. now apply H2. Qed.
Lemma equiv_same r r' : same_meaning r r' -> groups r = groups r' /\ forall digits spaces words, equiv digits spaces words r r'.
Proof. intros [H1 H2]. split; [exact H1|]. split; [now rewrite H1|apply H2]. Qed.
Lemma same_refl r : same_meaning r r.
Proof. apply same_equiv; [reflexivity|]. intros. apply equiv_refl. Qed.
Definition is_rep (h : hir) : bool := match h with HRep _ _ _ _ => true | _ => false end.
Definition shown (h : hir) : Prop := exists r, adds (show true h) [r] /\ (is_rep h = false -> adds_settled (show true h) r) /\ same_meaning r (unhir h).
Lemma shown_one h r : adds_one (show true h) r -> same_meaning r (unhir h) -> shown h.
Proof. intros H1 H2. exists r. split; [now apply adds_one_adds|]. split; [intros _; now apply adds_one_settled|exact H2]. Qed.
Lemma same_list l rs : Forall2 (fun h r => same_meaning r (unhir h)) l rs ->
  flat_map groups rs = flat_map groups (map unhir l) /\ forall digits spaces words, Forall2 (equiv digits spaces words) rs (map unhir l).
Proof.
  induction 1 as [|h r l rs H Hl [IH1 IH2]]; [|apply equiv_same in H as [Hg He]]; [split; [reflexivity|constructor]|]. cbn [flat_map map]. split; [congruence|].
  intros. constructor; [apply He|apply IH2].
Qed.
Lemma all_shown l : Forall shown l -> exists rs, Forall2 (fun h r => adds (show true h) [r]) l rs /\ Forall2 (fun h r => same_meaning r (unhir h)) l rs.
Proof.
  induction 1 as [|h l (r & H1 & _ & H2) Hl (rs & H3 & H4)]; [exists []; split; constructor|].
  exists (r :: rs). split; constructor; assumption.
Qed.
Lemma adds_concat l rs : Forall2 (fun h r => adds (show true h) [r]) l rs -> adds (List.concat (map (show true) l)) rs.
Proof. induction 1; [apply adds_nil|]. cbn [map List.concat]. now apply (adds_app _ _ [y]). Qed.
Lemma join_bars f (l : list hir) h rs r : adds (f h) [r] -> Forall2 (fun h r => adds (f h) [r]) l rs -> reads (join_with (s_ "|") (map f (h :: l))) (mk_alt (r :: rs)).
Proof.
  intros Hh Hl.
  assert (E : join_with (s_ "|") (map f (h :: l)) = f h ++ bars (combine (map f l) (map (fun r => [r]) rs))).
  { clear Hh. revert h. induction Hl as [|h' r' l rs Hr Hl IH]; intros h; [cbn; now rewrite app_nil_r|].
    cbn [map] in *. change (join_with _ (f h :: f h' :: map f l)) with (f h ++ s_ "|" ++ join_with (s_ "|") (f h' :: map f l)).
    rewrite IH. reflexivity. }
  rewrite E. replace (mk_alt (r :: rs)) with (mk_alt (mk_cat [r] :: cats (combine (map f l) (map (fun r => [r]) rs)))).
  - apply reads_branches; [exact Hh|]. clear E Hh. induction Hl; constructor; assumption.
  - f_equal. cbn [mk_cat]. f_equal. clear - Hl. induction Hl; [reflexivity|]. cbn. f_equal. exact IHHl.
Qed.
Lemma printable_cat l : printable (HCat l) <-> Forall printable l.
Proof. cbn. induction l as [|h l IH]; [easy|]. rewrite Forall_cons_iff, IH. reflexivity. Qed.
Lemma printable_alt l : printable (HAlt l) <-> l <> [] /\ Forall printable l.
Proof. rewrite <- printable_cat. reflexivity. Qed.
Lemma re_ok_names r n : re_ok r -> In (Some n) (groups r) -> readable_name n.
Proof.
  induction r as [|c| |k|l|min max g r IH|m r IH|a IHa b IHb|a IHa b IHb]; cbn; try easy.
  - intros [_ H]. now apply IH.
  - intros [H1 H2] [->|H]; [exact H1|now apply IH].
  - intros [H1 H2] [H|H]%in_app_or; auto.
  - intros [H1 H2] [H|H]%in_app_or; auto.
Qed.
Lemma group_name_readable_name n : group_name_string n -> readable_name n.
Proof. intros (t & r & Ht & Hn). eapply re_ok_names; [eapply parsed_ok; exact Ht|exact Hn]. Qed.
Lemma readable_group_name n : readable_name n -> group_name_string n.
Proof.
  intros Hn. exists (s_ "(?P<" ++ n ++ s_ ">" ++ [] ++ s_ ")"), (RCap (Some n) REmpty). split; [|now left].
  apply parse_reads_iff. change (RCap (Some n) REmpty) with (mk_cat [RCap (Some n) REmpty]). apply adds_reads, adds_one_adds.
  apply adds_one_readable; [exact Hn|]. apply (adds_reads [] []), adds_nil.
Qed.
Lemma ok_printable h : hir_ok h -> printable h.
Proof.
  induction h as [|t|k|l|a b g h IH|i n h IH|l IH|l IH] using hir_ind'; intros Hok; try exact I.
  - exact Hok.
  - destruct Hok as [(Hr & _) Hok]. split; [exact Hr|now apply IH].
  - destruct Hok as [Hn Hok]. split; [|now apply IH]. destruct n; [now apply readable_group_name|exact I].
  - rewrite ok_cat in Hok. rewrite printable_cat. induction IH; inversion_clear Hok; constructor; auto.
  - rewrite ok_alt in Hok. rewrite printable_alt. destruct Hok as [Hl Hok]. split; [exact Hl|].
    clear Hl. induction IH; inversion_clear Hok; constructor; auto.
Qed.
Lemma show_shown h : printable h -> shown h.
Proof.
  induction h as [|t|k|l|a b g h IH|i n h IH|l IH|l IH] using hir_ind'; intros Hok.
  - apply (shown_one HEmpty REmpty); [|apply same_refl]. apply (adds_one_group [] REmpty). apply (adds_reads [] []), adds_nil.
  - destruct t as [|c [|c' t]].
    + apply (shown_one (HLit []) REmpty); [|apply same_refl]. apply (adds_one_group [] REmpty). apply (adds_reads [] []), adds_nil.
    + apply (shown_one (HLit [c]) (RLit c)); [|apply same_refl]. cbn [show flat_map]. rewrite app_nil_r. apply adds_show_char.
    + apply (shown_one (HLit (c :: c' :: t)) (mk_cat (map RLit (c :: c' :: t)))); [|apply same_refl].
      change (show true (HLit (c :: c' :: t))) with (group_text (flat_map show_char (c :: c' :: t))).
      apply adds_one_group, adds_reads, adds_show_chars.
  - destruct k as [|x k].
    + apply (shown_one (HClass []) (RClass (mkClass false []))); [|apply same_refl]. intros m items alts stack Hm. now destruct Hm.
    + apply (shown_one (HClass (x :: k)) (RClass (mkClass false (flat_map print_items (x :: k))))); [now apply adds_class|].
      apply same_equiv; [reflexivity|]. intros. apply equiv_class. intros c Hc. now rewrite print_items_has, class_of_has.
  - assert (Hl : adds_settled (show true (HLook l)) (RLook l)).
    { intros m items alts stack Hm. destruct l; [exists MNormal|exists MNormal|exists MWord|exists MNormal];
        (split; [split; [constructor|discriminate]|]); now destruct Hm. }
    exists (RLook l). split; [now apply adds_settled_adds|]. split; [intros _; exact Hl|apply same_refl].
  - destruct Hok as [Hr Hok]. destruct (IH Hok) as (r & H1 & H2 & (H3 & H4)%equiv_same).
    assert (Hone : adds_settled (match h with HRep _ _ _ _ => group_text (show true h) | _ => show true h end) r).
    { destruct (is_rep h) eqn:E.
      - destruct h; try discriminate E. apply adds_one_settled, adds_one_group. change r with (mk_cat [r]). now apply adds_reads.
      - specialize (H2 eq_refl). now destruct h. }
    change (show true (HRep a b g h)) with (match h with HRep _ _ _ _ => group_text (show true h) | _ => show true h end ++ rep_suffix a b g) in *.
    destruct ((a =? 1) && opt_eqb N.eqb b (Some 1)) eqn:Hm.
    + exists r. split; [|split; [discriminate|]].
      * change (show true (HRep a b g h)) with (match h with HRep _ _ _ _ => group_text (show true h) | _ => show true h end ++ rep_suffix a b g).
        destruct b as [b|]; [|now rewrite andb_false_r in Hm]. apply andb_prop in Hm as [->%N.eqb_eq ->%N.eqb_eq].
        change (rep_suffix 1 (Some 1) g) with (@nil char). rewrite app_nil_r. now apply adds_settled_adds.
      * apply same_equiv; [exact H3|]. intros. destruct b as [b|]; [|now rewrite andb_false_r in Hm]. apply andb_prop in Hm as [->%N.eqb_eq ->%N.eqb_eq].
        eapply equiv_trans; [apply H4|]. apply equiv_sym, rep_one.
    + exists (RRep a b (printed_greedy a b g) r). split; [|split; [discriminate|]].
      * change (show true (HRep a b g h)) with (match h with HRep _ _ _ _ => group_text (show true h) | _ => show true h end ++ rep_suffix a b g).
        now apply adds_rep.
      * apply same_equiv; [exact H3|]. intros. apply equiv_rep, H4.
  - destruct Hok as [Hn Hok]. destruct (IH Hok) as (r & H1 & H2 & (H3 & H4)%equiv_same). apply (shown_one (HCap i n h) (RCap n r)).
    + change r with (mk_cat [r]). apply adds_reads in H1. cbn [show]. destruct n as [n|].
      * rewrite <- !app_assoc. apply adds_one_readable; [now apply group_name_readable_name|exact H1].
      * apply adds_one_capture; [|exact H1]. apply (parse_no_question (show true h) (mk_cat [r])). now apply parse_reads_iff.
    + apply same_equiv; [cbn; now rewrite H3|]. intros. apply equiv_cap, H4.
  - rewrite printable_cat in Hok. assert (Hl : Forall shown l) by (clear - IH Hok; induction IH; inversion_clear Hok; constructor; auto).
    destruct (all_shown l Hl) as (rs & H1 & H2). apply same_list in H2 as [H2 H3]. apply (shown_one (HCat l) (mk_cat rs)).
    + apply adds_one_group, adds_reads, adds_concat, H1.
    + cbn [unhir]. apply same_equiv; [now rewrite !groups_mk_cat|]. intros. apply mk_cat_ext, H3.
  - rewrite printable_alt in Hok. destruct Hok as [Hne Hok].
    assert (Hl : Forall shown l) by (clear - IH Hok; induction IH; inversion_clear Hok; constructor; auto).
    destruct (all_shown l Hl) as (rs & H1 & H2). apply same_list in H2 as [H2 H3]. apply (shown_one (HAlt l) (mk_alt rs)).
    + apply adds_one_group. inversion H1; subst; [easy|]. now apply join_bars.
    + cbn [unhir]. assert (Hrs : rs <> []) by (intros ->; inversion H1; now subst). apply same_equiv.
      * rewrite groups_ralt, <- H2. rewrite groups_mk_alt. reflexivity.
      * intros. eapply equiv_trans; [apply ralt_mk_alt, Hrs|]. apply ralt_ext, H3.
Qed.
(** With parentheses around repeated repetitions, [Display] is right. *)
Lemma show_true_faithful : prints_meaning (show true).
Proof.
  intros h Hh. destruct (show_shown h Hh) as (r & H1 & _ & H2). exists r. split; [|exact H2].
  apply parse_reads_iff. change r with (mk_cat [r]). now apply adds_reads.
Qed.
