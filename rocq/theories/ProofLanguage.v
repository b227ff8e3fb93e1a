(** What custom matchers match, whatever their groups: no matcher has to be [tame]. *)
From Verif Require Export ProofParams2.

(** The groups of a regex without those below [{0}]; a group below a repetition may come to light. *)
Inductive weakly : list (N * (option str * bool)) -> list (N * (option str * bool)) -> Prop :=
| weakly_nil : weakly [] []
| weakly_same x l l' : weakly l l' -> weakly (x :: l) (x :: l')
| weakly_shown i n l l' : weakly l l' -> weakly ((i, (n, true)) :: l) ((i, (n, false)) :: l')
| weakly_gone i n l l' : weakly l l' -> weakly l ((i, (n, false)) :: l').
Lemma weakly_refl l : weakly l l.
Proof. induction l; now constructor. Qed.
Lemma weakly_app a a' b b' : weakly a a' -> weakly b b' -> weakly (a ++ b) (a' ++ b').
Proof. intros Ha Hb. induction Ha; cbn [app]; [exact Hb| | |]; now constructor. Qed.
Lemma hide_eq (i : N) (n : option str) b : hide (i, (n, b)) = (i, (n, false)).
Proof. reflexivity. Qed.
Lemma weakly_hide l l' : weakly l l' -> weakly (map hide l) (map hide l').
Proof. induction 1; cbn [map]; rewrite ?hide_eq; now constructor. Qed.
Lemma weakly_hide_r l l' : weakly l l' -> weakly l (map hide l').
Proof. induction 1 as [|[i [n []]] l l' H IH|i n l l' H IH|i n l l' H IH]; cbn [map]; rewrite ?hide_eq; now constructor. Qed.
Lemma weakly_none l : weakly [] (map hide l).
Proof. induction l as [|[i [n b]] l IH]; cbn [map]; rewrite ?hide_eq; now constructor. Qed.
Lemma weakly_in l l' : weakly l l' -> forall i, In i (map fst l) -> In i (map fst l').
Proof.
  induction 1 as [|x l l' H IH|i n l l' H IH|i n l l' H IH]; intros j; cbn [map In fst]; auto.
  - intros [Hj|Hj]; auto.
  - intros [Hj|Hj]; auto.
Qed.
Lemma weakly_nodup l l' : weakly l l' -> NoDup (map fst l') -> NoDup (map fst l).
Proof.
  induction 1 as [|x l l' H IH|i n l l' H IH|i n l l' H IH]; cbn [map fst]; intros Hn; [constructor| | |]; inversion_clear Hn; auto;
    constructor; auto; intros Hi; match goal with H : ~ _ |- _ => apply H end; eapply weakly_in; eassumption.
Qed.
Lemma weakly_unnamed l l' : weakly l l' -> Forall (fun x => snd x = true \/ fst x = None) (map snd l') ->
  Forall (fun x => snd x = true \/ fst x = None) (map snd l).
Proof. induction 1; cbn [map snd]; intros Hf; [constructor| | |]; inversion_clear Hf; auto. Qed.
Lemma weakly_visible l l' : weakly l l' -> visible (map snd l) = 0 -> Forall (fun x => snd x = false) (map snd l').
Proof.
  induction 1 as [|[i [n []]] l l' H IH|i n l l' H IH|i n l l' H IH]; cbn [map snd visible]; intros Hv; try lia; constructor; auto.
Qed.

Lemma Forall_true {A} (l : list A) : Forall (fun _ => True) l.
Proof. induction l; now constructor. Qed.

Section Meaning.
  Context (digits spaces words : ranges).
  Notation rm := (Regex.rm (in_ranges digits) (in_ranges spaces) (in_ranges words)).
  Notation rms := (Regex.rms (in_ranges digits) (in_ranges spaces) (in_ranges words)).
  Notation rml := (ProofMeaning.rml (in_ranges digits) (in_ranges spaces) (in_ranges words)).
  Notation equiv := (ProofHir.equiv digits spaces words).
  Notation alt_of l := (ralt (map unhir l)).

  (** The same texts in the same places. *)
  Definition texts_of (P : char -> Prop) (a b : re) : Prop :=
    forall p m q, Forall P m -> (exists c, rm a p m q c) <-> exists c, rm b p m q c.
  Lemma texts_refl P a : texts_of P a a.
  Proof. intros p m q _. reflexivity. Qed.
  Lemma texts_sym P a b : texts_of P a b -> texts_of P b a.
  Proof. intros H p m q Hm. symmetry. now apply H. Qed.
  Lemma texts_trans P a b c : texts_of P a b -> texts_of P b c -> texts_of P a c.
  Proof. intros H H1 p m q Hm. etransitivity; [exact (H p m q Hm)|exact (H1 p m q Hm)]. Qed.
  Lemma equiv_texts a b : equiv a b -> texts_of scalar a b.
  Proof. intros [_ H] p m q Hm. split; intros [c Hc]; exists c; now apply H. Qed.
  Lemma cat_texts P a a' b b' : texts_of P a a' -> texts_of P b b' -> texts_of P (RCat a b) (RCat a' b').
  Proof.
    enough (H : forall a a' b b', texts_of P a a' -> texts_of P b b' -> forall p m q, Forall P m ->
      (exists c, rm (RCat a b) p m q c) -> exists c, rm (RCat a' b') p m q c).
    { intros Ha Hb p m q Hm. split; apply H; auto using texts_sym. }
    clear. intros a a' b b' Ha Hb p m q Hm (c & (x & y & ca & cb & -> & -> & H1 & H2)%rm_cat_inv). apply Forall_app in Hm as [Hx Hy].
    destruct (proj1 (Ha p x (y ++ q) Hx)) as [c1 Hc1]; [eauto|]. destruct (proj1 (Hb (p ++ x) y q Hy)) as [c2 Hc2]; [eauto|].
    exists (c1 ++ c2). now constructor.
  Qed.
  Lemma alt_texts P a a' b b' : texts_of P a a' -> texts_of P b b' -> texts_of P (RAlt a b) (RAlt a' b').
  Proof.
    enough (H : forall a a' b b', texts_of P a a' -> texts_of P b b' -> forall p m q, Forall P m ->
      (exists c, rm (RAlt a b) p m q c) -> exists c, rm (RAlt a' b') p m q c).
    { intros Ha Hb p m q Hm. split; apply H; auto using texts_sym. }
    clear. intros a a' b b' Ha Hb p m q Hm (c & [(d & -> & H)|(d & -> & H)]%rm_alt_inv).
    - destruct (proj1 (Ha p m q Hm)) as [c1 Hc1]; [eauto|]. eexists. apply rm_left, Hc1.
    - destruct (proj1 (Hb p m q Hm)) as [c1 Hc1]; [eauto|]. eexists. apply rm_right, Hc1.
  Qed.
  Lemma rep_texts P min max g g' a a' : texts_of P a a' -> texts_of P (RRep min max g a) (RRep min max g' a').
  Proof.
    enough (H : forall g g' a a', texts_of P a a' -> forall p m q, Forall P m ->
      (exists c, rm (RRep min max g a) p m q c) -> exists c, rm (RRep min max g' a') p m q c).
    { intros Ha p m q Hm. split; apply H; auto using texts_sym. }
    clear. intros g g' a a' Ha p m q Hm (c & (k & H1 & H2 & H3)%rm_rep_inv).
    enough (exists c', rms k a' p m q c') as [c' H] by (exists c'; econstructor; eassumption).
    clear H1 H2. revert p m q c Hm H3. induction k as [|k IH]; intros p m q c Hm Hr.
    - apply rms_zero_inv in Hr as [-> ->]. eexists. constructor.
    - apply rms_succ_inv in Hr as (x & y & cx & cy & -> & -> & H1 & H2). apply Forall_app in Hm as [Hx Hy].
      destruct (proj1 (Ha p x (y ++ q) Hx)) as [c1 Hc1]; [eauto|]. destruct (IH _ _ _ _ Hy H2) as [c2 Hc2]. eexists. constructor; eassumption.
  Qed.
  Lemma cap_texts P n a a' : texts_of P a a' -> texts_of P (RCap n a) a'.
  Proof.
    intros Ha p m q Hm. rewrite <- (Ha p m q Hm). split.
    - intros (c & (d & -> & H)%rm_cap_inv). eauto.
    - intros (c & H). eexists. constructor. exact H.
  Qed.
  (** A regex without its groups. *)
  Fixpoint erase (r : re) : re :=
    match r with
    | RRep min max g r => RRep min max g (erase r)
    | RCap _ r => erase r
    | RCat a b => RCat (erase a) (erase b)
    | RAlt a b => RAlt (erase a) (erase b)
    | _ => r
    end.
  Lemma erase_groups r : groups (erase r) = [].
  Proof. induction r as [|c| |k|l|min max g r IH|n r IH|a IHa b IHb|a IHa b IHb]; cbn; try easy; now rewrite IHa, IHb. Qed.
  Lemma erase_texts P r : texts_of P r (erase r).
  Proof.
    induction r as [|c| |k|l|min max g r IH|n r IH|a IHa b IHb|a IHa b IHb]; cbn [erase]; try apply texts_refl.
    - now apply rep_texts.
    - now apply cap_texts.
    - now apply cat_texts.
    - now apply alt_texts.
  Qed.
  Notation texts := (texts_of scalar).
  Lemma repetition_texts min max g h : rep_ok min max -> texts (unhir (h_repetition min max g h)) (RRep min max g (unhir h)).
  Proof.
    intros Hr. unfold h_repetition.
    assert (Hrest : forall min max, texts (unhir (if (min =? 0) && opt_eqb N.eqb max (Some 0) then HEmpty
                    else if (min =? 1) && opt_eqb N.eqb max (Some 1) then h else HRep min max g h)) (RRep min max g (unhir h))).
    { clear. intros min max. destruct (N.eqb_spec min 0) as [->|]; cbn [andb].
      - destruct max as [n|]; cbn [opt_eqb]; [|cbn; apply texts_refl]. destruct (N.eqb_spec n 0) as [->|]; [|cbn; apply texts_refl].
        cbn [unhir]. eapply texts_trans; [|apply (rep_texts _ _ _ g g), texts_sym, erase_texts].
        apply texts_sym, equiv_texts, rep_zero, erase_groups.
      - destruct (N.eqb_spec min 1) as [->|]; cbn [andb]; [|cbn; apply texts_refl].
        destruct max as [n'|]; cbn [opt_eqb]; [|cbn; apply texts_refl]. destruct (N.eqb_spec n' 1) as [->|]; [|cbn; apply texts_refl].
        apply texts_sym, equiv_texts, rep_one. }
    destruct (only_empty h) eqn:He; [|apply Hrest].
    eapply texts_trans; [apply Hrest|]. eapply texts_trans; [apply (rep_texts _ _ _ g g), erase_texts|].
    apply texts_sym. eapply texts_trans; [apply (rep_texts _ _ _ g g), erase_texts|]. apply equiv_texts.
    replace (match max with Some n => Some (N.min n 1) | None => Some 1 end)
      with (Some (match max with Some n => N.min n 1 | None => 1 end)) by now destruct max.
    apply rep_empties; [apply erase_groups| |].
    - revert Hr. cbv beta iota delta [rep_ok u32_max]. destruct max; [lia|trivial].
    - intros p m q c H. destruct (proj2 (erase_texts (fun _ => True) (unhir h) p m q (Forall_true m))) as [d Hd]; [eauto|].
      exact (only_empty_spec digits spaces words h He p m q d Hd).
  Qed.

  (** ** The translation *)
  Context (Htab : tables_ok digits spaces words).
  Definition weakly_ok (r : re) (i : N) (l : list hir) (j : N) : Prop :=
    Forall hir_ok l /\ texts (alt_of l) r /\
    weakly (flat_map caps l) (combine (upto i (List.length (groups r))) (marks r)) /\ j = i + N.of_nat (List.length (groups r)).
  Lemma branches_weakly r i l j : branches_ok digits spaces words r i l j -> weakly_ok r i l j.
  Proof. intros (H1 & H2 & H3 & H4). split; [exact H1|]. split; [now apply equiv_texts|]. split; [rewrite H3; apply weakly_refl|exact H4]. Qed.
  Lemma weakly_one r i h j : hir_ok h -> texts (unhir h) r ->
    weakly (caps h) (combine (upto i (List.length (groups r))) (marks r)) -> j = i + N.of_nat (List.length (groups r)) -> weakly_ok r i [h] j.
  Proof.
    intros H1 H2 H3 H4. split; [now repeat constructor|].
    split; [eapply texts_trans; [apply equiv_texts, ralt_one|exact H2]|]. split; [cbn; now rewrite app_nil_r|exact H4].
  Qed.
  Lemma upto_marks r i : List.length (upto i (List.length (groups r))) = List.length (marks r).
  Proof. now rewrite upto_length, marks_length. Qed.
  Lemma weakly_join r i l j : weakly_ok r i l j ->
    hir_ok (join_alts l) /\ texts (unhir (join_alts l)) r /\ weakly (caps (join_alts l)) (combine (upto i (List.length (groups r))) (marks r)).
  Proof.
    intros (H1 & H2 & H3 & H4). destruct (join_alts_spec digits spaces words l) as (J1 & J2 & J3).
    - eapply weakly_nodup; [exact H3|]. rewrite combine_fst; [apply upto_NoDup|apply upto_marks].
    - exact H1.
    - split; [exact J2|]. split; [eapply texts_trans; [apply equiv_texts, J1|exact H2]|]. now rewrite J3.
  Qed.
  Lemma marks_app (a b : re) i : combine (upto i (List.length (groups a ++ groups b))) (marks a ++ marks b) =
    combine (upto i (List.length (groups a))) (marks a) ++ combine (upto (i + N.of_nat (List.length (groups a))) (List.length (groups b))) (marks b).
  Proof. rewrite app_length, upto_app. apply combine_app, upto_marks. Qed.
  Lemma branches_any r : re_ok r -> forall i, let '(l, j) := branches digits spaces words r i in weakly_ok r i l j.
  Proof.
    induction r as [|c| |k|l|min max g r IH|n r IH|a IHa b IHb|a IHa b IHb]; intros Hok i.
    1-5: match goal with |- let '(_, _) := _ _ _ _ ?r _ in _ => pose proof (branches_spec digits spaces words Htab r Hok I i) as H end;
      destruct (branches digits spaces words _ i) as [l' j]; now apply branches_weakly.
    - destruct Hok as [Hr Hok]. specialize (IH Hok i). cbn [branches]. destruct (branches digits spaces words r i) as [l j].
      pose proof IH as (_ & _ & _ & ->). apply weakly_join in IH as (H1 & H2 & H3).
      apply weakly_one; [now apply ok_repetition| | |reflexivity].
      + eapply texts_trans; [now apply repetition_texts|]. now apply rep_texts.
      + cbn [marks groups]. destruct ((min =? 1) && opt_eqb N.eqb max (Some 1)) eqn:E.
        * apply andb_prop in E as [->%N.eqb_eq E]. destruct max as [n|]; [|discriminate E]. apply N.eqb_eq in E as ->.
          unfold h_repetition. destruct (only_empty _); exact H3.
        * rewrite <- combine_hide. destruct (repetition_cases min max g (join_alts l) Hr) as [-> |[-> |(x & y & _ & -> & _)]].
          -- apply weakly_none.
          -- now apply weakly_hide_r.
          -- now apply weakly_hide.
    - destruct Hok as [Hn Hok]. specialize (IH Hok (i + 1)). cbn [branches]. destruct (branches digits spaces words r (i + 1)) as [l j].
      pose proof IH as (_ & _ & _ & ->). apply weakly_join in IH as (H1 & H2 & H3).
      apply weakly_one; [now split| |cbn; now constructor|cbn [groups List.length]; lia].
      cbn [unhir]. eapply texts_trans; [apply cap_texts; exact H2|]. apply texts_sym, cap_texts, texts_refl.
    - destruct Hok as [Ha Hb]. cbn [branches]. specialize (IHa Ha i). destruct (branches digits spaces words a i) as [l j].
      pose proof IHa as (_ & _ & _ & ->). apply weakly_join in IHa as (A1 & A2 & A3).
      specialize (IHb Hb (i + N.of_nat (List.length (groups a)))). destruct (branches digits spaces words b _) as [m j].
      pose proof IHb as (_ & _ & _ & ->). apply weakly_join in IHb as (B1 & B2 & B3).
      apply weakly_one.
      + apply ok_h_concat. now repeat constructor.
      + eapply texts_trans; [apply equiv_texts, h_concat_equiv|]. cbn [map mk_cat]. now apply cat_texts.
      + rewrite caps_concat. cbn [flat_map groups marks]. rewrite app_nil_r, marks_app. now apply weakly_app.
      + cbn [groups]. rewrite app_length. lia.
    - destruct Hok as [Ha Hb]. cbn [branches]. specialize (IHa Ha i). destruct (branches digits spaces words a i) as [l j].
      pose proof IHa as (_ & _ & _ & ->). apply weakly_join in IHa as (A1 & A2 & A3).
      specialize (IHb Hb (i + N.of_nat (List.length (groups a)))). destruct (branches digits spaces words b _) as [m j].
      destruct IHb as (B1 & B2 & B3 & ->). split; [now constructor|]. split; [|split].
      + cbn [map ralt fold_right]. now apply alt_texts.
      + cbn [flat_map groups marks]. rewrite marks_app. now apply weakly_app.
      + cbn [groups]. rewrite app_length. lia.
  Qed.
  Lemma translate_any r : re_ok r -> let h := translate digits spaces words r in
    hir_ok h /\ texts (unhir h) r /\ NoDup (map fst (caps h)) /\ exists l, weakly (caps h) l /\ map snd l = marks r.
  Proof.
    intros Hok. pose proof (branches_any r Hok 1) as H. unfold translate. destruct (branches digits spaces words r 1) as [l j].
    cbn [fst]. apply weakly_join in H as (H1 & H2 & H3). split; [exact H1|]. split; [exact H2|].
    split; [|eexists; split; [exact H3|apply combine_snd, upto_marks]].
    eapply weakly_nodup; [exact H3|]. rewrite combine_fst by apply upto_marks. apply upto_NoDup.
  Qed.

  (** ** One parameter *)
  Context (to_string : hir -> str) (get : provider span).
  Notation trans := (translate digits spaces words).
  Notation type := (custom_type digits spaces words frag get).
  Notation display := (display_ok digits spaces words to_string get).
  Definition valid_any : parameter span -> Prop := custom_valid frag get (fun _ => True).
  Definition any_matcher_re (v : str) (id : N) : list re :=
    match regex_new v with
    | Done r =>
        if contains v (c_ "(") && has_capture_groups (trans r)
        then match parse_syntax (printed digits spaces words to_string r id) with Done r' => [r'] | _ => [] end
        else [RCap None r]
    | _ => []
    end.
  Definition param_re (p : parameter span) : list re :=
    match get (par_input p) with
    | None => builtin_re frag p
    | Some v => any_matcher_re v (par_id p)
    end.
  Lemma printed_any v r id : regex_new v = Done r -> prints digits spaces words to_string r id ->
    exists r' l l', parse_syntax (printed digits spaces words to_string r id) = Done r' /\
      groups r' = map fst (relabel id 0 (map snd l)) /\ l = caps (trans r) /\ weakly l l' /\ map snd l' = marks r /\ texts r' r.
  Proof.
    intros Hv Hp. apply regex_new_inv in Hv as [Hv Hn]. destruct (translate_any r (parsed_ok _ _ Hv)) as (H1 & H2 & H3 & l' & H4 & H5).
    pose proof (rename_spec digits spaces words id (trans r) H1 H3 0) as Hr. unfold printed, prints, rename_capture_groups in *.
    destruct (rename_groups_inner id (trans r) 0) as [h' j]. destruct Hr as (R1 & R2 & R3 & R4 & _). cbn [fst] in *.
    destruct Hp as (r' & P1 & P2). apply equiv_same in P2 as [P2 P3]. exists r', (caps (trans r)), l'. split; [exact P1|]. split.
    - rewrite P2, caps_groups. rewrite <- (map_map snd fst), R4. reflexivity.
    - split; [reflexivity|]. split; [exact H4|]. split; [exact H5|].
      eapply texts_trans; [apply equiv_texts, P3|]. eapply texts_trans; [apply equiv_texts, R2|exact H2].
  Qed.
  Lemma param_adds p : valid_any p -> display p -> adds (custom_text frag digits spaces words to_string get p) (param_re p).
  Proof.
    unfold valid_any, custom_valid, custom_text, param_re, display_ok. destruct (get (par_input p)) as [v|]; [|intros _ _; apply adds_builtin].
    intros (r & Hv & _) Hp. specialize (Hp v r eq_refl Hv). unfold matcher_text, any_matcher_re. rewrite Hv. destruct (_ && _).
    - destruct (printed_any v r _ Hv Hp) as (r' & _ & _ & E & _). rewrite E. apply adds_one_adds, parse_group, E.
    - apply adds_one_adds, parse_capture. now apply regex_new_inv in Hv.
  Qed.
  Lemma param_texts p pre m post : valid_any p -> display p -> Forall scalar m ->
    (exists c, rml (param_re p) pre m post c) <-> exists c, type p pre m post c.
  Proof.
    unfold valid_any, custom_valid, custom_type, param_re, display_ok. destruct (get (par_input p)) as [v|].
    - intros (r & Hv & _) Hp Hm. specialize (Hp v r eq_refl Hv).
      transitivity (exists c, rm r pre m post c).
      + unfold any_matcher_re. rewrite Hv. destruct (_ && _).
        * destruct (printed_any v r _ Hv Hp) as (r' & l & l' & -> & _ & _ & _ & _ & Ht). rewrite <- (Ht pre m post Hm).
          split; intros [c Hc]; exists c; now apply rml_one.
        * split.
          -- intros [c Hc]. rewrite rml_one in Hc. apply rm_cap_inv in Hc as (d & _ & Hc). eauto.
          -- intros [c Hc]. exists (Some m :: c). apply rml_one. now constructor.
      + split.
        * intros [c Hc]. eexists. exists r, c. split; [exact Hv|]. split; [exact Hc|reflexivity].
        * intros (c & r' & c' & Hv' & Hc & _). replace r' with r in * by congruence. eauto.
    - intros Hb _ _. split; intros [c Hc]; exists c.
      + exact (proj1 (rml_builtin frag _ _ (in_ranges words) p pre m post c Hb) Hc).
      + exact (proj2 (rml_builtin frag _ _ (in_ranges words) p pre m post c Hb) Hc).
  Qed.
  (** No name has a repetition around. *)
  Definition unnamed (r : re) : Prop := Forall (fun x => snd x = true \/ fst x = None) (marks r).
  Lemma relabel_unnamed id l : Forall (fun x => snd x = true \/ fst x = None) l -> forall k,
    (forall n, In n (names_of (map fst (relabel id k l))) -> exists j, k <= j /\ n = group_name id j) /\
    NoDup (names_of (map fst (relabel id k l))).
  Proof.
    clear. induction 1 as [|[n b] l H Hl IH]; intros k; [split; [easy|constructor]|]. cbn [fst snd] in H. destruct b.
    - cbn [relabel map fst names_of flat_map app].
      destruct (IH (k + 1)) as [H1 H2]. split.
      + intros m [<-|Hm]; [exists k; split; [lia|reflexivity]|]. apply H1 in Hm as (j & Hj & ->). exists j. split; [lia|reflexivity].
      + constructor; [|exact H2]. intros (j & Hj & E)%H1. apply group_name_inj in E as [_ ->]. lia.
    - destruct H as [H|H]; [discriminate H|subst n]. cbn [relabel map fst names_of flat_map app]. apply IH.
  Qed.
  Lemma param_names p : custom_valid frag get unnamed p -> display p ->
    NoDup (names_of (flat_map groups (param_re p))) /\ forall n, In n (names_of (flat_map groups (param_re p))) -> exists k, n = group_name (par_id p) k.
  Proof.
    unfold custom_valid, param_re, display_ok. destruct (get (par_input p)) as [v|].
    - intros (r & Hv & Hu) Hp. specialize (Hp v r eq_refl Hv). unfold unnamed in Hu.
      destruct (printed_any v r _ Hv Hp) as (r' & l & l' & E & Hg & Hl & Hw & Hm & _). unfold any_matcher_re. rewrite Hv.
      destruct (contains v (c_ "(") && has_capture_groups (trans r)) eqn:Hc.
      + rewrite E, flat_map_one, Hg. rewrite <- Hm in Hu. pose proof (weakly_unnamed _ _ Hw Hu) as Hu'.
        destruct (relabel_unnamed (par_id p) (map snd l) Hu' 0) as [H1 H2]. split; [exact H2|]. intros n Hn. apply H1 in Hn as (j & _ & ->). eauto.
      + assert (Hn : names_of (groups r) = []).
        { apply andb_false_iff in Hc as [Hc|Hc].
          - apply contains_false in Hc. apply regex_new_inv in Hv as [Hv _]. now rewrite (no_paren_no_groups v r Hc Hv).
          - rewrite has_capture_groups_spec in Hc. apply negb_false_iff, N.eqb_eq in Hc. rewrite <- Hl in Hc.
            pose proof (weakly_visible _ _ Hw Hc) as Hv'. rewrite Hm in Hv'. rewrite <- marks_groups. clear - Hu Hv'.
            induction Hu as [|[n b] x H Hx IH]; [reflexivity|]. inversion_clear Hv'. cbn [fst snd] in *. subst b.
            destruct H as [H|H]; [discriminate H|subst n]. cbn. now apply IH. }
        rewrite flat_map_one. cbn [groups names_of flat_map app]. unfold names_of in Hn. rewrite Hn. split; [constructor|easy].
    - intros _ _. rewrite groups_builtin. split; [apply names_nodup|apply names_in].
  Qed.

  (** ** The whole expression *)
  Notation whole := (regex_with_parameters digits spaces words to_string get).
  Lemma means_texts (P Q : parameter span -> str -> str -> str -> list (option str) -> Prop) e :
    (forall p, In p (parameters e) -> forall pre m post, Forall scalar m -> (exists c, P p pre m post c) -> exists c, Q p pre m post c) ->
    forall pre m post c, Forall scalar m -> means_in frag P e pre m post c -> exists c', means_in frag Q e pre m post c'.
  Proof.
    clear. induction e as [|x e IH]; intros H pre m post c Hm.
    - inversion 1; subst. eexists. constructor.
    - intros (s & t & v & w & -> & -> & H1 & H2)%means_in_inv. apply Forall_app in Hm as [Hs Ht].
      apply IH in H2 as [w' H2]; [|intros p Hp; apply H; change (x :: e) with ([x] ++ e); rewrite parameters_app; apply in_or_app; auto|exact Ht].
      enough (exists v1, single_means frag (fun q s v => Q q pre s (t ++ post) v) x s v1) as [v' Hv] by (eexists; constructor; eassumption).
      destruct x; try (eexists; exact H1). apply (H p); [now left|exact Hs|]. eexists. exact H1.
  Qed.
  Definition fit (p : parameter span) : Prop := valid_any p /\ display p.
  Notation re_of := (re_by frag param_re).
  Notation text := (text_by frag (custom_text frag digits spaces words to_string get)).
  Lemma fit_checked l : Forall fit l -> Forall (custom_checked frag get) l.
  Proof. apply Forall_impl. intros p [H _]. eapply custom_valid_checked, H. Qed.
  Lemma fit_read s e : expression_parse s = RetOk e -> Forall fit (parameters e) ->
    whole s = XOk (text e) (re_of e) /\ NoDup (names_of (groups (re_of e))) \/ whole s = XRegex /\ ~ NoDup (names_of (groups (re_of e))).
  Proof.
    intros H He. rewrite (whole_checked digits spaces words to_string get s e H (fit_checked _ He)). unfold regex_new.
    rewrite (parse_text frag _ param_re e) by (intros p Hp; rewrite Forall_forall in He; destruct (He p Hp); now apply param_adds). cbn [obind].
    destruct (distinct (group_names (re_of e))) eqn:E.
    - left. split; [reflexivity|]. now apply distinct_iff.
    - right. split; [reflexivity|]. intros Hn. apply (eq_true_false_abs _ (proj2 (distinct_iff _) Hn) E).
  Qed.
  Lemma fit_texts e pre m post : Forall fit (parameters e) -> Forall scalar m ->
    (exists c, rm (re_of e) pre m post c) <-> pre = [] /\ post = [] /\ exists c, means_in frag type e [] m [] c.
  Proof.
    intros He Hm. rewrite Forall_forall in He.
    assert (Hr : forall c, rm (re_of e) pre m post c <-> pre = [] /\ post = [] /\ means_in frag (fun p => rml (param_re p)) e [] m [] c).
    { intros c. apply rm_by. intros p Hp pre' m' post' c'. reflexivity. }
    split.
    - intros [c Hc]. apply Hr in Hc as (-> & -> & Hc). split; [reflexivity|]. split; [reflexivity|]. revert Hc. apply means_texts; [|exact Hm].
      intros p Hp pre' m' post' Hm' Hc. destruct (He p Hp). now apply param_texts.
    - intros (-> & -> & c & Hc). apply (means_texts type (fun p => rml (param_re p)) e) in Hc as [c' Hc].
      + exists c'. apply Hr. auto.
      + intros p Hp pre' m' post' Hm' Hc'. destruct (He p Hp). now apply param_texts.
      + exact Hm.
  Qed.
  Lemma whole_texts s e : expression_parse s = RetOk e -> Forall fit (parameters e) ->
    (whole s = XRegex \/ exists t r, whole s = XOk t r) /\
    forall t r, whole s = XOk t r -> forall pre m post, Forall scalar m ->
      (exists c, rm r pre m post c) <-> pre = [] /\ post = [] /\ exists c, means_in frag type e [] m [] c.
  Proof.
    intros H He. destruct (fit_read s e H He) as [[E _]|[E _]]; rewrite E; (split; [eauto|]); [|discriminate].
    intros t r [= <- <-] pre m post Hm. now apply fit_texts.
  Qed.
  Lemma whole_unnamed s e : addressable s -> expression_parse s = RetOk e ->
    Forall (fun p => custom_valid frag get unnamed p /\ display p) (parameters e) -> exists t r, whole s = XOk t r.
  Proof.
    intros Hs H He.
    assert (Hf : Forall fit (parameters e)).
    { revert He. apply Forall_impl. intros p [Hv Hd]. split; [|exact Hd]. unfold valid_any, custom_valid in *.
      destruct (get (par_input p)); [|exact Hv]. destruct Hv as (r & Hr & _). eauto. }
    destruct (fit_read s e H Hf) as [[E _]|[_ Hn]]; [eauto|]. exfalso. apply Hn. rewrite groups_by. apply nodup_by.
    - intros p Hp. rewrite Forall_forall in He. destruct (He p Hp). now apply param_names.
    - rewrite <- ids_parameters. eapply parsed_ids; eassumption.
  Qed.
End Meaning.

Section Final.
  Context (digits spaces words : ranges) (to_string : hir -> str) (get : provider span).
  Notation whole := (regex_with_parameters digits spaces words to_string get).
  Notation rm := (Regex.rm (in_ranges digits) (in_ranges spaces) (in_ranges words)).
  Context (Htab : tables_ok digits spaces words) (Hprint : prints_meaning to_string).
  Lemma any_display p : display_ok digits spaces words to_string get p.
  Proof.
    intros t r Hg Hr. apply Hprint. apply regex_new_inv in Hr as [Hr _].
    destruct (translate_any digits spaces words Htab r (parsed_ok _ _ Hr)) as (H1 & _ & H3 & _).
    pose proof (rename_spec digits spaces words (par_id p) (translate digits spaces words r) H1 H3 0) as Hs. unfold rename_capture_groups.
    destruct (rename_groups_inner _ _ _) as [h' j]. destruct Hs as (R1 & _). now apply ok_printable.
  Qed.
  Lemma any_matchers s e : expression_parse s = RetOk e -> Forall (custom_valid frag get (fun _ => True)) (parameters e) ->
    (whole s = XRegex \/ exists t r, whole s = XOk t r) /\
    forall t r, whole s = XOk t r -> forall pre m post, Forall scalar m ->
      (exists c, rm r pre m post c) <->
      pre = [] /\ post = [] /\ exists c, means_in frag (custom_type digits spaces words frag get) e [] m [] c.
  Proof.
    intros H He. apply (whole_texts digits spaces words Htab to_string get s e H). revert He. apply Forall_impl.
    intros p Hp. split; [exact Hp|apply any_display].
  Qed.
  Lemma any_unnamed s e : addressable s -> expression_parse s = RetOk e ->
    Forall (custom_valid frag get (fun r => Forall (fun x => snd x = true \/ fst x = None) (marks r))) (parameters e) ->
    exists t r, whole s = XOk t r.
  Proof.
    intros Hs H He. apply (whole_unnamed digits spaces words Htab to_string get s e Hs H). revert He. apply Forall_impl.
    intros p Hp. split; [exact Hp|apply any_display].
  Qed.
End Final.
