(** The simplifying constructors of [Hir] keep the meaning. *)
From Coq Require Import PeanoNat.
From Verif Require Export SpecParams ProofInv.

(** An induction principle. *)
Section HirInd.
  Context (P : hir -> Prop).
  Context (H_empty : P HEmpty).
  Context (H_lit : forall t, P (HLit t)).
  Context (H_class : forall k, P (HClass k)).
  Context (H_look : forall l, P (HLook l)).
  Context (H_rep : forall a b g h, P h -> P (HRep a b g h)).
  Context (H_cap : forall i n h, P h -> P (HCap i n h)).
  Context (H_cat : forall l, Forall P l -> P (HCat l)).
  Context (H_alt : forall l, Forall P l -> P (HAlt l)).
  Fixpoint hir_ind' (h : hir) : P h :=
    let all := fix all (l : list hir) : Forall P l :=
      match l with [] => Forall_nil P | x :: l' => Forall_cons x (hir_ind' x) (all l') end in
    match h with
    | HEmpty => H_empty
    | HLit t => H_lit t
    | HClass k => H_class k
    | HLook l => H_look l
    | HRep a b g h => H_rep a b g h (hir_ind' h)
    | HCap i n h => H_cap i n h (hir_ind' h)
    | HCat l => H_cat l (all l)
    | HAlt l => H_alt l (all l)
    end.
End HirInd.

(** The capturing groups in order: index, name, and whether there is no repetition around it. *)
Definition hide {A} (x : A * (option str * bool)) : A * (option str * bool) := (fst x, (fst (snd x), false)).
Fixpoint caps (h : hir) : list (N * (option str * bool)) :=
  match h with
  | HEmpty | HLit _ | HClass _ | HLook _ => []
  | HRep _ _ _ h => map hide (caps h)
  | HCap i n h => (i, (n, true)) :: caps h
  | HCat l | HAlt l => flat_map caps l
  end.
Lemma groups_ralt l : groups (ralt l) = flat_map groups l.
Proof. induction l as [|r l IH]; cbn; [reflexivity|]. unfold ralt in IH. now rewrite IH. Qed.
Lemma hide_names {A} (l : list (A * (option str * bool))) : map (fun x => fst (snd x)) (map hide l) = map (fun x => fst (snd x)) l.
Proof. rewrite map_map. reflexivity. Qed.
Lemma hide_fst {A} (l : list (A * (option str * bool))) : map fst (map hide l) = map fst l.
Proof. rewrite map_map. reflexivity. Qed.
Lemma caps_groups h : groups (unhir h) = map (fun x => fst (snd x)) (caps h).
Proof.
  induction h as [|t|k|l|a b g h IH|i n h IH|l IH|l IH] using hir_ind'; cbn [caps unhir groups map]; try reflexivity.
  - rewrite groups_mk_cat, groups_lits. reflexivity.
  - now rewrite hide_names.
  - cbn. now rewrite IH.
  - rewrite groups_mk_cat. induction IH as [|x l Hx Hl IH]; [reflexivity|]. cbn. rewrite map_app. now rewrite Hx, IH.
  - rewrite groups_ralt. induction IH as [|x l Hx Hl IH]; [reflexivity|]. cbn. rewrite map_app. now rewrite Hx, IH.
Qed.
Lemma no_caps h : caps h = [] <-> groups (unhir h) = [].
Proof. rewrite caps_groups. split; [now intros ->|]. apply map_eq_nil. Qed.

Section Meaning.
  Context (digits spaces words : ranges).
  Notation rm := (Regex.rm (in_ranges digits) (in_ranges spaces) (in_ranges words)).
  Notation rms := (Regex.rms (in_ranges digits) (in_ranges spaces) (in_ranges words)).
  Notation rml := (ProofMeaning.rml (in_ranges digits) (in_ranges spaces) (in_ranges words)).
  Notation class_has := (Regex.class_has (in_ranges digits) (in_ranges spaces) (in_ranges words)).

  (** The same matches, with the same captures, on strings of Rust chars. *)
  Definition equiv (a b : re) : Prop :=
    List.length (groups a) = List.length (groups b) /\
    forall p m q c, Forall scalar m -> rm a p m q c <-> rm b p m q c.
  Lemma equiv_refl a : equiv a a.
  Proof. split; [reflexivity|]. intros. reflexivity. Qed.
  Lemma equiv_sym a b : equiv a b -> equiv b a.
  Proof. intros [H1 H2]. split; [auto|]. intros. symmetry. now apply H2. Qed.
  Lemma equiv_trans a b c : equiv a b -> equiv b c -> equiv a c.
  Proof. intros [H1 H2] [H3 H4]. split; [congruence|]. intros. now rewrite H2, H4. Qed.
  Lemma nones_eq a b : List.length (groups a) = List.length (groups b) -> no_captures a = no_captures b.
  Proof.
    unfold no_captures. generalize (groups a), (groups b). intros l; induction l; intros [|y l']; cbn; intros H; try discriminate; [reflexivity|].
    injection H as H. f_equal. auto.
  Qed.
  Lemma nones_app a b : no_captures (RCat a b) = no_captures a ++ no_captures b.
  Proof. apply map_app. Qed.
  Lemma nones_alt a b : no_captures (RAlt a b) = no_captures a ++ no_captures b.
  Proof. apply map_app. Qed.
  Ltac halves H := apply equiv_sym in H as ?H'.
  Lemma cat_half a a' b b' p m q c : equiv a a' -> equiv b b' -> Forall scalar m ->
    rm (RCat a b) p m q c -> rm (RCat a' b') p m q c.
  Proof.
    intros [_ Ha] [_ Hb] Hm (x & y & ca & cb & -> & -> & H1 & H2)%rm_cat_inv.
    apply Forall_app in Hm as [Hx Hy]. constructor; [now apply Ha|now apply Hb].
  Qed.
  Lemma equiv_cat a a' b b' : equiv a a' -> equiv b b' -> equiv (RCat a b) (RCat a' b').
  Proof.
    intros Ha Hb. split; [cbn; rewrite !app_length; destruct Ha, Hb; lia|]. intros p m q c Hm.
    split; apply cat_half; auto using equiv_sym.
  Qed.
  Lemma alt_half a a' b b' p m q c : equiv a a' -> equiv b b' -> Forall scalar m ->
    rm (RAlt a b) p m q c -> rm (RAlt a' b') p m q c.
  Proof.
    intros [La Ha] [Lb Hb] Hm [(d & -> & H)|(d & -> & H)]%rm_alt_inv.
    - rewrite (nones_eq b b' Lb). apply rm_left. now apply Ha.
    - rewrite (nones_eq a a' La). apply rm_right. now apply Hb.
  Qed.
  Lemma equiv_alt a a' b b' : equiv a a' -> equiv b b' -> equiv (RAlt a b) (RAlt a' b').
  Proof.
    intros Ha Hb. split; [cbn; rewrite !app_length; destruct Ha, Hb; lia|]. intros p m q c Hm.
    split; apply alt_half; auto using equiv_sym.
  Qed.
  Lemma rms_half a a' k : equiv a a' -> forall p m q c, Forall scalar m -> rms k a p m q c -> rms k a' p m q c.
  Proof.
    intros [L H]. induction k as [|k IH]; intros p m q c Hm Hr.
    - apply rms_zero_inv in Hr as [-> ->]. rewrite (nones_eq a a' L). constructor.
    - apply rms_succ_inv in Hr as (x & y & cx & cy & -> & -> & H1 & H2). apply Forall_app in Hm as [Hx Hy].
      constructor; [now apply H|now apply IH].
  Qed.
  Lemma equiv_rep min max g g' a a' : equiv a a' -> equiv (RRep min max g a) (RRep min max g' a').
  Proof.
    intros Ha. split; [apply Ha|]. intros p m q c Hm. split.
    - intros (k & H1 & H2 & H3)%rm_rep_inv. econstructor; try eassumption. eapply rms_half; eassumption.
    - intros (k & H1 & H2 & H3)%rm_rep_inv. econstructor; try eassumption. apply equiv_sym in Ha. eapply rms_half; eassumption.
  Qed.
  Lemma equiv_cap n n' a a' : equiv a a' -> equiv (RCap n a) (RCap n' a').
  Proof.
    intros [L H]. split; [cbn; congruence|]. intros p m q c Hm. split; intros (d & -> & Hr)%rm_cap_inv; constructor; now apply H.
  Qed.
  Lemma equiv_class k k' : (forall c, scalar c -> class_has k c = class_has k' c) -> equiv (RClass k) (RClass k').
  Proof.
    intros H. split; [reflexivity|]. intros p m q c Hm. split; inversion 1; subst; constructor; inversion_clear Hm.
    - now rewrite <- H.
    - now rewrite H.
  Qed.
  (** No match, or no context: equality of what is matched. *)
  Lemma equiv_free a b : groups a = [] -> groups b = [] ->
    (forall p m q, Forall scalar m -> rm a p m q [] <-> rm b p m q []) -> equiv a b.
  Proof.
    intros Ga Gb H. split; [now rewrite Ga, Gb|]. intros p m q c Hm. split; intros Hr.
    - pose proof (rm_caps _ _ _ _ _ _ _ _ Hr) as Hc. rewrite Ga in Hc. destruct c; [|discriminate Hc]. now apply H.
    - pose proof (rm_caps _ _ _ _ _ _ _ _ Hr) as Hc. rewrite Gb in Hc. destruct c; [|discriminate Hc]. now apply H.
  Qed.
  Lemma rfail_none p m q c : ~ rm rfail p m q c.
  Proof. inversion 1; subst. discriminate. Qed.
  Lemma alt_fail a : equiv (RAlt a rfail) a.
  Proof.
    split; [cbn; now rewrite app_nil_r|]. intros p m q c Hm. split.
    - intros [(d & -> & H)|(d & -> & H)]%rm_alt_inv; [cbn; now rewrite app_nil_r|now apply rfail_none in H].
    - intros H. replace c with (c ++ no_captures rfail) by apply app_nil_r. now apply rm_left.
  Qed.
  Lemma alt_assoc a b d : equiv (RAlt a (RAlt b d)) (RAlt (RAlt a b) d).
  Proof.
    split; [cbn; rewrite !app_length; lia|]. intros p m q c Hm. split.
    - intros [(e & -> & H)|(e & -> & [(f & -> & H)|(f & -> & H)]%rm_alt_inv)]%rm_alt_inv.
      + rewrite nones_alt, app_assoc. apply rm_left, rm_left, H.
      + rewrite app_assoc. apply rm_left, rm_right, H.
      + rewrite app_assoc, <- nones_alt. apply rm_right, H.
    - intros [(e & -> & [(f & -> & H)|(f & -> & H)]%rm_alt_inv)|(e & -> & H)]%rm_alt_inv.
      + rewrite <- app_assoc, <- nones_alt. apply rm_left, H.
      + rewrite <- app_assoc. apply rm_right, rm_left, H.
      + rewrite nones_alt, <- app_assoc. apply rm_right, rm_right, H.
  Qed.
  Lemma ralt_app l l' : equiv (ralt (l ++ l')) (RAlt (ralt l) (ralt l')).
  Proof.
    induction l as [|r l IH]; cbn [app ralt fold_right].
    - split; [reflexivity|]. intros p m q c Hm. split; [intros H; exact (rm_right _ _ _ rfail _ p m q c H)|].
      intros [(d & -> & H)|(d & -> & H)]%rm_alt_inv; [now apply rfail_none in H|exact H].
    - eapply equiv_trans; [apply equiv_alt; [apply equiv_refl|exact IH]|]. apply alt_assoc.
  Qed.
  Lemma ralt_one r : equiv (ralt [r]) r.
  Proof. apply alt_fail. Qed.
  Lemma ralt_mk_alt l : l <> [] -> equiv (mk_alt l) (ralt l).
  Proof.
    induction l as [|r [|r' l] IH]; intros Hl; [easy|apply equiv_sym, alt_fail|].
    change (mk_alt (r :: r' :: l)) with (RAlt r (mk_alt (r' :: l))). apply equiv_alt; [apply equiv_refl|]. now apply IH.
  Qed.
  Lemma ralt_ext l l' : Forall2 equiv l l' -> equiv (ralt l) (ralt l').
  Proof. induction 1; cbn; [apply equiv_refl|]. now apply equiv_alt. Qed.

  Lemma cat_assoc_nil a : equiv (RCat a REmpty) a.
  Proof.
    split; [cbn; now rewrite app_nil_r|]. intros p m q c Hm. split.
    - intros (x & y & ca & cb & -> & -> & H1 & H2)%rm_cat_inv. inversion H2; subst. now rewrite !app_nil_r.
    - intros H. rewrite <- (app_nil_r m), <- (app_nil_r c). constructor; [exact H|constructor].
  Qed.
  Lemma nil_cat a : equiv (RCat REmpty a) a.
  Proof.
    split; [reflexivity|]. intros p m q c Hm. split.
    - intros (x & y & ca & cb & -> & -> & H1 & H2)%rm_cat_inv. inversion H1; subst. now rewrite app_nil_r in H2.
    - intros H. change m with ([] ++ m). change c with ([] ++ c). constructor; [constructor|]. now rewrite app_nil_r.
  Qed.
  Lemma mk_cat_cons r l : equiv (mk_cat (r :: l)) (RCat r (mk_cat l)).
  Proof. destruct l; [apply equiv_sym, cat_assoc_nil|apply equiv_refl]. Qed.
  Lemma mk_cat_app l l' : equiv (mk_cat (l ++ l')) (RCat (mk_cat l) (mk_cat l')).
  Proof.
    split; [cbn; rewrite !groups_mk_cat, flat_map_app, !app_length; reflexivity|]. intros p m q c Hm.
    rewrite rml_mk_cat, rml_app. split.
    - intros (x & y & c1 & c2 & -> & -> & H1 & H2). constructor; now apply rml_mk_cat.
    - intros (x & y & ca & cb & -> & -> & H1 & H2)%rm_cat_inv. exists x, y, ca, cb.
      split; [reflexivity|]. split; [reflexivity|]. split; now apply rml_mk_cat.
  Qed.
  Lemma mk_cat_ext l l' : Forall2 equiv l l' -> equiv (mk_cat l) (mk_cat l').
  Proof.
    induction 1 as [|x y l l' Hx Hl IH]; [apply equiv_refl|]. eapply equiv_trans; [apply mk_cat_cons|].
    eapply equiv_trans; [apply equiv_cat; [exact Hx|exact IH]|]. apply equiv_sym, mk_cat_cons.
  Qed.
  (** A common prefix without groups. *)
  Lemma alt_lift a b d : groups a = [] -> equiv (RAlt (RCat a b) (RCat a d)) (RCat a (RAlt b d)).
  Proof.
    intros Ga. assert (Na : no_captures a = []) by (unfold no_captures; now rewrite Ga).
    split; [cbn; rewrite Ga; reflexivity|]. intros p m q c Hm. split.
    - intros [(e & -> & H)|(e & -> & H)]%rm_alt_inv; apply rm_cat_inv in H as (x & y & ca & cb & -> & -> & H1 & H2).
      + rewrite nones_app, Na, <- app_assoc. cbn [app]. constructor; [exact H1|]. now apply rm_left.
      + pose proof (rm_caps _ _ _ _ _ _ _ _ H1) as Hc. rewrite Ga in Hc. destruct ca; [|discriminate Hc]. rewrite nones_app, Na.
        cbn [app]. change (no_captures b ++ cb) with ([] ++ (no_captures b ++ cb)). constructor; [exact H1|]. now apply rm_right.
    - intros (x & y & ca & cb & -> & -> & H1 & H2)%rm_cat_inv.
      pose proof (rm_caps _ _ _ _ _ _ _ _ H1) as Hc. rewrite Ga in Hc. destruct ca; [|discriminate Hc]. cbn [app].
      apply rm_alt_inv in H2 as [(d' & -> & H2)|(d' & -> & H2)].
      + replace (d' ++ no_captures d) with (([] ++ d') ++ no_captures (RCat a d)) by (rewrite nones_app, Na; reflexivity).
        apply rm_left. constructor; assumption.
      + replace (no_captures b ++ d') with (no_captures (RCat a b) ++ ([] ++ d')) by (rewrite nones_app, Na; reflexivity).
        apply rm_right. constructor; assumption.
  Qed.
  Lemma cat_fail a : groups a = [] -> equiv rfail (RCat a rfail).
  Proof.
    intros Ga. split; [cbn; now rewrite Ga|]. intros p m q c Hm. split.
    - intros H. now apply rfail_none in H.
    - intros (x & y & ca & cb & -> & -> & H1 & H2)%rm_cat_inv. now apply rfail_none in H2.
  Qed.
  Lemma ralt_lift a l : groups a = [] -> equiv (ralt (map (RCat a) l)) (RCat a (ralt l)).
  Proof.
    intros Ga. induction l as [|b l IH]; cbn [map ralt fold_right]; [now apply cat_fail|].
    eapply equiv_trans; [apply equiv_alt; [apply equiv_refl|exact IH]|]. now apply alt_lift.
  Qed.

  (** ** Repetitions *)
  Lemma rep_one g a : equiv (RRep 1 (Some 1) g a) a.
  Proof.
    split; [reflexivity|]. intros p m q c Hm. split.
    - intros (k & H1 & H2 & H3)%rm_rep_inv. assert (k = 1%nat) as -> by lia.
      apply rms_succ_inv in H3 as (x & y & cx & cy & -> & -> & H3 & H4). apply rms_zero_inv in H4 as [-> ->].
      rewrite !app_nil_r in *. unfold no_captures. rewrite merge_none; [exact H3|]. exact (rm_caps _ _ _ _ _ _ _ _ H3).
    - intros H. apply (rm_rep _ _ _ 1); [lia|lia|]. rewrite <- (app_nil_r m).
      rewrite <- (merge_none (groups a) c) by exact (rm_caps _ _ _ _ _ _ _ _ H). apply (rms_succ _ _ _ 0 a p m [] q c).
      + exact H.
      + constructor.
  Qed.
  Lemma rep_zero g a : groups a = [] -> equiv (RRep 0 (Some 0) g a) REmpty.
  Proof.
    intros Ga. apply equiv_free; [exact Ga|reflexivity|]. intros p m q Hm. split.
    - intros (k & H1 & H2 & H3)%rm_rep_inv. assert (k = 0%nat) as -> by lia. apply rms_zero_inv in H3 as [-> _]. constructor.
    - inversion 1; subst. apply (rm_rep _ _ _ 0); [lia|lia|]. replace (@nil (option str)) with (no_captures a) by (unfold no_captures; now rewrite Ga).
      constructor.
  Qed.
  Lemma only_empty_spec h : only_empty h = true -> forall p m q c, rm (unhir h) p m q c -> m = [].
  Proof.
    induction h as [|t|k|l|a b g h IH|i n h IH|l IH|l IH] using hir_ind'; cbn [only_empty unhir]; intros He p m q c Hr; try discriminate He.
    - now inversion Hr.
    - now inversion Hr.
    - destruct b; [|discriminate He]. apply rm_rep_inv in Hr as (k & _ & _ & Hr). specialize (IH He). clear - IH Hr.
      revert p m q c Hr. induction k as [|k IHk]; intros p m q c Hr; [now apply rms_zero_inv in Hr as [-> _]|].
      apply rms_succ_inv in Hr as (x & y & cx & cy & -> & -> & H3 & H4). apply IH in H3 as ->. now apply IHk in H4 as ->.
    - apply rm_cap_inv in Hr as (d & -> & Hr). now apply IH in Hr.
    - rewrite rml_mk_cat in Hr. revert p m q c Hr. induction IH as [|x l Hx Hl IH]; intros p m q c Hr; [now apply rml_nil_inv in Hr|].
      cbn [map forallb] in *. apply andb_prop in He as [He1 He2]. apply rml_cons_inv in Hr as (y & z & c1 & c2 & -> & -> & H1 & H2).
      apply Hx in H1 as ->; [|exact He1]. now apply IH in H2 as ->.
    - revert p m q c Hr. induction IH as [|x l Hx Hl IH]; intros p m q c Hr; [now apply rfail_none in Hr|].
      cbn [map forallb ralt fold_right] in *. apply andb_prop in He as [He1 He2]. apply rm_alt_inv in Hr as [(d & -> & H)|(d & -> & H)].
      + now apply Hx in H.
      + now apply IH in H.
  Qed.
  Lemma rep_empties min max g a : groups a = [] -> match max with Some n => min <= n | None => True end ->
    (forall p m q c, rm a p m q c -> m = []) ->
    equiv (RRep min max g a) (RRep (N.min min 1) (Some (match max with Some n => N.min n 1 | None => 1 end)) g a).
  Proof.
    intros Ga Hmm He. apply equiv_free; [exact Ga|exact Ga|].
    assert (Na : no_captures a = []) by (unfold no_captures; now rewrite Ga).
    assert (Hk : forall k p m q c, rms k a p m q c -> m = [] /\ c = [] /\ (k = 0%nat \/ rm a p [] q [])).
    { induction k as [|k IH]; intros p m q c Hr.
      - apply rms_zero_inv in Hr as [-> ->]. rewrite Na. auto.
      - apply rms_succ_inv in Hr as (x & y & cx & cy & -> & -> & H3 & H4). pose proof (He _ _ _ _ H3) as ->.
        pose proof (rm_caps _ _ _ _ _ _ _ _ H3) as Hc. rewrite Ga in Hc. destruct cx; [|discriminate Hc].
        apply IH in H4 as (-> & -> & _). repeat split; auto. }
    assert (Hk' : forall k p q, rm a p [] q [] -> rms k a p [] q []).
    { intros k p q Hr. induction k as [|k IH].
      - rewrite <- Na. constructor.
      - change (@nil (option str)) with (merge [] []). apply (rms_succ _ _ _ k a p [] [] q [] []); [exact Hr|]. now rewrite app_nil_r. }
    intros p m q Hm. split.
    - intros (k & H1 & H2 & H3)%rm_rep_inv. apply Hk in H3 as (-> & _ & [-> |H3]).
      + apply (rm_rep _ _ _ 0); [lia|destruct max; lia|]. rewrite <- Na. constructor.
      + destruct k as [|k].
        * apply (rm_rep _ _ _ 0); [lia|destruct max; lia|]. rewrite <- Na. constructor.
        * apply (rm_rep _ _ _ 1); [lia|destruct max; lia|]. now apply Hk'.
    - intros (k & H1 & H2 & H3)%rm_rep_inv. apply Hk in H3 as (-> & _ & [-> |H3]).
      + apply (rm_rep _ _ _ 0); [lia|destruct max; lia|]. rewrite <- Na. constructor.
      + apply (rm_rep _ _ _ (if (k =? 0)%nat then N.to_nat min else Nat.max 1 (N.to_nat min))); [| |now apply Hk'].
        * destruct (Nat.eqb_spec k 0); lia.
        * destruct max as [n|]; [|exact I]. destruct (Nat.eqb_spec k 0); lia.
  Qed.
  Lemma h_repetition_equiv min max g h : match max with Some n => min <= n | None => True end ->
    groups (unhir h) = [] \/ only_empty h = false /\ max <> Some 0 ->
    equiv (unhir (h_repetition min max g h)) (RRep min max g (unhir h)).
  Proof.
    intros Hmm Hg. unfold h_repetition.
    assert (Hrest : forall min max, match max with Some n => min <= n | None => True end ->
      groups (unhir h) = [] \/ max <> Some 0 ->
      equiv (unhir (if (min =? 0) && opt_eqb N.eqb max (Some 0) then HEmpty
                    else if (min =? 1) && opt_eqb N.eqb max (Some 1) then h else HRep min max g h))
        (RRep min max g (unhir h))).
    { clear. intros min max Hmm Hg. destruct (N.eqb_spec min 0) as [->|]; cbn [andb].
      - destruct max as [n|]; cbn [opt_eqb]; [|cbn; apply equiv_refl]. destruct (N.eqb_spec n 0) as [->|].
        + apply equiv_sym. apply rep_zero. destruct Hg as [Hg|Hg]; [exact Hg|easy].
        + cbn. apply equiv_refl.
      - destruct (N.eqb_spec min 1) as [->|]; cbn [andb]; [|cbn; apply equiv_refl].
        destruct max as [n'|]; cbn [opt_eqb]; [|cbn; apply equiv_refl]. destruct (N.eqb_spec n' 1) as [->|]; [|cbn; apply equiv_refl].
        apply equiv_sym, rep_one. }
    destruct (only_empty h) eqn:He.
    - destruct Hg as [Hg|[Hg _]]; [|discriminate Hg].
      eapply equiv_trans; [|apply equiv_sym, rep_empties; [exact Hg|exact Hmm|now apply only_empty_spec]].
      replace (match max with Some n => Some (N.min n 1) | None => Some 1 end)
        with (Some (match max with Some n => N.min n 1 | None => 1 end)) by now destruct max.
      apply Hrest; [destruct max; lia|now left].
    - apply Hrest; [exact Hmm|tauto].
  Qed.

  (** ** Literals and classes *)
  Lemma class_of_has k c : class_has (class_of k) c = in_ranges k c.
  Proof.
    unfold Regex.class_has, in_ranges, class_of. cbn [cl_negated cl_items]. rewrite Bool.xorb_false_l.
    induction k as [|x k IH]; [reflexivity|]. cbn [map existsb]. now rewrite IH.
  Qed.
  Lemma h_literal_equiv t : unhir (h_literal t) = mk_cat (map RLit t).
  Proof. now destruct t. Qed.
  Lemma lit_class a : equiv (RLit a) (RClass (class_of [(a, a)])).
  Proof.
    apply equiv_free; [reflexivity|reflexivity|]. intros p m q Hm. split.
    - inversion 1; subst. constructor. rewrite class_of_has. cbn. rewrite !N.leb_refl. reflexivity.
    - inversion 1; subst. rewrite class_of_has in *. cbn [in_ranges existsb fst snd] in *.
      match goal with H : _ || false = true |- _ => rewrite orb_false_r, andb_true_iff, !N.leb_le in H; assert (c = a) as -> by lia end.
      constructor.
  Qed.
  Lemma h_class_equiv k : equiv (unhir (h_class k)) (RClass (class_of k)).
  Proof.
    unfold h_class. destruct k as [|[a b] [|y k]]; try apply equiv_refl. destruct (N.eqb_spec a b) as [->|]; [|apply equiv_refl].
    apply lit_class.
  Qed.

  (** ** [Hir::concat] *)
  Notation cat_of l := (mk_cat (map unhir l)).
  Lemma flatten_cat_equiv l : equiv (cat_of (flatten_cat l)) (cat_of l).
  Proof.
    induction l as [|h l IH]; [apply equiv_refl|]. unfold flatten_cat in *. cbn [flat_map]. rewrite map_app.
    eapply equiv_trans; [apply mk_cat_app|]. cbn [map]. eapply equiv_trans; [|apply equiv_sym, mk_cat_cons].
    apply equiv_cat; [|exact IH]. destruct h; apply equiv_refl.
  Qed.
  Lemma flush_equiv t : equiv (cat_of (flush t)) (mk_cat (map RLit t)).
  Proof. destruct t; apply equiv_refl. Qed.
  Lemma join_literals_equiv l : forall t, equiv (cat_of (join_literals t l)) (RCat (mk_cat (map RLit t)) (cat_of l)).
  Proof.
    induction l as [|h l IH]; intros t; cbn [join_literals].
    - eapply equiv_trans; [apply flush_equiv|]. apply equiv_sym, cat_assoc_nil.
    - assert (Hother : equiv (cat_of (flush t ++ h :: join_literals [] l)) (RCat (mk_cat (map RLit t)) (cat_of (h :: l)))).
      { rewrite map_app. eapply equiv_trans; [apply mk_cat_app|]. apply equiv_cat; [apply flush_equiv|]. cbn [map].
        eapply equiv_trans; [apply mk_cat_cons|]. eapply equiv_trans; [|apply equiv_sym, mk_cat_cons].
        apply equiv_cat; [apply equiv_refl|]. eapply equiv_trans; [apply IH|].
        apply nil_cat. }
      destruct h; try exact Hother. eapply equiv_trans; [apply IH|]. cbn [map]. rewrite map_app.
      eapply equiv_trans; [|apply equiv_cat; [apply equiv_refl|apply equiv_sym, mk_cat_cons]].
      eapply equiv_trans; [apply equiv_cat; [apply mk_cat_app|apply equiv_refl]|].
      split; [cbn [groups unhir]; rewrite !app_length; lia|]. intros p m q c Hm. split.
      + intros (x & y & ca & cb & -> & -> & (x1 & x2 & c1 & c2 & -> & -> & H1 & H2)%rm_cat_inv & H3)%rm_cat_inv.
        rewrite <- !app_assoc. constructor; [now rewrite <- app_assoc|]. constructor; [exact H2|]. now rewrite <- app_assoc.
      + intros (x & y & ca & cb & -> & -> & H1 & (x1 & x2 & c1 & c2 & -> & -> & H2 & H3)%rm_cat_inv)%rm_cat_inv.
        rewrite !app_assoc. constructor; [constructor; [now rewrite app_assoc|exact H2]|]. now rewrite app_assoc.
  Qed.
  Lemma h_concat_equiv l : equiv (unhir (h_concat l)) (cat_of l).
  Proof.
    assert (H : equiv (cat_of (join_literals [] (flatten_cat l))) (cat_of l)).
    { eapply equiv_trans; [apply join_literals_equiv|]. eapply equiv_trans; [|apply flatten_cat_equiv].
      apply nil_cat. }
    unfold h_concat. destruct (join_literals [] (flatten_cat l)) as [|h [|h' l']]; exact H.
  Qed.
End Meaning.
