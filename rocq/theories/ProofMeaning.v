(** Meaning of the regexes that an expansion is made of. *)
From Coq Require Import PeanoNat.
From Verif Require Export Regex SpecExpand.

Section Meaning.
  Context (digit space word : char -> bool).
  Notation rm := (rm digit space word).
  Notation rms := (rms digit space word).
  Notation class_has := (class_has digit space word).

  Scheme rm_ind2 := Induction for Regex.rm Sort Prop
    with rms_ind2 := Induction for Regex.rms Sort Prop.
  Combined Scheme rm_rms_ind from rm_ind2, rms_ind2.

  Lemma merge_length a b : List.length a = List.length b -> List.length (merge a b) = List.length a.
  Proof. revert b; induction a; intros [|x b]; cbn; intros H; try easy. f_equal. apply IHa. lia. Qed.
  Lemma merge_none {A} (l : list A) c : List.length c = List.length l -> merge c (map (fun _ => None) l) = c.
  Proof. revert c; induction l; intros [|x c]; cbn; intros H; try easy. f_equal. apply IHl. lia. Qed.
  Lemma rm_length :
    (forall r p m q c, rm r p m q c -> List.length c = List.length (groups r)) /\
    (forall k r p m q c, rms k r p m q c -> List.length c = List.length (groups r)).
  Proof.
    apply rm_rms_ind; cbn; intros; unfold no_captures; rewrite ?app_length, ?map_length; try lia.
    rewrite merge_length; congruence.
  Qed.
  Definition rm_caps r p m q c (H : rm r p m q c) := proj1 rm_length r p m q c H.

  Lemma rm_cat_inv a b p m q c : rm (RCat a b) p m q c ->
    exists x y ca cb, m = x ++ y /\ c = ca ++ cb /\ rm a p x (y ++ q) ca /\ rm b (p ++ x) y q cb.
  Proof. inversion 1; subst. eauto 10. Qed.
  Lemma rm_alt_inv a b p m q c : rm (RAlt a b) p m q c ->
    (exists d, c = d ++ no_captures b /\ rm a p m q d) \/ (exists d, c = no_captures a ++ d /\ rm b p m q d).
  Proof. inversion 1; subst; eauto. Qed.
  Lemma rm_cap_inv n r p m q c : rm (RCap n r) p m q c -> exists d, c = Some m :: d /\ rm r p m q d.
  Proof. inversion 1; subst; eauto. Qed.
  Lemma rm_rep_inv min max g r p m q c : rm (RRep min max g r) p m q c ->
    exists k, min <= N.of_nat k /\ match max with Some n => N.of_nat k <= n | None => True end /\ rms k r p m q c.
  Proof. inversion 1; subst; eauto. Qed.
  Lemma rms_succ_inv k r p m q c : rms (S k) r p m q c ->
    exists x y cx cy, m = x ++ y /\ c = merge cx cy /\ rm r p x (y ++ q) cx /\ rms k r (p ++ x) y q cy.
  Proof. inversion 1; subst; eauto 10. Qed.
  Lemma rms_zero_inv r p m q c : rms 0 r p m q c -> m = [] /\ c = no_captures r.
  Proof. inversion 1; subst; auto. Qed.

  (** ** Concatenations *)
  Inductive rml : list re -> str -> str -> str -> list (option str) -> Prop :=
  | rml_nil p q : rml [] p [] q []
  | rml_cons r l p x y q c d : rm r p x (y ++ q) c -> rml l (p ++ x) y q d -> rml (r :: l) p (x ++ y) q (c ++ d).
  Lemma rml_cons_inv r l p m q e : rml (r :: l) p m q e ->
    exists x y c d, m = x ++ y /\ e = c ++ d /\ rm r p x (y ++ q) c /\ rml l (p ++ x) y q d.
  Proof. inversion 1; subst. eauto 10. Qed.
  Lemma rml_nil_inv p m q e : rml [] p m q e -> m = [] /\ e = [].
  Proof. now inversion 1. Qed.
  Lemma rml_mk_cat l p m q c : rm (mk_cat l) p m q c <-> rml l p m q c.
  Proof.
    revert p m q c. induction l as [|r l IH]; intros p m q c.
    - split; inversion 1; subst; constructor.
    - destruct l as [|r' l].
      + cbn [mk_cat]. split.
        * intros H. rewrite <- (app_nil_r m), <- (app_nil_r c). constructor; [exact H|constructor].
        * inversion_clear 1. inversion H1; subst. now rewrite !app_nil_r.
      + change (mk_cat (r :: r' :: l)) with (RCat r (mk_cat (r' :: l))). split.
        * inversion_clear 1. constructor; [assumption|now apply IH].
        * inversion_clear 1. constructor; [assumption|now apply IH].
  Qed.
  Lemma rml_app l1 l2 p m q c : rml (l1 ++ l2) p m q c <->
    exists x y c1 c2, m = x ++ y /\ c = c1 ++ c2 /\ rml l1 p x (y ++ q) c1 /\ rml l2 (p ++ x) y q c2.
  Proof.
    revert p m q c. induction l1 as [|r l1 IH]; intros p m q c; cbn [app].
    - split.
      + intros H. exists [], m, [], c. rewrite app_nil_r. repeat split; [constructor|assumption].
      + intros (x & y & c1 & c2 & -> & -> & H & H2). inversion H; subst. now rewrite app_nil_r in H2.
    - split.
      + intros (x & y & c1 & d & -> & -> & H1 & H2)%rml_cons_inv.
        apply IH in H2 as (x' & y' & c2 & c3 & -> & -> & H2 & H3).
        exists (x ++ x'), y', (c1 ++ c2), c3. rewrite !app_assoc. repeat split; try assumption.
        constructor; [|exact H2]. now rewrite <- app_assoc in H1.
      + intros (x & y & c1 & c2 & -> & -> & H1 & H2).
        apply rml_cons_inv in H1 as (x1 & x2 & c3 & c4 & -> & -> & H1 & H3).
        rewrite <- !app_assoc. constructor; [now rewrite <- app_assoc|]. apply IH.
        exists x2, y, c4, c2. repeat split; [assumption|]. now rewrite <- app_assoc.
  Qed.
  Lemma rml_one r p m q c : rml [r] p m q c <-> rm r p m q c.
  Proof. now rewrite <- rml_mk_cat. Qed.
  Lemma rml_lits t p m q c : rml (map RLit t) p m q c <-> m = t /\ c = [].
  Proof.
    revert p m c. induction t as [|a t IH]; intros p m c; cbn [map].
    - split; [inversion 1; subst; auto|intros [-> ->]; constructor].
    - split.
      + intros (x & y & c1 & d & -> & -> & H1 & H2)%rml_cons_inv. apply IH in H2 as [-> ->].
        inversion H1; subst. auto.
      + intros [-> ->]. change (a :: t) with ([a] ++ t). change (@nil (option str)) with (@nil (option str) ++ []).
        constructor; [constructor|now apply IH].
  Qed.

  (** ** Context-free pieces without groups *)
  Definition cf (r : re) (L : str -> Prop) : Prop :=
    groups r = [] /\ forall p m q c, rm r p m q c <-> L m /\ c = [].
  Lemma cf_no r L : cf r L -> no_captures r = [].
  Proof. intros [H _]. unfold no_captures. now rewrite H. Qed.
  Lemma cf_iff r L M : cf r L -> (forall s, L s <-> M s) -> cf r M.
  Proof. intros [G H] E. split; [exact G|]. intros. rewrite H, E. reflexivity. Qed.
  Lemma cf_lits t : cf (mk_cat (map RLit t)) (fun s => s = t).
  Proof.
    split; [|intros; rewrite rml_mk_cat; apply rml_lits].
    induction t as [|a [|b t] IH]; [reflexivity|reflexivity|exact IH].
  Qed.
  Lemma cf_empty : cf REmpty (fun s => s = []).
  Proof. exact (cf_lits []). Qed.
  Lemma cf_lit a : cf (RLit a) (fun s => s = [a]).
  Proof. exact (cf_lits [a]). Qed.
  Definition chars (P : char -> Prop) : str -> Prop := fun s => exists c, s = [c] /\ P c.
  Lemma cf_dot : cf RDot (chars (fun c => c <> newline)).
  Proof.
    split; [reflexivity|]. intros p m q c. split.
    - inversion 1; subst. split; [eexists; eauto|reflexivity].
    - intros [(a & -> & H) ->]. now constructor.
  Qed.
  Lemma cf_class k : cf (RClass k) (chars (fun c => class_has k c = true)).
  Proof.
    split; [reflexivity|]. intros p m q c. split.
    - inversion 1; subst. split; [eexists; eauto|reflexivity].
    - intros [(a & -> & H) ->]. now constructor.
  Qed.
  Lemma cf_cat a b A B : cf a A -> cf b B -> cf (RCat a b) (fun s => exists x y, s = x ++ y /\ A x /\ B y).
  Proof.
    intros [Ga Ha] [Gb Hb]. split; [cbn; now rewrite Ga, Gb|]. intros p m q c. split.
    - intros (x & y & ca & cb & -> & -> & H1 & H2)%rm_cat_inv. apply Ha in H1 as [? ->].
      apply Hb in H2 as [? ->]. split; [eauto 6|reflexivity].
    - intros [(x & y & -> & Hx & Hy) ->]. change (@nil (option str)) with (@nil (option str) ++ []).
      constructor; [now apply Ha|now apply Hb].
  Qed.
  Lemma cf_alt a b A B : cf a A -> cf b B -> cf (RAlt a b) (fun s => A s \/ B s).
  Proof.
    intros Ha Hb. pose proof (cf_no _ _ Ha) as Na. pose proof (cf_no _ _ Hb) as Nb.
    destruct Ha as [Ga Ha], Hb as [Gb Hb]. split; [cbn; now rewrite Ga, Gb|]. intros p m q c. split.
    - intros [(d & -> & H)|(d & -> & H)]%rm_alt_inv.
      + apply Ha in H as [? ->]. rewrite Nb. auto.
      + apply Hb in H as [? ->]. rewrite Na. auto.
    - intros [[H|H] ->].
      + replace (@nil (option str)) with ([] ++ no_captures b) by now rewrite Nb. constructor. now apply Ha.
      + replace (@nil (option str)) with (no_captures a ++ []) by now rewrite Na. constructor. now apply Hb.
  Qed.
  Lemma cf_mk_alt l : (forall r, In r l -> exists L, cf r L) ->
    cf (mk_alt l) (fun s => (exists r, In r l /\ forall L, cf r L -> L s) \/ l = [] /\ s = []).
  Proof.
    induction l as [|r l IH]; intros H.
    - eapply cf_iff; [apply cf_empty|]. intros s. cbn. split; [auto|]. intros [(r & [] & _)|[_ ->]]; auto.
    - destruct (H r) as [L HL]; [now left|]. destruct l as [|r' l].
      + cbn [mk_alt]. eapply cf_iff; [exact HL|]. intros s. split.
        * intros Hs. left. exists r. split; [now left|]. intros M HM.
          apply (proj2 HM [] s [] []). now apply HL.
        * intros [(r0 & [->|[]] & Hr)|[? _]]; [|easy]. now apply Hr.
      + change (mk_alt (r :: r' :: l)) with (RAlt r (mk_alt (r' :: l))).
        eapply cf_iff; [apply cf_alt; [exact HL|apply IH; intros; apply H; now right]|].
        intros s. split.
        * intros [Hs|[(r0 & Hr & Hs)|[? _]]]; [| |easy]; left.
          { exists r. split; [now left|]. intros M HM. apply (proj2 HM [] s [] []). now apply HL. }
          exists r0. split; [now right|exact Hs].
        * intros [(r0 & [->|Hr] & Hs)|[? _]]; [| |easy]; [left; now apply Hs|right; left; eauto].
  Qed.
  Lemma cf_rms r L : cf r L -> forall k p m q c,
    rms k r p m q c <-> (exists l, List.length l = k /\ m = List.concat l /\ Forall L l) /\ c = [].
  Proof.
    intros H. pose proof (cf_no _ _ H) as Hn. destruct H as [G H].
    induction k as [|k IH]; intros p m q c; split.
    - intros [-> ->]%rms_zero_inv. split; [now exists []|exact Hn].
    - intros [([|] & Hl & -> & _) ->]; [|easy]. rewrite <- Hn. constructor.
    - intros (x & y & cx & cy & -> & -> & H2 & H5)%rms_succ_inv. apply H in H2 as [Hx ->]. apply IH in H5 as [(l & <- & -> & Hl) ->].
      split; [|reflexivity]. exists (x :: l). split; [reflexivity|]. split; [reflexivity|now constructor].
    - intros [([|x l] & Hl & -> & Hf) ->]; [easy|]. cbn in Hl. inversion_clear Hf.
      change (@nil (option str)) with (merge [] []). constructor; [now apply H|].
      apply IH. split; [exists l; repeat split; auto; lia|reflexivity].
  Qed.
  Lemma cf_rep min max g r L : cf r L -> cf (RRep min max g r) (fun s =>
    exists l, min <= N.of_nat (List.length l) /\ match max with Some n => N.of_nat (List.length l) <= n | None => True end
              /\ s = List.concat l /\ Forall L l).
  Proof.
    intros H. split; [apply H|]. intros p m q c. split.
    - intros (k & H1 & H2 & H3)%rm_rep_inv. apply (cf_rms _ _ H) in H3 as [(l & <- & -> & Hl) ->]. eauto 7.
    - intros [(l & H1 & H2 & -> & Hl) ->]. apply rm_rep with (List.length l); try assumption.
      apply (cf_rms _ _ H). eauto 6.
  Qed.
  Lemma cf_opt g r L : cf r L -> cf (RRep 0 (Some 1) g r) (fun s => L s \/ s = []).
  Proof.
    intros H. eapply cf_iff; [apply cf_rep; exact H|]. intros s. split.
    - intros ([|x [|y l]] & _ & Hl & -> & Hf); [now right| |cbn in Hl; lia].
      inversion_clear Hf. left. cbn. now rewrite app_nil_r.
    - intros [Hs | ->]; [exists [s]|exists []]; (split; [lia|]); (split; [cbn; lia|]);
        (split; [cbn; now rewrite ?app_nil_r|auto]).
  Qed.
  Lemma concat_chars P l : Forall (chars P) l -> Forall P (List.concat l) /\ List.length (List.concat l) = List.length l.
  Proof.
    induction 1 as [|x l (c & -> & Hc) Hl [IH1 IH2]]; [split; constructor|]. cbn. split; [now constructor|now rewrite IH2].
  Qed.
  Lemma chars_concat P s : Forall P s -> exists l, s = List.concat l /\ List.length l = List.length s /\ Forall (chars P) l.
  Proof.
    induction 1 as [|c s Hc Hs (l & -> & Hl & Hf)]; [now exists []|]. exists ([c] :: l).
    repeat split; [cbn; now rewrite Hl|]. constructor; [now exists c|exact Hf].
  Qed.
  Lemma cf_star g r P : cf r (chars P) -> cf (RRep 0 None g r) (Forall P).
  Proof.
    intros H. eapply cf_iff; [apply cf_rep; exact H|]. intros s. split.
    - intros (l & _ & _ & -> & Hl). now apply concat_chars.
    - intros Hs. destruct (chars_concat _ _ Hs) as (l & -> & _ & Hl). exists l. repeat split; [lia|assumption].
  Qed.
  Lemma cf_plus g r P : cf r (chars P) -> cf (RRep 1 None g r) (fun s => s <> [] /\ Forall P s).
  Proof.
    intros H. eapply cf_iff; [apply cf_rep; exact H|]. intros s. split.
    - intros (l & H1 & _ & -> & Hl). destruct (concat_chars _ _ Hl) as [H2 H3]. split; [|assumption].
      intros E. rewrite E in H3. destruct l; cbn in *; [lia|easy].
    - intros [Hn Hs]. destruct (chars_concat _ _ Hs) as (l & -> & Hlen & Hl). exists l. repeat split; [|assumption].
      destruct (List.concat l); [easy|]. cbn in Hlen. lia.
  Qed.

  (** A capturing group around such a piece. *)
  Lemma cap_cf n r L p m q c : cf r L -> rm (RCap n r) p m q c <-> L m /\ c = [Some m].
  Proof.
    intros [_ H]. split.
    - intros (d & -> & Hr)%rm_cap_inv. apply H in Hr as [? ->]. auto.
    - intros [Hm ->]. constructor. now apply H.
  Qed.

  (** ** Anchors *)
  Lemma rml_anchored l p m q c : rml (RLook LStart :: l ++ [RLook LEnd]) p m q c <->
    p = [] /\ q = [] /\ rml l [] m [] c.
  Proof.
    split.
    - intros (x0 & y & c0 & d & -> & -> & H1 & H2)%rml_cons_inv. inversion H1; subst. cbn [app] in *.
      apply rml_app in H2 as (x & y' & c1 & c2 & -> & -> & H3 & H4).
      apply rml_one in H4. inversion H4; subst. rewrite !app_nil_r. cbn [app] in H3. auto.
    - intros (-> & -> & H). change m with ([] ++ m). change c with ([] ++ c). constructor; [constructor|].
      apply rml_app. exists m, [], c, []. rewrite !app_nil_r. repeat split; [assumption|].
      apply rml_one. constructor.
  Qed.
End Meaning.
