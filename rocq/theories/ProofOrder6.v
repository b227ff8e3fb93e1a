(** The order in which a search through the [Hir] of an expression tries its readings. *)
From Coq Require Import PeanoNat.
From Verif Require Export ProofOrder5.
From Verif Require ProofShort.

(** ** What branches stand for *)
Lemma each_with_in a b p : In p (each_with a b) <-> exists x y, In x a /\ In y b /\ p = x ++ y.
Proof.
  unfold each_with. rewrite in_flat_map. split.
  - intros (x & Hx & (y & <- & Hy)%in_map_iff). eauto.
  - intros (x & y & Hx & Hy & ->). exists x. split; [exact Hx|]. now apply in_map.
Qed.
Lemma candidates_app a b p : In p (candidates (a ++ b)) <-> In p (each_with (candidates a) (candidates b)).
Proof.
  revert p. induction a as [|[c|t] a IH]; intros p; cbn [app candidates].
  - rewrite each_with_in. split; [intros H; exists [], p; cbn; auto|]. intros (x & y & [<-|[]] & Hy & ->). exact Hy.
  - rewrite !each_with_in. split.
    + intros (x & y & Hx & (y1 & y2 & H1 & H2 & ->)%IH%each_with_in & ->). exists (x ++ y1), y2. rewrite each_with_in, app_assoc. eauto 10.
    + intros (x & y & (x1 & x2 & H1 & H2 & ->)%each_with_in & Hy & ->). exists x1, (x2 ++ y). rewrite IH, each_with_in, app_assoc. eauto 10.
  - rewrite !each_with_in. split.
    + intros (x & y & Hx & (y1 & y2 & H1 & H2 & ->)%IH%each_with_in & ->). exists (x ++ y1), y2. rewrite each_with_in, app_assoc. eauto 10.
    + intros (x & y & (x1 & x2 & H1 & H2 & ->)%each_with_in & Hy & ->). exists x1, (x2 ++ y). rewrite IH, each_with_in, app_assoc. eauto 10.
Qed.
Lemma begin_candidates p rs bs m : all_begin p rs bs -> In m (flat_map candidates bs) <-> In m (each_with (candidates p) (flat_map candidates rs)).
Proof.
  intros [-> _]. rewrite each_with_in, in_flat_map. split.
  - intros (b & (r & <- & Hr)%in_map_iff & (x & y & Hx & Hy & ->)%candidates_app%each_with_in). exists x, y. rewrite in_flat_map. eauto.
  - intros (x & y & Hx & (r & Hr & Hy)%in_flat_map & ->). exists (p ++ r). split; [now apply in_map|]. apply candidates_app, each_with_in. eauto.
Qed.

Section Lists.
  Context (digit space word : char -> bool).
  Notation ways := (ways digit space word).
  Notation lists := (lists digit space word).
  Lemma lists_piece x : lists (re_piece x) (among (match x with Char c => [[c]] | Maybe t => [t; []] end)).
  Proof.
    destruct x as [c|t]; [exact (lists_lits _ _ _ [c])|]. eapply lists_ext; [apply lists_opt, lists_lits|].
    intros s. unfold among. cbn. now destruct (prefixb _ s).
  Qed.
  Lemma lists_pieces b : lists (re_pieces b) (among (candidates b)).
  Proof.
    unfold re_pieces. induction b as [|x b IH]; [apply lists_empty|]. change (map re_piece (x :: b)) with ([re_piece x] ++ map re_piece b).
    eapply lists_ext; [apply lists_cat_app; [apply lists_piece|exact IH]|]. intros s. rewrite among_cat. now destruct x.
  Qed.
  Lemma lists_branches bs : bs <> [] -> lists (mk_alt (map re_pieces bs)) (among (flat_map candidates bs)).
  Proof.
    intros Hne. induction bs as [|b bs IH]; [easy|]. destruct bs as [|b' bs]; [cbn; rewrite app_nil_r; apply lists_pieces|].
    change (mk_alt _) with (RAlt (re_pieces b) (mk_alt (map re_pieces (b' :: bs)))).
    eapply lists_ext; [apply lists_alt; [apply lists_pieces|now apply IH]|]. intros s. unfold among. cbn [flat_map]. now rewrite !filter_app.
  Qed.
  Lemma lists_lifted p rs : rs <> [] -> lists (re_lifted p rs) (among (each_with (candidates p) (flat_map candidates rs))).
  Proof.
    intros Hne. eapply lists_ext; [apply lists_cat; [apply lists_pieces|now apply lists_branches]|]. intros s. apply among_cat.
  Qed.
  (** Regexes without groups that stand for some texts. *)
  Lemma rm_among r l pre m post c : groups r = [] -> lists r (among l) -> rm digit space word r pre m post c <-> In m l /\ c = [].
  Proof.
    intros Hg Hl. split.
    - intros H. split.
      + apply ways_complete in H as [c' H]. apply (in_map w_mid) in H. rewrite Hl in H. now apply filter_In in H.
      + apply rm_caps in H. rewrite Hg in H. now destruct c.
    - intros [Hm ->]. assert (Hi : In m (map w_mid (ways r pre (m ++ post)))).
      { rewrite Hl. apply filter_In. split; [exact Hm|apply prefixb_spec]. }
      apply in_map_iff in Hi as (w & <- & Hw). apply ways_sound in Hw as [E Hw]. apply app_inv_head in E as ->.
      pose proof (rm_caps _ _ _ _ _ _ _ _ Hw) as Hc. rewrite Hg in Hc. now destruct (w_caps w).
  Qed.
  Lemma groups_pieces b : groups (re_pieces b) = [].
  Proof.
    unfold re_pieces. rewrite groups_mk_cat. induction b as [|x b IH]; [reflexivity|]. cbn [map flat_map]. rewrite IH, app_nil_r.
    destruct x as [c|t]; [reflexivity|]. cbn [re_piece groups]. rewrite groups_mk_cat. clear. now induction t.
  Qed.
  Lemma groups_lifted p rs : groups (re_lifted p rs) = [].
  Proof.
    unfold re_lifted. cbn [groups]. rewrite groups_pieces, groups_mk_alt. induction rs as [|r rs IH]; [reflexivity|].
    cbn [map flat_map]. now rewrite groups_pieces.
  Qed.
End Lists.

(** ** Elements *)
Section Elements.
  Context {I : Type} (text : I -> str).
  Definition branches_of (a : alternation I) : list (list piece) := map (flat_map pieces) (map_alternation text a).
  (** The regex of an element, with what all branches begin with put first. *)
  Definition re_first (x : single_expression I) : list re :=
    match x with
    | ExAlternation a => [re_lifted (beginning (branches_of a)) (rests_of (branches_of a))]
    | _ => re_single text (builtin_re text) x
    end.
  Context (digit space word : char -> bool) (Hdigit : plain_digits digit).
  Notation param := (fun p => typed digit space (text (@par_input I p))).
  Definition some_branch (x : single_expression I) : Prop := match x with ExAlternation [] => False | _ => True end.
  Lemma branches_begin a : a <> [] -> all_begin (beginning (branches_of a)) (rests_of (branches_of a)) (branches_of a).
  Proof. intros Ha. apply beginning_all. unfold branches_of, map_alternation. now destruct a. Qed.
  Lemma first_ordered e : all_built_in text e -> Forall some_branch e ->
    Forall (ordered_element text digit space word param re_first (hir_prefers text)) e.
  Proof.
    intros Hb Hs. pose proof (element_ordered text digit space word Hdigit e Hb) as He.
    apply Forall_forall. intros x Hx. rewrite Forall_forall in He, Hs. specialize (He x Hx). specialize (Hs x Hx). clear Hb Hx.
    destruct x as [a|o|q|t|t]; try (destruct He as [H1 H2 H3]; constructor; [exact H1|exact H2|exact H3]). assert (Ha : a <> []) by (now intros ->).
    pose proof (branches_begin a Ha) as Hbeg. pose proof (all_begin_some _ _ _ Hbeg) as Hrs.
    assert (Hal : lists digit space word (re_alternation text a) (among (flat_map candidates (branches_of a)))).
    { rewrite re_alternation_pieces. apply lists_branches. unfold branches_of, map_alternation. now destruct a. }
    constructor.
    - apply (oe_value _ _ _ _ _ _ _ _ He).
    - intros pre s p p' v v' r r' _ _ _ _ H. exists (beginning (branches_of a)), (rests_of (branches_of a)). split; [exact Hbeg|].
      cbn [re_first mk_cat] in H. rewrite lists_lifted in H by exact Hrs. now apply earlier_among in H.
    - intros pre m post c. rewrite <- (oe_rm _ _ _ _ _ _ _ _ He pre m post c). cbn [re_first re_single mk_cat].
      rewrite (rm_among _ _ _ _ _ _ _ _ _ (groups_lifted _ _) (lists_lifted _ _ _ _ _ Hrs)).
      rewrite (rm_among _ _ _ _ _ _ _ _ _ (groups_alternation text a) Hal).
      now rewrite (begin_candidates _ _ _ m Hbeg).
  Qed.
  Lemma hir_prefers_asym x p p' : hir_prefers text x p p' -> hir_prefers text x p' p -> False.
  Proof.
    destruct x as [a|o|q|t|t]; try apply prefers_asym. intros (b & rs & Hb & H) (b' & rs' & Hb' & H').
    destruct (all_begin_unique _ _ _ _ _ Hb Hb') as [<- <-]. now apply (earlier_asym p p') in H.
  Qed.
End Elements.

(** ** The [Hir] *)
Section Translation.
  Context (digits spaces words : ranges) (Htab : tables_ok digits spaces words).
  Notation oequiv := (ProofOrder.oequiv digits spaces words).
  Notation trans := (oequiv_trans digits spaces words _ _ _).
  Notation sym := (oequiv_sym digits spaces words _ _).
  Notation refl := (oequiv_refl digits spaces words _).
  Notation branches := (branches digits spaces words).
  Definition translated (r r' : re) : Prop := forall i, oequiv (unhir (join_alts (fst (branches r i)))) r'.
  Lemma translated_cat l l' : Forall2 translated l l' -> translated (mk_cat l) (mk_cat l').
  Proof.
    induction 1 as [|r r' l l' Hr Hl IH]; [intros i; apply refl|]. destruct Hl as [|r2 r2' l l' Hr2 Hl]; [exact Hr|].
    change (mk_cat (r :: r2 :: l)) with (RCat r (mk_cat (r2 :: l))). change (mk_cat (r' :: r2' :: l')) with (RCat r' (mk_cat (r2' :: l'))).
    intros i. cbn [Hir.branches]. specialize (Hr i). destruct (branches r i) as [la j]. specialize (IH j).
    destruct (branches (mk_cat (r2 :: l)) j) as [lb k]. cbn [fst join_alts] in *. eapply trans; [apply o_h_concat|]. now apply oequiv_cat.
  Qed.
  Lemma translated_calm r : re_ok r -> flat r -> calm_any digits spaces words r -> translated r r.
  Proof.
    intros Hok Hf Hc i. apply flat_tame with (digits := digits) (spaces := spaces) (words := words) in Hf. destruct (Hc i) as [H1 H2]. apply o_branches_join; try assumption. now apply o_branches.
  Qed.
  Lemma ok_mk_cat l : re_ok (mk_cat l) -> Forall re_ok l.
  Proof.
    induction l as [|r l IH]; [constructor|]. destruct l as [|r2 l]; [intros H; repeat constructor; exact H|]. intros [H1 H2]. constructor; auto.
  Qed.
  Lemma translated_all l : Forall re_ok l -> Forall flat l -> Forall (calm_any digits spaces words) l -> Forall2 translated l l.
  Proof.
    induction 1 as [|r l Hr Hl IH]; intros Hf Hc; [constructor|]. inversion_clear Hf as [|? ? Hf1 Hf2]. inversion_clear Hc as [|? ? Hc1 Hc2].
    constructor; [now apply translated_calm|now apply IH].
  Qed.
  Context {I : Type} (text : I -> str).
  Notation re_single := (re_single text (builtin_re text)).
  Lemma translated_single x : wf_single (map_single text x) -> Forall re_ok (re_single x) -> Forall2 translated (re_single x) (re_first text x).
  Proof.
    intros Hw Hok. destruct x as [a|o|q|t|t].
    - constructor; [|constructor]. intros i. rewrite re_alternation_pieces. fold (branches_of text a).
      destruct Hw as [Hn Hb]. unfold branches_of. fold (branches_of text a).
      assert (Hne : branches_of text a <> []) by (unfold branches_of, map_alternation; destruct a; cbn in *; [lia|easy]).
      rewrite branches_one_of by exact Hne. cbn [fst]. apply o_lifted; [now apply beginning_all| |].
      + apply Forall_map. eapply Forall_impl; [|exact Hb]. intros b Hb'. apply ProofShort.branch_pieces_ok in Hb' as [_ Hb'].
        apply Exists_exists in Hb' as ([c|t] & Hi & Hc); [now exists c|easy].
      + unfold branches_of. now rewrite map_length.
    - pose proof (calm_element digits spaces words text (ExOptional o)) as Hc. cbn [map_single parts] in Hc.
      apply translated_all; [exact Hok| |apply Hc; intros bs [H|[]]; discriminate H].
      constructor; [|constructor]. apply free_flat, groups_optional.
    - apply translated_all; [exact Hok|apply flat_builtin|apply calm_builtin].
    - apply translated_all; [exact Hok|apply flat_lits|apply calm_lits].
    - apply translated_all; [exact Hok|apply flat_lits|apply calm_lits].
  Qed.
  Lemma translated_expression e : Forall wf_single (map_expression text e) -> re_ok (re_of text e) ->
    translated (re_of text e) (mk_cat (RLook LStart :: flat_map (re_first text) e ++ [RLook LEnd])).
  Proof.
    intros Hw Hok. apply (translated_cat (RLook LStart :: flat_map re_single e ++ [RLook LEnd])).
    apply (ok_mk_cat (RLook LStart :: flat_map re_single e ++ [RLook LEnd])) in Hok. inversion_clear Hok as [|? ? _ Hok'].
    apply Forall_app in Hok' as [Hok _].
    assert (Hlook : forall l, translated (RLook l) (RLook l)) by (intros l; apply translated_calm; [exact Logic.I|exact Logic.I|now apply calm_single]).
    constructor; [apply Hlook|]. apply Forall2_app; [|constructor; [apply Hlook|constructor]].
    induction e as [|x e IH]; [constructor|]. cbn [flat_map map_expression map] in *. apply Forall_app in Hok as [Hx Hok].
    inversion_clear Hw as [|? ? Hw1 Hw2]. apply Forall2_app; [now apply translated_single|now apply IH].
  Qed.
End Translation.

(** ** [Expression::regex] *)
Lemma hir_takes_best s e t r : addressable s -> expression_parse s = RetOk e -> expression_regex s = XOk t r ->
  forall digits spaces words, tables_ok digits spaces words -> plain_digits (in_ranges digits) ->
  forall subject c, Forall scalar subject ->
    hir_captures digits spaces words r subject = Some c <->
    exists l, best_by frag (hir_prefers frag) (fun p => typed (in_ranges digits) (in_ranges spaces) (frag (par_input p))) e subject l /\
      c = Some subject :: List.concat (map snd l).
Proof.
  intros Hs He Hr digits spaces words Htab Hd subject c Hsub. pose proof (expression_re_ok s e t r Hs He Hr) as Hok.
  destruct (regex_inv s e t r Hs He Hr) as (Hb & _ & ->). destruct (parsed_wf s e Hs He) as [[Hw _] _].
  unfold hir_captures, compiled, translate.
  rewrite (captures_alike _ _ _ _ _ _ (translated_expression digits spaces words Htab frag e Hw Hok 1) Hsub).
  apply captures_best_by; [apply first_ordered; [exact Hd|exact Hb|]|intros x p p' _; apply hir_prefers_asym].
  unfold map_expression in Hw. rewrite Forall_map in Hw. eapply Forall_impl; [|exact Hw]. intros x Hx. destruct x as [[|b a]|o|q|u|u]; try exact Logic.I.
  destruct Hx as [Hx _]. cbn in Hx. lia.
Qed.
