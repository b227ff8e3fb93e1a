(** The reading that a search takes through an expression with custom parameters. *)
From Coq Require Import PeanoNat.
From Verif Require Export SpecPrefer ProofShift ProofOrder6 ProofParams2.

(** ** Names of groups do not matter *)
Section Names.
  Context (digits spaces words : ranges).
  Notation oequiv := (ProofOrder.oequiv digits spaces words).
  Lemma o_nameless h : oequiv (unhir (nameless h)) (unhir h).
  Proof.
    induction h as [|t|j|l|a b g h IH|i n h IH|l IH|l IH] using hir_ind'; cbn [nameless unhir]; try apply oequiv_refl.
    - now apply oequiv_rep.
    - now apply oequiv_cap.
    - apply o_mk_cat_ext. rewrite map_map. induction IH; cbn [map]; now constructor.
    - apply o_ralt_ext. rewrite map_map. induction IH; cbn [map]; now constructor.
  Qed.
  Lemma o_same_nameless h h' : nameless h = nameless h' -> oequiv (unhir h) (unhir h').
  Proof.
    intros E. eapply oequiv_trans; [apply oequiv_sym, o_nameless|]. rewrite E. apply o_nameless.
  Qed.
End Names.

(** ** Order *)
Lemma before_asym y y' l : before y y' l -> before y' y l -> False.
Proof.
  intros (l1 & l2 & -> & Hn & Hd & Hi) (m1 & m2 & E & Hm & _ & Hi').
  revert m1 E Hm. induction l1 as [|x l1 IH]; intros m1 E Hm.
  - destruct m1 as [|z m1]; [injection E as E _; congruence|]. injection E as -> _. apply Hm. now left.
  - destruct m1 as [|z m1]; [injection E as -> _; apply Hn; now left|]. injection E as -> E.
    apply (IH (fun H => Hn (or_intror H)) m1 E). intros H. apply Hm. now right.
Qed.
Definition captured_dec (y y' : captured) : {y = y'} + {y <> y'}.
Proof. repeat decide equality. Defined.
Definition capture (w : way) : captured := (w_mid w, w_caps w).

Section OrderIn.
  Context {I : Type} (text : I -> str) (digit space word : char -> bool).
  Context (param : parameter I -> str -> str -> str -> list (option str) -> Prop).
  Context (res : single_expression I -> list re) (pref : single_expression I -> str -> str -> captured -> captured -> Prop).
  Notation ways := (ways digit space word).
  Notation read_in := (read_in text param).
  Notation best_in := (best_in text param pref).
  Record ordered_in (x : single_expression I) : Prop := {
    oi_in : forall pre m post v, In (m, v) (map capture (ways (mk_cat (res x)) pre (m ++ post))) <->
      single_means text (fun q s v => param q pre s post v) x m v;
    oi_order : forall pre s y y', before y y' (map capture (ways (mk_cat (res x)) pre s)) -> pref x pre s y y';
    oi_asym : forall pre s y y', pref x pre s y y' -> pref x pre s y' y -> False
  }.
  Notation tail_by := (tail_by res).
  Lemma tail_in_some e : Forall ordered_in e -> forall pre s l, read_in e pre s l -> ways (tail_by e) pre s <> [].
  Proof.
    intros He pre s l Hl. induction Hl as [pre|x e pre p v t l Hx Hl IH]; [easy|]. inversion_clear He as [|? ? Ho He'].
    unfold ProofMatch4.tail_by. cbn [flat_map]. rewrite <- app_assoc, ways_app. fold (tail_by e).
    apply (oi_in x Ho) in Hx. apply in_map_iff in Hx as (w & E & Hw). injection E as E1 E2.
    pose proof (ways_sound digit space word _ _ _ _ Hw) as [Es _]. rewrite E1 in Es. apply app_inv_head in Es.
    specialize (IH He'). destruct (ways (tail_by e) (pre ++ p) t) as [|u k] eqn:Eu; [easy|].
    intros Hn. assert (Hi : In (mkway (w_mid w ++ w_mid u) (w_rest u) (w_caps w ++ w_caps u)) []); [|easy].
    rewrite <- Hn. unfold followed. apply in_flat_map. exists w. split; [exact Hw|]. rewrite E1, <- Es, Eu. now left.
  Qed.
  Lemma tail_in_best e : Forall ordered_in e -> forall pre s u k, ways (tail_by e) pre s = u :: k ->
    w_mid u = s /\ w_rest u = [] /\ exists l, best_in e pre s l /\ w_caps u = List.concat (map snd l).
  Proof.
    induction e as [|x e IH]; intros He pre s u k Hu.
    - cbn in Hu. destruct s as [|c s]; [|discriminate]. injection Hu as <- _. cbn. repeat split. exists []. split; [|reflexivity].
      split; [constructor|]. intros l' H. inversion H; subst. now left.
    - inversion_clear He as [|? ? Hx He'].
      unfold ProofMatch4.tail_by in Hu. cbn [flat_map] in Hu. rewrite <- app_assoc, ways_app in Hu. fold (tail_by e) in Hu.
      apply first_followed in Hu as (ws1 & w & ws2 & v & k' & Ews & Hskip & Hv & ->).
      assert (Hw : In w (ways (mk_cat (res x)) pre s)) by (rewrite Ews; apply in_elt).
      pose proof (ways_sound digit space word _ _ _ _ Hw) as [Es _].
      apply IH in Hv as (Hm & Hr & l & (Hl & Hbest) & Hcaps); [|exact He'].
      cbn [w_mid w_rest w_caps]. rewrite Hm, Hr. split; [symmetry; exact Es|]. split; [reflexivity|].
      exists ((w_mid w, w_caps w) :: l). split; [|cbn; now rewrite Hcaps].
      assert (Hread : single_means text (fun q s v => param q pre s (w_rest w) v) x (w_mid w) (w_caps w)).
      { apply (oi_in x Hx). rewrite <- Es. change (w_mid w, w_caps w) with (capture w). now apply in_map. }
      split; [rewrite Es; now constructor|].
      intros l' Hl'. assert (Hi : exists p' v' t' l1, s = p' ++ t' /\ l' = (p', v') :: l1 /\
        single_means text (fun q s v => param q pre s t' v) x p' v' /\ read_in e (pre ++ p') t' l1).
      { inversion Hl'; subst; eauto 10. }
      destruct Hi as (p' & v' & t' & l1 & Es' & -> & Hx' & He'').
      destruct (captured_dec (p', v') (w_mid w, w_caps w)) as [Eq|Hd].
      + injection Eq as -> ->. assert (t' = w_rest w) as -> by (rewrite Es' in Es; now apply app_inv_head in Es).
        destruct (Hbest l1 He'') as [->|Hb]; [now left|right]. rewrite Es. now constructor.
      + right. apply better_in_here. apply (oi_order x Hx). rewrite Ews, map_app. cbn [map].
        exists (map capture ws1), (map capture ws2). split; [reflexivity|].
        assert (Hn : ~ In (p', v') (map capture ws1)).
        { intros (w' & E & Hw')%in_map_iff. injection E as E1 E2. specialize (Hskip w' Hw').
          assert (Hw2 : In w' (ways (mk_cat (res x)) pre s)) by (rewrite Ews; apply in_or_app; now left).
          apply ways_sound in Hw2 as [E3 _]. rewrite Es', E1 in E3. apply app_inv_head in E3. rewrite E1, <- E3 in Hskip.
          revert Hskip. now apply tail_in_some with l1. }
        split; [exact Hn|]. split; [exact Hd|].
        apply (oi_in x Hx) in Hx'. rewrite <- Es', Ews, map_app in Hx'. cbn [map] in Hx'.
        apply in_app_or in Hx' as [H|[H|H]]; [easy| |exact H]. exfalso. apply Hd. now symmetry.
  Qed.
  Lemma better_in_asym e : Forall ordered_in e -> forall pre s l l', better_in pref e pre s l l' -> better_in pref e pre s l' l -> False.
  Proof.
    intros He pre s l l' H. induction H as [x e pre s y l y' l' H|x e pre p v t l l' H IH]; intros H'; inversion_clear He as [|? ? Hx He'].
    - inversion H'; subst; eapply (oi_asym x Hx); eassumption.
    - inversion H' as [? ? ? ? ? ? ? ? H''|? ? ? ? ? ? ? ? H'' E1 E2 E3]; subst; [eapply (oi_asym x Hx); eassumption|].
      apply IH; [exact He'|]. match goal with H : p ++ _ = p ++ _ |- _ => apply app_inv_head in H; subst end. assumption.
  Qed.
  Lemma best_in_unique e pre s l l' : Forall ordered_in e -> best_in e pre s l -> best_in e pre s l' -> l = l'.
  Proof.
    intros He (H1 & H2) (H1' & H2'). destruct (H2 l' H1') as [->|Hb]; [reflexivity|].
    destruct (H2' l H1) as [->|Hb']; [reflexivity|]. exfalso. eapply better_in_asym; eassumption.
  Qed.
  Lemma captures_best_in e s c : Forall ordered_in e ->
    captures digit space word (mk_cat (RLook LStart :: flat_map res e ++ [RLook LEnd])) s = Some c <->
    exists l, best_in e [] s l /\ c = Some s :: List.concat (map snd l).
  Proof.
    intros He. unfold captures. rewrite search_anchored_by. destruct (ways (tail_by e) [] s) as [|w k] eqn:E; cbn [option_map].
    - split; [discriminate|]. intros (l & (H1 & _) & _). exfalso. revert E. now apply tail_in_some with l.
    - apply tail_in_best in E as (Hm & _ & l & Hl & Hc); [|exact He]. rewrite Hm, Hc. split.
      + intros H. injection H as <-. eauto.
      + intros (l' & Hl' & ->). now rewrite (best_in_unique e [] s l l' He Hl Hl').
  Qed.
End OrderIn.

(** ** Elements *)
Section Elements.
  Context {I : Type} (text : I -> str) (digits spaces words : ranges) (get : provider I).
  Notation digit := (in_ranges digits).
  Notation space := (in_ranges spaces).
  Notation word := (in_ranges words).
  Notation ways := (ways digit space word).
  Notation tries := (tries digits spaces words).
  Notation compiled := (compiled digits spaces words).
  (** The regex of an element after translation. *)
  Definition re_custom (x : single_expression I) : list re :=
    match custom get x with
    | Some t =>
        match regex_new t with
        | Done r => [if has_outer r then compiled r else RCap None (compiled r)]
        | _ => []
        end
    | None => re_first text x
    end.
  Lemma custom_tries t r pre s : regex_new t = Done r ->
    map capture (ways (if has_outer r then compiled r else RCap None (compiled r)) pre s) = tries t pre s.
  Proof. intros Hr. unfold SpecPrefer.tries. rewrite Hr. destruct (has_outer r); [reflexivity|]. cbn [Match.ways]. now rewrite map_map. Qed.
  Definition element_ok (ok : re -> Prop) (x : single_expression I) : Prop :=
    some_branch x /\ match x with ExParameter p => custom_valid text get ok p | _ => True end.
  Lemma in_capture r pre m post v : In (m, v) (map capture (ways r pre (m ++ post))) -> rm digit space word r pre m post v.
  Proof.
    intros (w & E & Hw)%in_map_iff. injection E as <- <-. apply ways_sound in Hw as [E Hw]. apply app_inv_head in E. now rewrite E.
  Qed.
  Lemma element_in ok x : plain_digits digit -> element_ok ok x ->
    ordered_in text digit space word (tried digits spaces words text get) re_custom (custom_prefers digits spaces words text get) x.
  Proof.
    intros Hd [Hs Hx]. destruct (custom get x) as [t|] eqn:E.
    - destruct x as [a|o|p|u|u]; try discriminate E. cbn in E. unfold custom_valid in Hx. rewrite E in Hx. destruct Hx as (r & Hr & _).
      constructor; unfold custom_prefers, re_custom, custom.
      + intros pre m post v. rewrite E, Hr. cbn [mk_cat]. rewrite (custom_tries t r _ _ Hr). cbn [single_means]. unfold tried. now rewrite E.
      + intros pre s y y'. rewrite E, Hr. cbn [mk_cat]. now rewrite (custom_tries t r _ _ Hr).
      + intros pre s y y'. rewrite E. apply before_asym.
    - assert (Hb : all_built_in text [x]).
      { destruct x as [a|o|p|u|u]; try constructor; [|constructor]. cbn in E. unfold custom_valid in Hx. now rewrite E in Hx. }
      assert (Ho : ordered_element text digit space word (fun p => typed digit space (text (par_input p))) (re_first text) (hir_prefers text) x).
      { pose proof (first_ordered text digit space word Hd [x] Hb) as H. assert (H' : Forall some_branch [x]) by (now constructor). specialize (H H'). now inversion_clear H. }
      assert (Hm : forall pre m post v, single_means text (fun q s v => tried digits spaces words text get q pre s post v) x m v <->
        single_means text (fun p => typed digit space (text (par_input p))) x m v).
      { intros. destruct x as [a|o|p|u|u]; try reflexivity. cbn [single_means]. unfold tried. cbn in E. now rewrite E. }
      constructor; unfold custom_prefers, re_custom; try rewrite E.
      + intros pre m post v. rewrite Hm. split.
        * intros H%in_capture. now apply (oe_rm _ _ _ _ _ _ _ _ Ho) in H.
        * intros H. pose proof (proj2 (oe_rm _ _ _ _ _ _ _ _ Ho pre m post v) H) as H'. apply ways_complete in H' as [c Hc].
          pose proof (ways_sound _ _ _ _ _ _ _ Hc) as [_ Hv]. cbn [w_mid w_rest w_caps] in Hv. apply (oe_rm _ _ _ _ _ _ _ _ Ho) in Hv.
          assert (c = v) as -> by (eapply (oe_value _ _ _ _ _ _ _ _ Ho); eassumption).
          apply (in_map capture) in Hc. exact Hc.
      + intros pre s [p v] [p' v'] (l1 & l2 & El & Hn & Hne & Hi). cbn [fst].
        assert (Hin : forall q c, In (q, c) (map capture (ways (mk_cat (re_first text x)) pre s)) ->
          exists t, s = q ++ t /\ single_means text (fun p => typed digit space (text (par_input p))) x q c).
        { intros q c (w & Ew & Hw)%in_map_iff. injection Ew as <- <-. pose proof (ways_sound _ _ _ _ _ _ _ Hw) as [Es Hv].
          exists (w_rest w). split; [exact Es|]. now apply (oe_rm _ _ _ _ _ _ _ _ Ho) in Hv. }
        assert (H1 : In (p, v) (map capture (ways (mk_cat (re_first text x)) pre s))) by (rewrite El; apply in_elt).
        assert (H2 : In (p', v') (map capture (ways (mk_cat (re_first text x)) pre s))) by (rewrite El; apply in_or_app; right; now right).
        destruct (Hin _ _ H1) as (t & Et & M1). destruct (Hin _ _ H2) as (t' & Et' & M2).
        apply (oe_order _ _ _ _ _ _ _ _ Ho pre s p p' v v' t t'); try assumption; [congruence|].
        assert (Hmid : map w_mid (ways (mk_cat (re_first text x)) pre s) = map fst l1 ++ p :: map fst l2).
        { change (map w_mid (ways (mk_cat (re_first text x)) pre s)) with (map (fun w => fst (capture w)) (ways (mk_cat (re_first text x)) pre s)).
          rewrite <- (map_map capture fst), El, map_app. reflexivity. }
        exists (map fst l1), (map fst l2). split; [exact Hmid|].
        assert (Hv : forall c, In (p', c) (map capture (ways (mk_cat (re_first text x)) pre s)) -> c = v').
        { intros c Hc. destruct (Hin _ _ Hc) as (_ & _ & M). eapply (oe_value _ _ _ _ _ _ _ _ Ho); eassumption. }
        split.
        { intros ([q c] & Eq & Hq)%in_map_iff. cbn in Eq. subst q. apply Hn.
          assert (c = v') as -> by (apply Hv; rewrite El; apply in_or_app; now left). exact Hq. }
        split; [|now apply (in_map fst) in Hi].
        intros ->. apply Hne. f_equal. symmetry. now apply Hv.
      + intros pre s y y'. apply hir_prefers_asym.
  Qed.
End Elements.

(** ** The regex *)
Section Whole.
  Context (digits spaces words : ranges) (Htab : tables_ok digits spaces words) (wrap : bool) (get : provider span).
  Notation oequiv := (ProofOrder.oequiv digits spaces words).
  Notation translated := (translated digits spaces words).
  Notation compiled := (compiled digits spaces words).
  Notation exactly := (exactly digits spaces words wrap).
  Notation custom_re := (custom_re frag digits spaces words (show wrap) get).
  Notation custom_text := (custom_text frag digits spaces words (show wrap) get).
  Lemma translated_compiled r : translated r (compiled r).
  Proof. intros i. unfold Compiled.compiled, translate. rewrite (branches_anywhere digits spaces words r i 1). apply oequiv_refl. Qed.
  Lemma translated_capture n r r' : translated r r' -> translated (RCap n r) (RCap n r').
  Proof.
    intros H i. cbn [Hir.branches]. specialize (H (i + 1)). destruct (branches digits spaces words r (i + 1)) as [l j]. cbn [fst join_alts unhir] in *.
    now apply oequiv_cap.
  Qed.
  Lemma matcher_exactly t r id : regex_new t = Done r -> exactly r ->
    (adds (matcher_text digits spaces words (show wrap) t id) (matcher_re digits spaces words (show wrap) t id)) /\
    Forall2 translated (matcher_re digits spaces words (show wrap) t id) [if has_outer r then compiled r else RCap None (compiled r)].
  Proof.
    intros Hr [Ht Ho]. unfold matcher_text, matcher_re. rewrite Hr, (outer_detected digits spaces words Htab t r Hr Ht). destruct (has_outer r).
    - destruct (Ho eq_refl) as [Hc Hw]. destruct (reread_display digits spaces words Htab wrap t r Hr Ht Hc Hw) as [_ H].
      destruct (H id) as (r' & E & Er). unfold printed. rewrite E. split; [now apply adds_one_adds, parse_group|].
      constructor; [|constructor]. intros i. eapply oequiv_trans; [apply translated_compiled|]. unfold Compiled.compiled. rewrite Er.
      apply o_same_nameless. eapply rename_nameless; eassumption.
    - split; [apply adds_one_adds, parse_capture; now apply regex_new_inv in Hr|]. constructor; [|constructor].
      apply translated_capture, translated_compiled.
  Qed.
  Lemma exactly_adds e : Forall (custom_valid frag get exactly) (parameters e) -> forall p, In p (parameters e) -> adds (custom_text p) (custom_re p).
  Proof.
    intros H p Hp. rewrite Forall_forall in H. specialize (H p Hp). unfold custom_valid in H. unfold ProofParams.custom_text, ProofParams.custom_re.
    destruct (get (par_input p)) as [t|]; [|apply adds_builtin]. destruct H as (r & Hr & He). now destruct (matcher_exactly t r (par_id p) Hr He).
  Qed.
  Lemma translated_custom x : wf_single (map_single frag x) -> match x with ExParameter p => custom_valid frag get exactly p | _ => True end ->
    Forall re_ok (re_single frag custom_re x) -> Forall2 translated (re_single frag custom_re x) (re_custom frag digits spaces words get x).
  Proof.
    intros Hw Hx Hok. unfold re_custom. destruct (custom get x) as [t|] eqn:E.
    - destruct x as [a|o|p|u|u]; try discriminate E. cbn in E. unfold custom_valid in Hx. rewrite E in Hx. destruct Hx as (r & Hr & He).
      cbn [re_single]. unfold ProofParams.custom_re. rewrite E, Hr. now destruct (matcher_exactly t r (par_id p) Hr He).
    - assert (Es : re_single frag custom_re x = re_single frag (builtin_re frag) x).
      { destruct x as [a|o|p|u|u]; try reflexivity. cbn in E. cbn [re_single]. unfold ProofParams.custom_re. now rewrite E. }
      rewrite Es in *. now apply translated_single.
  Qed.
  Lemma in_element e x : In x e -> Forall (custom_valid frag get exactly) (parameters e) -> match x with ExParameter p => custom_valid frag get exactly p | _ => True end.
  Proof. intros Hx He. destruct x as [a|o|p|u|u]; try exact Logic.I. rewrite Forall_forall in He. apply He. now apply in_parameters. Qed.
  Lemma translated_whole e : Forall wf_single (map_expression frag e) -> Forall (custom_valid frag get exactly) (parameters e) ->
    re_ok (re_by frag custom_re e) ->
    translated (re_by frag custom_re e) (mk_cat (RLook LStart :: flat_map (re_custom frag digits spaces words get) e ++ [RLook LEnd])).
  Proof.
    intros Hw He Hok. unfold re_by in *. apply translated_cat. apply ok_mk_cat in Hok. inversion_clear Hok as [|? ? _ Hok'].
    apply Forall_app in Hok' as [Hok _].
    assert (Hlook : forall l, translated (RLook l) (RLook l)) by (intros l; apply (translated_calm digits spaces words Htab); [exact Logic.I|exact Logic.I|now apply calm_single]).
    constructor; [apply Hlook|]. apply Forall2_app; [|constructor; [apply Hlook|constructor]].
    assert (Hall : forall x, In x e -> match x with ExParameter p => custom_valid frag get exactly p | _ => True end) by (intros x Hx; now apply (in_element e)).
    clear He. induction e as [|x e IH]; [constructor|]. cbn [flat_map map_expression map] in *. apply Forall_app in Hok as [Hx Hok].
    inversion_clear Hw as [|? ? Hw1 Hw2]. apply Forall2_app; [apply translated_custom; try assumption; apply Hall; now left|].
    apply IH; try assumption. intros y Hy. apply Hall. now right.
  Qed.
  Lemma custom_takes_best s e t r : addressable s -> expression_parse s = RetOk e ->
    Forall (custom_valid frag get exactly) (parameters e) ->
    regex_with_parameters digits spaces words (show wrap) get s = XOk t r ->
    plain_digits (in_ranges digits) -> forall subject c, Forall scalar subject ->
      hir_captures digits spaces words r subject = Some c <->
      exists l, best_in frag (tried digits spaces words frag get) (custom_prefers digits spaces words frag get) e [] subject l /\
        c = Some subject :: List.concat (map snd l).
  Proof.
    intros Hs He Hv Hr Hd subject c Hsub. destruct (parsed_wf s e Hs He) as [[Hw _] _].
    assert (Hc : Forall (custom_checked frag get) (parameters e)).
    { eapply Forall_impl; [|exact Hv]. intros p Hp. eapply custom_valid_checked, Hp. }
    destruct (whole_read digits spaces words (show wrap) get s e He Hc (exactly_adds e Hv)) as [[E _]|[E _]]; rewrite E in Hr; [|discriminate].
    assert (Hok : re_ok (re_by frag custom_re e)).
    { rewrite (whole_checked digits spaces words (show wrap) get s e He Hc) in E. destruct (regex_new _) as [r0| |] eqn:E0; try discriminate.
      apply regex_new_ok in E0. assert (r0 = re_by frag custom_re e) as <- by congruence. exact E0. }
    assert (r = re_by frag custom_re e) as -> by congruence.
    unfold hir_captures, Compiled.compiled, translate.
    rewrite (captures_alike _ _ _ _ _ _ (translated_whole e Hw Hv Hok 1) Hsub).
    apply captures_best_in. apply Forall_forall. intros x Hx. apply element_in with exactly; [exact Hd|]. split; [|now apply (in_element e)].
    unfold map_expression in Hw. rewrite Forall_map in Hw. rewrite Forall_forall in Hw. specialize (Hw x Hx).
    destruct x as [[|b a]|o|q|u|u]; try exact Logic.I. destruct Hw as [Hw _]. cbn in Hw. lia.
  Qed.
End Whole.

(** ** What is tried is what is meant *)
Section Tried.
  Context (digits spaces words : ranges) (Htab : tables_ok digits spaces words) {I : Type} (text : I -> str) (get : provider I).
  Notation tried := (tried digits spaces words text get).
  Notation type := (custom_type digits spaces words text get).
  Notation tame := (SpecParams.tame digits spaces words).
  Lemma tried_meant p pre m post : custom_valid text get tame p -> Forall scalar m ->
    (forall v, tried p pre m post v -> type p pre m post v) /\
    forall v, type p pre m post v -> exists v', tried p pre m post v'.
  Proof.
    unfold custom_valid, SpecPrefer.tried, custom_type. intros Hv Hm. destruct (get (par_input p)) as [t|]; [|eauto].
    destruct Hv as (r & Hr & Ht). destruct (regex_new_inv t r Hr) as [Hp _].
    destruct (translate_spec digits spaces words Htab r (parsed_ok _ _ Hp) Ht) as (_ & He & _). split.
    - intros v Hi. unfold tries in Hi. rewrite Hr in Hi. apply in_map_iff in Hi as (w & E & Hw). injection E as E1 E2.
      pose proof (ways_sound _ _ _ _ _ _ _ Hw) as [Es H]. rewrite E1 in Es, H. apply app_inv_head in Es. rewrite <- Es in H.
      apply (proj2 He pre m post (w_caps w) Hm) in H. exists r, (w_caps w). split; [exact Hr|]. split; [exact H|]. now rewrite <- E2, E1.
    - intros v (r' & c & Hr' & H & ->). assert (r' = r) as -> by congruence. apply (proj2 He pre m post c Hm), ways_complete in H as [c' H].
      exists (if has_outer r then c' else Some m :: c'). unfold tries. rewrite Hr. apply in_map_iff. exists (mkway m post c'). split; [reflexivity|exact H].
  Qed.
  Lemma read_meant e : Forall (custom_valid text get tame) (parameters e) -> forall pre s l, Forall scalar s ->
    read_in text tried e pre s l -> means_in text type e pre s [] (List.concat (map snd l)).
  Proof.
    intros He pre s l Hs H. induction H as [pre|x e pre p v t l Hx Hl IH]; [constructor|].
    cbn [map snd List.concat]. apply Forall_app in Hs as [Hp Ht]. constructor.
    - rewrite app_nil_r. destruct x as [a|o|q|u|u]; try exact Hx. cbn in *. apply tried_meant; try assumption. now inversion_clear He.
    - apply IH; [|exact Ht]. destruct x; try exact He. now inversion_clear He.
  Qed.
End Tried.

(** ** A lazy exact count *)
Definition lazy_get (i : span) : option str := Some (s_ "(?:a|aa){2}?(ab)|(?:a|aa){2}(aab)").
Lemma lazy_count_order : forall digits spaces words, exists get s e t r subject c,
  addressable s /\ expression_parse s = RetOk e /\
  Forall (custom_valid frag get (tame digits spaces words)) (parameters e) /\
  regex_with_parameters digits spaces words (show true) get s = XOk t r /\ Forall scalar subject /\
  hir_captures digits spaces words r subject = Some c /\
  ~ exists l, best_in frag (tried digits spaces words frag get) (custom_prefers digits spaces words frag get) e [] subject l /\
    c = Some subject :: List.concat (map snd l).
Proof.
  intros digits spaces words. exists lazy_get, (s_ "{p}").
  eexists. eexists. eexists. exists (s_ "aaaab"). eexists. split; [vm_compute; discriminate|]. split; [vm_compute; reflexivity|]. split.
  { constructor; [|constructor]. eexists. split; [vm_compute; reflexivity|]. cbn. repeat split; now left. }
  split; [vm_compute; reflexivity|]. split; [repeat constructor; vm_compute; intuition discriminate|]. split; [vm_compute; reflexivity|].
  intros (l & [Hl Hb] & E). specialize (Hb [(s_ "aaaab", [Some (s_ "ab"); None])]).
  set (y1 := (s_ "aaaab", [Some (s_ "ab"); None])) in *. set (y2 := (s_ "aaaab", [None; Some (s_ "aab")])).
  assert (Ht : tries digits spaces words (s_ "(?:a|aa){2}?(ab)|(?:a|aa){2}(aab)") [] (s_ "aaaab") = [y1; y1; y2]) by (vm_compute; reflexivity).
  assert (H1 : read_in frag (tried digits spaces words frag lazy_get) [ExParameter (mkParameter (mkspan 1 1 [112]) 0)] [] (s_ "aaaab" ++ []) [y1]).
  { constructor; [|constructor]. unfold single_means, tried, lazy_get. change (s_ "aaaab" ++ []) with (s_ "aaaab"). rewrite Ht. now left. }
  apply Hb in H1. destruct H1 as [<-|H1]; [discriminate E|]. inversion H1 as [? ? ? ? y ? ? ? Hp|? ? ? ? ? ? ? ? Hp]; subst; [|inversion Hp].
  unfold custom_prefers, custom, lazy_get in Hp. rewrite Ht in Hp. destruct Hp as (l1 & l2 & El & Hn & Hne & _).
  destruct l1 as [|z l1]; [injection El as -> _; now apply Hne|]. injection El as <- _. apply Hn. now left.
Qed.
