(** Alternations whose branches all begin with the same optional: the [Hir] has that beginning first. *)
From Coq Require Import PeanoNat.
From Verif Require Export ProofOrder4.

(** ** Common beginnings of [Hir]s *)
Lemma str_eqb_refl s : str_eqb s s = true.
Proof. now apply str_eqb_eq. Qed.
Lemma opt_eqb_refl {A} (eqb : A -> A -> bool) (o : option A) : (forall a, eqb a a = true) -> opt_eqb eqb o o = true.
Proof. intros H. destruct o; cbn; auto. Qed.
Lemma hir_eqb_refl h : hir_eqb h h = true.
Proof.
  induction h as [|t|k|l|a b g h IH|i n h IH|l IH|l IH] using hir_ind'; cbn [hir_eqb].
  - reflexivity.
  - apply str_eqb_refl.
  - induction k as [|x k IHk]; [reflexivity|]. cbn. now rewrite !N.eqb_refl, IHk.
  - now destruct l.
  - rewrite N.eqb_refl, opt_eqb_refl, IH by apply N.eqb_refl. now destruct g.
  - now rewrite N.eqb_refl, opt_eqb_refl, IH by apply str_eqb_refl.
  - induction IH as [|x l Hx Hl IHl]; [reflexivity|]. now rewrite Hx, IHl.
  - induction IH as [|x l Hx Hl IHl]; [reflexivity|]. now rewrite Hx, IHl.
Qed.
Lemma common_app q a b : common (q ++ a) (q ++ b) = q ++ common a b.
Proof. induction q as [|x q IH]; [reflexivity|]. cbn. now rewrite hir_eqb_refl, IH. Qed.
Lemma fold_common q cs : forall c, Forall (fun x => exists r, x = q ++ r) (c :: cs) -> exists r, fold_left common cs c = q ++ r.
Proof.
  induction cs as [|c' cs IH]; intros c H; inversion_clear H as [|? ? [r ->] Hr]; [now exists r|].
  inversion_clear Hr as [|? ? [r' ->] Hr']. cbn. rewrite common_app. apply IH. constructor; [now eexists|exact Hr'].
Qed.

(** ** Common beginnings of branches *)
Lemma piece_dec (x y : piece) : {x = y} + {x <> y}.
Proof. decide equality; [apply N.eq_dec|apply (list_eq_dec N.eq_dec)]. Qed.
Fixpoint shared (a b : list piece) : list piece :=
  match a, b with
  | x :: a', y :: b' => if piece_dec x y then x :: shared a' b' else []
  | _, _ => []
  end.
Definition beginning (bs : list (list piece)) : list piece :=
  match bs with [] => [] | b :: bs => fold_left shared bs b end.
Definition rests_of (bs : list (list piece)) : list (list piece) := map (skipn (List.length (beginning bs))) bs.
Lemma shared_app q a b : shared (q ++ a) (q ++ b) = q ++ shared a b.
Proof. induction q as [|x q IH]; [reflexivity|]. cbn. destruct (piece_dec x x); [now rewrite IH|easy]. Qed.
Lemma shared_left a : forall b, exists r, a = shared a b ++ r.
Proof.
  induction a as [|x a IH]; intros b; [now exists []|]. destruct b as [|y b]; [now eexists|]. cbn.
  destruct (piece_dec x y); [|now eexists]. destruct (IH b) as [r Hr]. exists r. cbn. now f_equal.
Qed.
Lemma shared_right a : forall b, exists r, b = shared a b ++ r.
Proof.
  induction a as [|x a IH]; intros b; [now exists b|]. destruct b as [|y b]; [now exists []|]. cbn.
  destruct (piece_dec x y) as [->|]; [|now eexists]. destruct (IH b) as [r Hr]. exists r. cbn. now f_equal.
Qed.
Lemma fold_shared q bs : forall b, Forall (fun x => exists r, x = q ++ r) (b :: bs) -> exists r, fold_left shared bs b = q ++ r.
Proof.
  induction bs as [|c bs IH]; intros b H; inversion_clear H as [|? ? [r ->] Hr]; [now exists r|].
  inversion_clear Hr as [|? ? [r' ->] Hr']. cbn. rewrite shared_app. apply IH. constructor; [now eexists|exact Hr'].
Qed.
Lemma fold_shared_all bs : forall b, Forall (fun x => exists r, x = fold_left shared bs b ++ r) (b :: bs).
Proof.
  induction bs as [|c bs IH]; intros b; cbn.
  - constructor; [|constructor]. exists []. now rewrite app_nil_r.
  - specialize (IH (shared b c)). inversion_clear IH as [|? ? [r Hr] Hbs].
    destruct (shared_left b c) as [r1 H1], (shared_right b c) as [r2 H2].
    constructor; [|constructor]; [exists (r ++ r1)|exists (r ++ r2)|exact Hbs]; rewrite app_assoc, <- Hr; assumption.
Qed.
Lemma beginning_all bs : bs <> [] -> all_begin (beginning bs) (rests_of bs) bs.
Proof.
  intros Hne. assert (H : Forall (fun b => exists r, b = beginning bs ++ r) bs).
  { destruct bs as [|b bs]; [easy|]. apply fold_shared_all. }
  assert (E : bs = map (app (beginning bs)) (rests_of bs)).
  { unfold rests_of. rewrite map_map. revert H. generalize (beginning bs). intros p H. clear Hne.
    induction H as [|b bs [r ->] Hb IH]; [reflexivity|]. cbn [map]. rewrite <- IH. f_equal.
    now rewrite skipn_app, skipn_all, Nat.sub_diag. }
  split; [exact E|]. intros [x Hx].
  assert (H' : Forall (fun b => exists r, b = (beginning bs ++ [x]) ++ r) bs).
  { rewrite E. apply Forall_map. eapply Forall_impl; [|exact Hx]. intros r [r' ->]. exists r'. rewrite <- app_assoc. cbn. now rewrite <- E. }
  destruct bs as [|b bs]; [easy|]. apply fold_shared in H' as [r Hr]. fold (beginning (b :: bs)) in Hr.
  change (fold_left shared bs b) with (beginning (b :: bs)) in Hr. apply (f_equal (@List.length _)) in Hr. rewrite !app_length in Hr. cbn [List.length] in Hr. lia.
Qed.
Lemma all_begin_some p rs bs : all_begin p rs bs -> rs <> [].
Proof. intros [_ H] ->. apply H. exists (Char 0). constructor. Qed.
Lemma app_map_inj p rs rs' : map (@app piece p) rs = map (app p) rs' -> rs = rs'.
Proof.
  revert rs'. induction rs as [|r rs IH]; intros [|r' rs']; cbn; try discriminate; [reflexivity|]. intros H.
  assert (H1 : p ++ r = p ++ r') by congruence. assert (H2 : map (app p) rs = map (app p) rs') by congruence.
  apply app_inv_head in H1 as ->. now rewrite (IH rs' H2).
Qed.
Lemma all_begin_unique p rs p' rs' bs : all_begin p rs bs -> all_begin p' rs' bs -> p = p' /\ rs = rs'.
Proof.
  assert (Hone : forall p rs u x rs', map (@app piece p) rs = map (app (p ++ x :: u)) rs' -> exists x, Forall (fun r => exists r', r = x :: r') rs).
  { clear. intros p rs u x rs' H. exists x. replace (map (app (p ++ x :: u)) rs') with (map (app p) (map (app (x :: u)) rs')) in H.
    - apply app_map_inj in H as ->. apply Forall_map, Forall_forall. intros r _. now eexists.
    - rewrite map_map. apply map_ext. intros r. now rewrite <- app_assoc. }
  intros H H'. assert (E : p = p').
  { pose proof (all_begin_some _ _ _ H) as Hs. destruct H as [-> Hm], H' as [E Hm'].
    destruct rs as [|r rs]; [easy|]. destruct rs' as [|r' rs']; [discriminate|].
    assert (E1 : p ++ r = p' ++ r') by (cbn in E; congruence).
    destruct (app_eq_app _ _ _ _ E1) as [[|x u] [[-> _]|[-> _]]]; rewrite ?app_nil_r; try reflexivity; exfalso.
    - symmetry in E. now apply Hm', (Hone p' (r' :: rs') u x (r :: rs)).
    - now apply Hm, (Hone p (r :: rs) u x (r' :: rs')). }
  subst p'. split; [reflexivity|]. destruct H as [-> _], H' as [E _]. now apply app_map_inj in E.
Qed.
Lemma text_or_maybe p : (exists t, p = map Char t) \/ exists x o t, p = x ++ Maybe o :: map Char t.
Proof.
  induction p as [|[c|o] p [[t ->]|(x & o' & t & ->)]].
  - left. now exists [].
  - left. now exists (c :: t).
  - right. now exists (Char c :: x), o', t.
  - right. now exists [], o, t.
  - right. now exists (Maybe o :: x), o', t.
Qed.
Lemma text_before t : forall t' r o l, map Char t ++ r = map Char t' ++ Maybe o :: l -> exists u, t' = t ++ u /\ r = map Char u ++ Maybe o :: l.
Proof.
  induction t as [|c t IH]; intros t' r o l; cbn; [intros ->; now exists t'|]. destruct t' as [|c' t']; [discriminate|].
  cbn. intros H. assert (c = c') as <- by congruence. assert (E : map Char t ++ r = map Char t' ++ Maybe o :: l) by congruence.
  destruct (IH _ _ _ _ E) as (u & -> & ->). now exists u.
Qed.
Lemma begin_unshared t rs bs : all_begin (map Char t) rs bs -> ~ shared_optional bs.
Proof.
  intros H (t' & o & Hs). pose proof (all_begin_some _ _ _ H) as Hne. destruct H as [-> Hm]. apply Hm.
  rewrite Forall_map in Hs. destruct rs as [|r rs]; [easy|]. inversion Hs as [|? ? [l Hl] _]; subst.
  destruct (text_before _ _ _ _ _ Hl) as (u & -> & _).
  exists (match u with [] => Maybe o | c :: _ => Char c end). eapply Forall_impl; [|exact Hs]. intros a [l' Hl'].
  rewrite map_app, <- app_assoc in Hl'. apply app_inv_head in Hl' as ->. destruct u as [|c u]; cbn; now eexists.
Qed.

(** ** Regexes and [Hir]s of branches *)
Definition re_pieces (b : list piece) : re := mk_cat (map re_piece b).
Lemma hirs_maybe x o y : hirs (x ++ Maybe o :: y) = hirs (x ++ [Maybe o]) ++ hirs y.
Proof.
  induction x as [|[c|t] x IH]; cbn [app hirs]; [reflexivity| |now rewrite IH].
  rewrite IH. destruct (hirs (x ++ [Maybe o])) as [|[] l] eqn:E; try reflexivity.
  exfalso. destruct x as [|[c'|t'] x]; cbn [app hirs] in E; try discriminate E. now destruct (hirs (x ++ [Maybe o])) as [|[] l].
Qed.
Lemma hirs_nil b : hirs b = [] -> b = [].
Proof. destruct b as [|[c|t] b]; cbn [hirs]; [reflexivity| |discriminate]. now destruct (hirs b) as [|[] l]. Qed.
Lemma hirs_two b : (exists c, In (Char c) b) -> (exists o, In (Maybe o) b) -> exists h h' l, hirs b = h :: h' :: l.
Proof.
  intros [c Hc] [o Ho]. pose proof (hirs_forms b) as F. destruct (hirs b) as [|h [|h' l]] eqn:E; [|exfalso|now eexists _, _, _].
  - apply hirs_nil in E as ->. easy.
  - inversion_clear F as [|? ? [[t ->]|[t ->]] _].
    + apply hirs_lit in E as (b' & -> & ->%hirs_nil). rewrite app_nil_r in Ho. apply in_map_iff in Ho as (? & ? & _). discriminate.
    + apply hirs_rep in E as (o' & b' & -> & _ & ->%hirs_nil). destruct Hc as [Hc|[]]. discriminate.
Qed.

Lemma unshared_common q ys : ys <> [] -> ~ shared_optional ys -> (forall y, In y ys -> exists r, hirs y = q ++ r) ->
  exists u zs, ys = map (app (map Char u)) zs /\ ((q = [] /\ u = []) \/ q = [HLit u]) /\
    map (fun y => skipn (List.length q) (hirs y)) ys = map hirs zs.
Proof.
  intros Hne Hs Hq. destruct q as [|x q].
  - exists [], ys. split; [symmetry; apply map_id|]. split; [now left|]. reflexivity.
  - assert (Hform : forall q y, (forall b, In b ys -> exists r, hirs b = q ++ y :: r) ->
      (exists t, y = HLit t) \/ exists t, y = HRep 0 (Some 1) true (h_literal t)).
    { intros q' y H. destruct ys as [|b bs]; [easy|]. destruct (H b (or_introl eq_refl)) as [r Hr].
      pose proof (hirs_forms b) as F. rewrite Hr, Forall_app in F. now inversion F as [_ F2]; inversion F2. }
    destruct (Hform [] x) as [[t ->]|[o ->]]; [intros b Hb; destruct (Hq b Hb) as [r Hr]; now exists (q ++ r)| |].
    + destruct q as [|y q].
      * clear Hs Hne Hform. enough (H : exists zs, ys = map (app (map Char t)) zs /\ map (fun y => skipn (List.length [HLit t]) (hirs y)) ys = map hirs zs).
        { destruct H as (zs & H1 & H2). exists t, zs. auto. }
        induction ys as [|b bs IH]; [now exists []|].
        destruct IH as (ls & -> & E); [intros b' Hb'; apply Hq; now right|].
        destruct (Hq b (or_introl eq_refl)) as [r Hr]. pose proof Hr as Hr'. apply hirs_lit in Hr as (l & -> & El).
        exists (l :: ls). split; [reflexivity|]. cbn [map]. rewrite E. f_equal. rewrite Hr', El. reflexivity.
      * exfalso. destruct (Hform [HLit t] y) as [[u ->]|[o ->]]; [intros b Hb; destruct (Hq b Hb) as [r Hr]; now exists (q ++ r)| |].
        -- destruct ys as [|b bs]; [easy|]. destruct (Hq b (or_introl eq_refl)) as [r Hr]. now apply hirs_no_two in Hr.
        -- apply Hs. exists t, o. apply Forall_forall. intros b Hb. destruct (Hq b Hb) as [r Hr]. apply hirs_lit in Hr as (l & -> & Hl).
           apply hirs_rep in Hl as (o' & b' & -> & Ho & _). apply literal_inj in Ho as ->. now exists b'.
    + exfalso. apply Hs. exists [], o. apply Forall_forall. intros b Hb. destruct (Hq b Hb) as [r Hr].
      apply hirs_rep in Hr as (o' & b' & -> & Ho & _). apply literal_inj in Ho as ->. now exists b'.
Qed.

Lemma alternation_lift fuel h h' l c cs p : flatten_alt (h :: h' :: l) = h :: h' :: l -> (forall x, In x (h :: h' :: l) -> exists m, x = HCat m) ->
  all_some as_concat (h :: h' :: l) = Some (c :: cs) -> fold_left common cs c = p -> p <> [] ->
  h_alternation_ (S fuel) (h :: h' :: l) = h_concat (p ++ [h_alternation_ fuel (map (fun x => h_concat (skipn (List.length p) x)) (c :: cs))]).
Proof.
  intros Hf Hc Ha Hp Hne. destruct (Hc h (or_introl eq_refl)) as [m ->]. cbn [h_alternation_]. rewrite Hf, Ha, Hp. now destruct p.
Qed.

Section Order.
  Context (digits spaces words : ranges) (Htab : tables_ok digits spaces words).
  Notation oequiv := (ProofOrder.oequiv digits spaces words).
  Notation trans := (oequiv_trans digits spaces words _ _ _).
  Notation sym := (oequiv_sym digits spaces words _ _).
  Notation refl := (oequiv_refl digits spaces words _).
  Notation branches := (branches digits spaces words).
  Notation cat_of l := (mk_cat (map unhir l)).
  Notation alt_of l := (ralt (map unhir l)).

  Lemma o_literal t : oequiv (unhir (h_literal t)) (mk_cat (map RLit t)).
  Proof. destruct t; apply refl. Qed.
  Lemma o_hir_piece x : oequiv (unhir (hir_piece x)) (re_piece x).
  Proof. destruct x as [c|t]; [apply refl|]. cbn [hir_piece unhir re_piece]. apply oequiv_rep, o_literal. Qed.
  Lemma o_hir_of b : oequiv (unhir (hir_of b)) (re_pieces b).
  Proof.
    induction b as [|x b IH]; [apply refl|]. rewrite <- concat_piece. eapply trans; [apply o_h_concat|]. cbn [map mk_cat].
    eapply trans; [apply oequiv_cat; [apply o_hir_piece|exact IH]|]. apply sym, o_mk_cat_cons.
  Qed.
  Lemma o_pieces_app a b : oequiv (re_pieces (a ++ b)) (RCat (re_pieces a) (re_pieces b)).
  Proof. unfold re_pieces. rewrite map_app. apply o_mk_cat_app. Qed.
  Lemma single_text t : single digits spaces words (re_pieces (map Char t)).
  Proof. apply single_mk_cat. induction t; constructor; [|assumption]. eapply single_char; reflexivity. Qed.
  Lemma o_lift_text t rs : oequiv (ralt (map re_pieces (map (app (map Char t)) rs))) (RCat (re_pieces (map Char t)) (ralt (map re_pieces rs))).
  Proof.
    eapply trans; [|apply o_ralt_lift, single_text]. rewrite !map_map. apply o_ralt_ext.
    induction rs as [|r rs IH]; constructor; [apply o_pieces_app|exact IH].
  Qed.
  Lemma o_cat_hirs b : oequiv (cat_of (hirs b)) (re_pieces b).
  Proof. eapply trans; [|apply o_hir_of]. rewrite <- concat_hirs. apply sym, o_h_concat. Qed.
  Lemma hir_of_ok b : hir_ok (hir_of b) /\ caps (hir_of b) = [].
  Proof.
    rewrite <- concat_hirs, caps_concat. split.
    - apply ok_h_concat. eapply Forall_impl; [|apply hirs_forms]. intros h [[t ->]|[t ->]]; cbn; [exact I|].
      split; [split; [now split|apply rep_optional]|now destruct t].
    - induction (hirs_forms b) as [|h l Hh Hl IH]; [reflexivity|]. cbn [flat_map]. rewrite IH. destruct Hh as [[t ->]|[[|] ->]]; reflexivity.
  Qed.
  Lemma o_calm_hirs fuel bs : ~ shared_optional bs -> oequiv (unhir (h_alternation_ fuel (map hir_of bs))) (ralt (map re_pieces bs)).
  Proof.
    intros H. eapply trans; [apply o_h_alternation|].
    - assert (E : flat_map caps (map hir_of bs) = []); [|rewrite E; constructor]. clear. induction bs as [|b bs IH]; [reflexivity|].
      cbn [map flat_map]. now rewrite IH, (proj2 (hir_of_ok b)).
    - apply Forall_map, Forall_forall. intros b _. apply hir_of_ok.
    - now apply calm_hirs.
    - rewrite map_map. apply o_ralt_ext. clear. induction bs as [|b bs IH]; constructor; [apply o_hir_of|exact IH].
  Qed.

  Definition re_lifted (p : list piece) (rests : list (list piece)) : re := RCat (re_pieces p) (mk_alt (map re_pieces rests)).
  Lemma o_lifted p rs bs : all_begin p rs bs -> Forall (fun b => exists c, In (Char c) b) bs -> (2 <= List.length bs)%nat ->
    oequiv (unhir (join_alts (map hir_of bs))) (re_lifted p rs).
  Proof.
    intros Hb Hc Htwo. pose proof (all_begin_some _ _ _ Hb) as Hne.
    assert (Hend : forall r, oequiv r (RCat (re_pieces p) (ralt (map re_pieces rs))) -> oequiv r (re_lifted p rs)).
    { intros r Hr. eapply trans; [exact Hr|]. apply oequiv_cat; [apply refl|]. apply sym, o_ralt_mk_alt. now destruct rs. }
    apply Hend. clear Hend.
    replace (join_alts (map hir_of bs)) with (h_alternation_ (hir_size (HAlt (map hir_of bs))) (map hir_of bs))
      by (destruct bs as [|b1 [|b2 bs]]; cbn in Htwo; try lia; reflexivity).
    destruct (text_or_maybe p) as [[t ->]|(x & o & t & ->)].
    - eapply trans; [apply o_calm_hirs; eapply begin_unshared, Hb|]. destruct Hb as [-> _]. apply o_lift_text.
    - change (x ++ Maybe o :: map Char t) with (x ++ [Maybe o] ++ map Char t) in *. rewrite app_assoc in *.
      set (w := x ++ [Maybe o]) in *. set (ys := map (app (map Char t)) rs).
      assert (Hy : all_begin (map Char t) rs ys) by (split; [reflexivity|apply Hb]).
      assert (E : bs = map (app w) ys).
      { destruct Hb as [-> _]. unfold ys. rewrite map_map. apply map_ext. intros r. now rewrite app_assoc. }
      assert (Hw : forall y, hirs (w ++ y) = hirs w ++ hirs y) by (intros y; unfold w; rewrite <- app_assoc; apply hirs_maybe).
      apply begin_unshared in Hy. eapply trans; [|apply oequiv_cat; [apply sym, o_pieces_app|apply refl]].
      eapply trans; [|apply o_cat_assoc]. eapply trans; [|apply oequiv_cat; [apply refl|apply o_lift_text]]. fold ys.
      assert (Hcat : all_some as_concat (map hir_of bs) = Some (map hirs bs)).
      { assert (H : Forall (fun b => as_concat (hir_of b) = Some (hirs b)) bs).
        { rewrite Forall_forall in Hc |- *. intros b Hi. destruct (hirs_two b) as (h & h' & l & Eh); [now apply Hc| |unfold hir_of; now rewrite Eh].
          exists o. rewrite E in Hi. apply in_map_iff in Hi as (y & <- & _). unfold w. apply in_or_app. left. apply in_or_app. right. now left. }
        clear - H. induction H as [|b bs Hb Hbs IH]; [reflexivity|]. cbn [map all_some]. now rewrite Hb, IH. }
      assert (Hfuel : exists fuel, hir_size (HAlt (map hir_of bs)) = S fuel) by (eexists; reflexivity).
      destruct Hfuel as [fuel ->].
      assert (Hch : forall h, In h (map hir_of bs) -> exists l, h = HCat l).
      { clear - Hcat. revert Hcat. generalize (map hirs bs). induction (map hir_of bs) as [|h l IH]; intros m; [easy|]. cbn [all_some].
        destruct (as_concat h) eqn:Eh; [|discriminate]. destruct (all_some as_concat l); [|discriminate]. intros _ h' [<-|Hi].
        - destruct h; try discriminate. now eexists.
        - eapply IH; [reflexivity|exact Hi]. }
      pose proof (flatten_alt_hirs bs) as Hflat.
      assert (Hq : exists r, match map hirs bs with c :: cs => fold_left common cs c | [] => [] end = hirs w ++ r /\
        Forall (fun x => exists r', x = (hirs w ++ r) ++ r') (map hirs bs)).
      { destruct bs as [|b1 bs]; [now cbn in Htwo|]. cbn [map].
        destruct (fold_common (hirs w) (map hirs bs) (hirs b1)) as [r Hr].
        - change (hirs b1 :: map hirs bs) with (map hirs (b1 :: bs)). rewrite E, map_map.
          apply Forall_map, Forall_forall. intros y _. rewrite Hw. now eexists.
        - exists r. split; [exact Hr|]. rewrite <- Hr. apply common_all. }
      destruct Hq as (q & Hq & Hall).
      assert (Hq0 : hirs w ++ q <> []).
      { intros E0. apply app_eq_nil in E0 as [E0 _]. apply hirs_nil in E0. now destruct x. }
      assert (Hlift : h_alternation_ (S fuel) (map hir_of bs) =
        h_concat ((hirs w ++ q) ++ [h_alternation_ fuel (map (fun x => h_concat (skipn (List.length (hirs w ++ q)) x)) (map hirs bs))])).
      { destruct bs as [|b1 [|b2 bs]]; cbn in Htwo; try lia. cbn [map] in Hcat, Hch, Hflat, Hq |- *.
        exact (alternation_lift fuel _ _ _ _ _ (hirs w ++ q) Hflat Hch Hcat Hq Hq0). }
      rewrite Hlift. clear Hlift Hflat Hch Hcat Htwo Hc Hq. rewrite E in *. assert (Hys : ys <> []) by (unfold ys; now destruct rs).
      rewrite Forall_forall in Hall. assert (Hq : forall y, In y ys -> exists r, hirs y = q ++ r).
      { intros y Hi. destruct (Hall (hirs (w ++ y))) as [r Hr]; [now apply in_map, in_map|]. rewrite Hw, <- app_assoc in Hr.
        apply app_inv_head in Hr. now exists r. }
      destruct (unshared_common q ys Hys Hy Hq) as (u & zs & Ezs & Equ & Ehirs).
      assert (Hz : ~ shared_optional zs).
      { intros (t' & o' & H). apply Hy. exists (u ++ t'), o'. rewrite Ezs. apply Forall_map. eapply Forall_impl; [|exact H].
        intros l [r ->]. exists r. now rewrite map_app, <- app_assoc. }
      assert (Eskip : map (fun x => h_concat (skipn (List.length (hirs w ++ q)) x)) (map hirs (map (app w) ys)) = map hir_of zs).
      { transitivity (map h_concat (map hirs zs)); [|rewrite map_map; apply map_ext; intros; apply concat_hirs].
        rewrite <- Ehirs, !map_map. apply map_ext. intros y. now rewrite Hw, skipn_app, app_length, skipn_all2, Nat.add_comm, Nat.add_sub by lia. }
      rewrite Eskip. eapply trans; [apply o_h_concat|]. rewrite map_app. eapply trans; [apply o_mk_cat_app|]. cbn [map mk_cat].
      rewrite map_app. eapply trans; [apply oequiv_cat; [apply o_mk_cat_app|now apply o_calm_hirs]|].
      eapply trans; [apply sym, o_cat_assoc|]. apply oequiv_cat; [apply o_cat_hirs|]. rewrite Ezs.
      eapply trans; [|apply sym, o_lift_text]. apply oequiv_cat; [|apply refl].
      destruct Equ as [[-> ->]| ->]; [apply refl|]. cbn [map mk_cat unhir]. unfold re_pieces. rewrite map_map. apply refl.
  Qed.
End Order.
