(** The translation to [Hir] keeps the order of the matches, unless it lifts an ambiguous prefix. *)
From Coq Require Import PeanoNat.
From Verif Require Export ProofOrder.

(** ** Parts that match in at most one way; alternations whose common prefixes are such *)
Fixpoint rigid (h : hir) : bool :=
  match h with
  | HEmpty | HLit _ | HClass _ | HLook _ => true
  | HCat l => forallb rigid l
  | HRep _ _ _ _ | HCap _ _ _ | HAlt _ => false
  end.
Fixpoint calm_alternation (fuel : nat) (l : list hir) : Prop :=
  match flatten_alt l with
  | [] | [_] => True
  | l' =>
      match all_some as_char l' with
      | Some _ => True
      | None =>
          match all_some as_class l' with
          | Some _ => True
          | None =>
              match all_some as_concat l', fuel with
              | Some (c :: cs), S fuel' =>
                  match fold_left common cs c with
                  | [] => True
                  | p => forallb rigid p = true /\ calm_alternation fuel' (map (fun x => h_concat (skipn (List.length p) x)) (c :: cs))
                  end
              | _, _ => True
              end
          end
      end
  end.
Definition calm_alts (l : list hir) : Prop :=
  match l with [_] => True | _ => calm_alternation (hir_size (HAlt l)) l end.
Section Calm.
  Context (digits spaces words : ranges).
  Notation branches := (branches digits spaces words).
  Fixpoint calm_in (r : re) (i : N) : Prop :=
    match r with
    | REmpty | RLit _ | RDot | RClass _ | RLook _ => True
    | RRep _ _ _ r => calm_in r i /\ calm_alts (fst (branches r i))
    | RCap _ r => calm_in r (i + 1) /\ calm_alts (fst (branches r (i + 1)))
    | RCat a b =>
        let j := snd (branches a i) in
        (calm_in a i /\ calm_alts (fst (branches a i))) /\ calm_in b j /\ calm_alts (fst (branches b j))
    | RAlt a b => (calm_in a i /\ calm_alts (fst (branches a i))) /\ calm_in b (snd (branches a i))
    end.
  Definition calm (r : re) : Prop := calm_in r 1 /\ calm_alts (fst (branches r 1)).
End Calm.

Section Order.
  Context (digits spaces words : ranges).
  Notation rm := (Regex.rm (in_ranges digits) (in_ranges spaces) (in_ranges words)).
  Notation class_has := (Regex.class_has (in_ranges digits) (in_ranges spaces) (in_ranges words)).
  Notation ways := (Match.ways (in_ranges digits) (in_ranges spaces) (in_ranges words)).
  Notation wsound := (ways_sound (in_ranges digits) (in_ranges spaces) (in_ranges words)).
  Notation oequiv := (ProofOrder.oequiv digits spaces words).
  Notation trans := (oequiv_trans digits spaces words _ _ _).
  Notation sym := (oequiv_sym digits spaces words _ _).
  Notation refl := (oequiv_refl digits spaces words _).
  Notation cat_of l := (mk_cat (map unhir l)).
  Notation alt_of l := (ralt (map unhir l)).
  Notation way_caps := (way_caps digits spaces words).

  (** ** Repetitions *)
  Lemma o_rep_one g a : oequiv (RRep 1 (Some 1) g a) a.
  Proof.
    apply oequiv_eq; [reflexivity|]. intros pre s Hs. cbn [Match.ways]. unfold repeated. change (1 <? 1) with false.
    change (N.to_nat 1) with 1%nat. change (N.to_nat (1 - 1)) with 0%nat. cbn [required at_most]. unfold followed, nothing. cbn [map w_mid w_rest w_caps].
    pose proof (way_caps a pre s) as Hc. induction (ways a pre s) as [|w l IH]; [reflexivity|]. cbn [flat_map app]. rewrite IH by (intros v Hv; apply Hc; now right).
    f_equal. rewrite app_nil_r. unfold no_captures. rewrite merge_none by (apply Hc; now left). apply way_eta.
  Qed.
  Lemma o_rep_zero g a : groups a = [] -> oequiv (RRep 0 (Some 0) g a) REmpty.
  Proof.
    intros Ga. apply oequiv_eq; [cbn; now rewrite Ga|]. intros pre s Hs. cbn [Match.ways]. unfold repeated. change (0 <? 0) with false.
    change (N.to_nat 0) with 0%nat. change (N.to_nat (0 - 0)) with 0%nat. cbn [required at_most]. unfold no_captures. now rewrite Ga.
  Qed.
  Lemma empties_choice (g : bool) (l : list way) s : (forall w, In w l -> w = mkway [] s []) ->
    first_same (if g then l ++ [mkway [] s []] else [mkway [] s []] ++ l) [mkway [] s []].
  Proof.
    intros H. apply first_all; [destruct g; [now destruct l|discriminate]|].
    intros w Hw. destruct g; apply in_app_or in Hw as [Hw|Hw]; try (now apply H); now destruct Hw as [<-|[]].
  Qed.
  Lemma empties_at_most (body : str -> str -> list way) pre s g k :
    (forall w, In w (body pre s) -> w = mkway [] s []) -> forall w, In w (at_most body [] g k pre s) -> w = mkway [] s [].
  Proof.
    intros Hb. induction k as [|k IH]; intros w Hw; [now destruct Hw as [<-|[]]|].
    assert (H : In w (followed merge pre (at_most body [] g k) (body pre s)) -> w = mkway [] s []).
    { intros (v & u & Hv & Hu & ->)%in_followed. rewrite (Hb v Hv) in Hu |- *. cbn [w_mid w_rest] in Hu. rewrite app_nil_r in Hu. now rewrite (IH u Hu). }
    cbn [at_most] in Hw. destruct g; apply in_app_or in Hw as [Hw|Hw]; try (now apply H); now destruct Hw as [<-|[]].
  Qed.
  Lemma empties_one (body : str -> str -> list way) pre s g : (forall w, In w (body pre s) -> w = mkway [] s []) -> at_least_one body [] g pre s = body pre s.
  Proof.
    intros Hb. unfold at_least_one. generalize (S (List.length s)). intros fuel. induction (body pre s) as [|w l IH]; [reflexivity|]. cbn [flat_map].
    rewrite IH by (intros v Hv; apply Hb; now right). now rewrite (Hb w) by now left.
  Qed.
  Lemma empties_required (body next : str -> str -> list way) pre s k :
    (forall w, In w (body pre s) -> w = mkway [] s []) -> first_same (next pre s) [mkway [] s []] ->
    first_same (required body next k pre s) match k, body pre s with S _, [] => [] | _, _ => [mkway [] s []] end.
  Proof.
    intros Hb Hn. destruct (body pre s) as [|w l] eqn:E.
    - destruct k as [|k]; [exact Hn|]. cbn [required]. rewrite E. apply first_refl.
    - rewrite <- E in Hb. replace (match k with O => [mkway [] s []] | S _ => [mkway [] s []] end) with [mkway [] s []] by now destruct k.
      induction k as [|k IH]; [exact Hn|]. cbn [required]. unfold followed. eapply first_trans.
      + apply first_flat_map with (g := fun w => [mkway [] s []]); [apply first_refl|]. intros v Hv. rewrite (Hb v Hv). cbn [w_mid w_rest w_caps].
        rewrite app_nil_r. eapply first_trans; [apply first_map, IH|]. apply first_refl.
      + rewrite E. apply first_all; [discriminate|]. intros v (u & _ & Hu)%in_flat_map. destruct Hu as [<-|[]]. reflexivity.
  Qed.
  Lemma empties_rep min max g a pre s : groups a = [] -> match max with Some n => min <= n | None => True end ->
    (forall p m q c, rm a p m q c -> m = []) ->
    first_same (ways (RRep min max g a) pre s) match N.to_nat min, ways a pre s with S _, [] => [] | _, _ => [mkway [] s []] end.
  Proof.
    intros Ga Hmm He. cbn [Match.ways]. unfold repeated.
    assert (Hw : forall w, In w (ways a pre s) -> w = mkway [] s []).
    { intros w Hw. pose proof (way_caps a pre s w Hw) as Hc. apply wsound in Hw as [Hs Hw]. apply He in Hw. rewrite Ga in Hc. destruct w as [m q c]. cbn in *. subst.
      now destruct c. }
    replace (no_captures a) with (@nil (option str)) by (unfold no_captures; now rewrite Ga).
    destruct max as [n|].
    - replace (n <? min) with false by (symmetry; apply N.ltb_ge; lia). apply empties_required; [exact Hw|].
      apply first_all; [|now apply empties_at_most]. destruct (N.to_nat (n - min)); [discriminate|]. cbn [at_most]. destruct g; [now destruct (followed _ _ _ _)|discriminate].
    - destruct (N.to_nat min) as [|k].
      + unfold nothing. apply empties_choice. intros w. rewrite empties_one by exact Hw. apply Hw.
      + destruct (ways a pre s) as [|w l] eqn:E.
        * assert (H : forall k, required (ways a) (at_least_one (ways a) [] g) k pre s = []).
          { intros [|j]; cbn [required]; [unfold at_least_one|]; now rewrite E. }
          rewrite H. apply first_refl.
        * rewrite <- E in Hw. eapply first_trans; [apply empties_required with (1 := Hw)|].
          -- rewrite empties_one by exact Hw. apply first_all; [now rewrite E|exact Hw].
          -- rewrite E. destruct k; apply first_refl.
  Qed.
  Lemma o_rep_empties min max g a : groups a = [] -> match max with Some n => min <= n | None => True end ->
    (forall p m q c, rm a p m q c -> m = []) ->
    oequiv (RRep min max g a) (RRep (N.min min 1) (Some (match max with Some n => N.min n 1 | None => 1 end)) g a).
  Proof.
    intros Ga Hmm He. split; [reflexivity|]. intros pre s Hs. eapply first_trans; [now apply empties_rep|].
    apply first_sym. eapply first_trans; [apply empties_rep; [exact Ga|destruct max; lia|exact He]|].
    replace (match N.to_nat (N.min min 1) with O => _ | S _ => _ end) with (match N.to_nat min, ways a pre s with S _, [] => [] | _, _ => [mkway [] s []] end); [apply first_refl|].
    destruct (N.to_nat min) eqn:E, (N.to_nat (N.min min 1)) eqn:F; try reflexivity; lia.
  Qed.
  Lemma o_h_repetition min max g h : match max with Some n => min <= n | None => True end ->
    groups (unhir h) = [] \/ only_empty h = false /\ max <> Some 0 ->
    oequiv (unhir (h_repetition min max g h)) (RRep min max g (unhir h)).
  Proof.
    intros Hmm Hg. unfold h_repetition.
    assert (Hrest : forall min max, match max with Some n => min <= n | None => True end ->
      groups (unhir h) = [] \/ max <> Some 0 ->
      oequiv (unhir (if (min =? 0) && opt_eqb N.eqb max (Some 0) then HEmpty
                    else if (min =? 1) && opt_eqb N.eqb max (Some 1) then h else HRep min max g h))
        (RRep min max g (unhir h))).
    { clear. intros min max Hmm Hg. destruct (N.eqb_spec min 0) as [->|]; cbn [andb].
      - destruct max as [n|]; cbn [opt_eqb]; [|cbn; apply refl]. destruct (N.eqb_spec n 0) as [->|].
        + apply sym. apply o_rep_zero. destruct Hg as [Hg|Hg]; [exact Hg|easy].
        + cbn. apply refl.
      - destruct (N.eqb_spec min 1) as [->|]; cbn [andb]; [|cbn; apply refl].
        destruct max as [n'|]; cbn [opt_eqb]; [|cbn; apply refl]. destruct (N.eqb_spec n' 1) as [->|]; [|cbn; apply refl].
        apply sym, o_rep_one. }
    destruct (only_empty h) eqn:He.
    - destruct Hg as [Hg|[Hg _]]; [|discriminate Hg].
      eapply trans; [|apply sym, o_rep_empties; [exact Hg|exact Hmm|now apply only_empty_spec]].
      replace (match max with Some n => Some (N.min n 1) | None => Some 1 end)
        with (Some (match max with Some n => N.min n 1 | None => 1 end)) by now destruct max.
      apply Hrest; [destruct max; lia|now left].
    - apply Hrest; [exact Hmm|tauto].
  Qed.

  (** ** Literals and classes *)
  Lemma o_lit_class a : oequiv (RLit a) (RClass (class_of [(a, a)])).
  Proof.
    apply oequiv_eq; [reflexivity|]. intros pre s Hs. cbn [Match.ways]. apply one_char_ext; [|exact Hs]. intros c Hc. rewrite class_of_has.
    cbn. rewrite orb_false_r. destruct (N.eqb_spec a c) as [->|Hn]; [now rewrite !N.leb_refl|].
    destruct (N.leb_spec a c), (N.leb_spec c a); try reflexivity; lia.
  Qed.
  Lemma o_h_class k : oequiv (unhir (h_class k)) (RClass (class_of k)).
  Proof.
    unfold h_class. destruct k as [|[a b] [|y k]]; try apply refl. destruct (N.eqb_spec a b) as [->|]; [|apply refl].
    apply o_lit_class.
  Qed.

  (** ** [Hir::concat] *)
  Lemma o_flatten_cat l : oequiv (cat_of (flatten_cat l)) (cat_of l).
  Proof.
    induction l as [|h l IH]; [apply refl|]. unfold flatten_cat in *. cbn [flat_map]. rewrite map_app.
    eapply trans; [apply o_mk_cat_app|]. cbn [map]. eapply trans; [|apply sym, o_mk_cat_cons].
    apply oequiv_cat; [|exact IH]. destruct h; apply refl.
  Qed.
  Lemma o_flush t : oequiv (cat_of (flush t)) (mk_cat (map RLit t)).
  Proof. destruct t; apply refl. Qed.
  Lemma o_join_literals l : forall t, oequiv (cat_of (join_literals t l)) (RCat (mk_cat (map RLit t)) (cat_of l)).
  Proof.
    induction l as [|h l IH]; intros t; cbn [join_literals].
    - eapply trans; [apply o_flush|]. apply sym, o_cat_nil.
    - assert (Hother : oequiv (cat_of (flush t ++ h :: join_literals [] l)) (RCat (mk_cat (map RLit t)) (cat_of (h :: l)))).
      { rewrite map_app. eapply trans; [apply o_mk_cat_app|]. apply oequiv_cat; [apply o_flush|]. cbn [map].
        eapply trans; [apply o_mk_cat_cons|]. eapply trans; [|apply sym, o_mk_cat_cons].
        apply oequiv_cat; [apply refl|]. eapply trans; [apply IH|].
        apply o_nil_cat. }
      destruct h; try exact Hother. eapply trans; [apply IH|]. cbn [map]. rewrite map_app.
      eapply trans; [|apply oequiv_cat; [apply refl|apply sym, o_mk_cat_cons]].
      eapply trans; [apply oequiv_cat; [apply o_mk_cat_app|apply refl]|]. apply sym, o_cat_assoc.
  Qed.
  Lemma o_h_concat l : oequiv (unhir (h_concat l)) (cat_of l).
  Proof.
    assert (H : oequiv (cat_of (join_literals [] (flatten_cat l))) (cat_of l)).
    { eapply trans; [apply o_join_literals|]. eapply trans; [|apply o_flatten_cat].
      apply o_nil_cat. }
    unfold h_concat. destruct (join_literals [] (flatten_cat l)) as [|h [|h' l']]; exact H.
  Qed.

  (** ** [Hir::alternation] *)
  Lemma o_alt_class k k' : oequiv (RAlt (RClass (class_of k)) (RClass (class_of k'))) (RClass (class_of (k ++ k'))).
  Proof.
    split; [reflexivity|]. intros pre s Hs. cbn [Match.ways]. destruct s as [|c s]; [apply first_refl|]. cbn [one_char]. rewrite !class_of_has, in_app.
    destruct (in_ranges k c), (in_ranges k' c); cbn; try apply first_refl.
    apply (first_all (mkway [c] s [])); [discriminate|]. intros w [<-|[<-|[]]]; reflexivity.
  Qed.
  Lemma o_alt_classes ks : oequiv (ralt (map (fun k => RClass (class_of k)) ks)) (RClass (class_of (List.concat ks))).
  Proof.
    induction ks as [|k ks IH]; cbn [map ralt fold_right List.concat]; [apply refl|].
    eapply trans; [apply oequiv_alt; [apply refl|exact IH]|]. apply o_alt_class.
  Qed.
  Lemma o_canonical_class k : ranges_ok k -> oequiv (unhir (h_class (canonical k))) (RClass (class_of k)).
  Proof.
    intros Hk. eapply trans; [apply o_h_class|]. apply oequiv_class. intros c Hc. rewrite !class_of_has. now apply in_canonical.
  Qed.
  Lemma o_all_char l ks : all_some as_char l = Some ks -> oequiv (alt_of l) (ralt (map (fun k => RClass (class_of k)) ks)).
  Proof.
    revert ks. induction l as [|h l IH]; intros ks; cbn [all_some].
    - intros [= <-]. apply refl.
    - destruct h as [|[|c [|c' t]]| | | | | |]; try discriminate. cbn [as_char]. destruct (all_some as_char l) as [m|]; [|discriminate].
      intros [= <-]. cbn [map ralt fold_right]. apply oequiv_alt; [apply o_lit_class|now apply IH].
  Qed.
  Lemma o_flatten_alt l : oequiv (alt_of (flatten_alt l)) (alt_of l).
  Proof.
    induction l as [|h l IH]; [apply refl|]. unfold flatten_alt in *. cbn [flat_map]. rewrite map_app.
    eapply trans; [apply o_ralt_app|]. cbn [map ralt fold_right]. apply oequiv_alt; [|exact IH].
    destruct h; try apply o_ralt_one. apply refl.
  Qed.
  Lemma rigid_single h : rigid h = true -> single digits spaces words (unhir h).
  Proof.
    induction h as [|t|k|l|a b g h IH|i n h IH|l IH|l IH] using hir_ind'; cbn [rigid unhir]; intros Hr; try discriminate Hr.
    - split; [reflexivity|cbn; lia].
    - apply single_mk_cat. induction t; constructor; [|assumption]. eapply single_char; reflexivity.
    - eapply single_char; reflexivity.
    - apply single_look.
    - apply single_mk_cat. induction IH as [|x l Hx Hl IH]; [constructor|]. cbn in Hr. apply andb_prop in Hr as [H1 H2]. constructor; auto.
  Qed.
  Lemma rigid_cat p : forallb rigid p = true -> single digits spaces words (cat_of p).
  Proof.
    intros H. apply single_mk_cat. induction p as [|x l IH]; [constructor|]. cbn in H. apply andb_prop in H as [H1 H2].
    constructor; [now apply rigid_single|auto].
  Qed.
  Lemma o_h_alternation fuel : forall l, NoDup (map fst (flat_map caps l)) -> Forall hir_ok l -> calm_alternation fuel l ->
    oequiv (unhir (h_alternation_ fuel l)) (alt_of l).
  Proof.
    assert (Hclass : forall l ks, oequiv (alt_of l) (ralt (map (fun k => RClass (class_of k)) ks)) -> Forall ranges_ok ks ->
      oequiv (unhir (h_class (canonical (List.concat ks)))) (alt_of l)).
    { intros l ks H1 H2. apply ok_concat_ranges in H2.
      eapply trans; [now apply o_canonical_class|]. apply sym. eapply trans; [exact H1|]. apply o_alt_classes. }
    induction fuel as [|fuel IH]; intros l Hn Hok Hcalm; (eapply trans; [|apply o_flatten_alt]); rewrite <- caps_flatten_alt in Hn; apply ok_flatten_alt in Hok;
      cbn [h_alternation_ calm_alternation] in *; revert Hn Hok Hcalm; generalize (flatten_alt l); clear l; intros l Hn Hok Hcalm.
    1: assert (Halt : oequiv (unhir match l with [] => HClass [] | [h] => h | _ => HAlt l end) (alt_of l)).
    3: assert (Halt : oequiv (unhir match l with [] => HClass [] | [h] => h | _ => HAlt l end) (alt_of l)).
    1, 3: destruct l as [|h1 [|h2 l]]; [apply refl|apply sym, o_ralt_one|apply refl].
    - destruct l as [|h1 [|h2 l]]; try exact Halt. revert Hn Hok Halt Hcalm. generalize (h1 :: h2 :: l). clear h1 h2 l. intros l Hn Hok Halt Hcalm.
      destruct (all_some as_char l) as [ks|] eqn:E1.
      { apply Hclass; [now apply o_all_char|]. eapply (all_char digits spaces words), E1. }
      destruct (all_some as_class l) as [ks|] eqn:E2;
        [apply all_class in E2 as (H1 & H2 & H3); [|exact Hok]; apply Hclass; [rewrite H1; apply refl|exact H2]|].
      destruct (all_some as_concat l) as [[|c cs]|]; exact Halt.
    - destruct l as [|h1 [|h2 l]]; try exact Halt. assert (Htwo : (2 <= List.length (h1 :: h2 :: l))%nat) by (cbn; lia).
      revert Hn Hok Halt Htwo Hcalm. generalize (h1 :: h2 :: l). clear h1 h2 l. intros l Hn Hok Halt Htwo Hcalm.
      destruct (all_some as_char l) as [ks|] eqn:E1.
      { apply Hclass; [now apply o_all_char|]. eapply (all_char digits spaces words), E1. }
      destruct (all_some as_class l) as [ks|] eqn:E2;
        [apply all_class in E2 as (H1 & H2 & H3); [|exact Hok]; apply Hclass; [rewrite H1; apply refl|exact H2]|].
      destruct (all_some as_concat l) as [cs|] eqn:E3; [|exact Halt]. apply all_some_concat in E3 as ->.
      destruct cs as [|c cs]; [exact Halt|]. pose proof (common_all cs c) as Hp.
      destruct (fold_left common cs c) as [|p1 p']; [exact Halt|]. destruct Hcalm as [Hrigid Hcalm].
      revert Hp Hrigid Hcalm. generalize (p1 :: p'). clear p1 p'. intros p Hp Hrigid Hcalm. clear E1 E2.
      revert Hn Hok Htwo Hp Hrigid Hcalm. clear Halt. generalize (c :: cs). clear c cs. intros cs Hn Hok Htwo Hp Hrigid Hcalm.
      assert (Hr : exists rs, cs = map (fun r => p ++ r) rs).
      { clear - Hp. induction Hp as [|x cs [r ->] Hcs [rs ->]]; [now exists []|]. now exists (r :: rs). }
      destruct Hr as [rs ->]. rewrite !map_map in *. rewrite !map_length in Htwo. clear Hp.
      replace (map (fun x => h_concat (skipn (List.length p) (p ++ x))) rs) with (map h_concat rs) in *
        by (apply map_ext; intros x; f_equal; rewrite skipn_app, skipn_all, Nat.sub_diag; reflexivity).
      assert (Hip : flat_map caps p = []).
      { destruct rs as [|r1 [|r2 rs]]; cbn in Htwo; try lia. cbn [map flat_map caps] in Hn. rewrite !flat_map_app in Hn.
        destruct (flat_map caps p) as [|i l]; [reflexivity|]. exfalso. cbn [app] in Hn. inversion_clear Hn as [|? ? H1 H2]. apply H1.
        apply in_map. rewrite <- !app_assoc. apply in_or_app. right. apply in_or_app. right. now left. }
      assert (Hi : forall rs, flat_map caps (map (fun r => HCat (p ++ r)) rs) = flat_map (fun r => flat_map caps r) rs).
      { clear - Hip. intros rs. induction rs as [|r rs IH]; [reflexivity|]. cbn [map flat_map caps]. rewrite flat_map_app, Hip, IH. reflexivity. }
      assert (Hi' : flat_map caps (map h_concat rs) = flat_map (fun r => flat_map caps r) rs).
      { clear. induction rs as [|r rs IH]; [reflexivity|]. cbn [map flat_map]. now rewrite caps_concat, IH. }
      assert (Hrs : Forall hir_ok (map h_concat rs)).
      { clear - Hok Htwo. assert (H : forall rs, Forall hir_ok (map (fun r => HCat (p ++ r)) rs) -> Forall (fun r => Forall hir_ok p /\ hir_ok (h_concat r)) rs).
        { clear. induction rs as [|r rs IH]; [constructor|]. cbn [map]. inversion_clear 1. rewrite ok_cat, Forall_app in *.
          constructor; [|now apply IH]. split; [tauto|]. apply ok_h_concat. tauto. }
        apply H in Hok. apply Forall_forall. intros x (r & <- & Hr)%in_map_iff. rewrite Forall_forall in Hok. now apply Hok. }
      specialize (IH (map h_concat rs)). rewrite Hi' in IH. rewrite Hi in Hn.
      specialize (IH Hn Hrs Hcalm). set (a := h_alternation_ fuel (map h_concat rs)) in *.
      eapply trans; [apply o_h_concat|]. rewrite map_app. eapply trans; [apply o_mk_cat_app|].
      apply sym. eapply trans; [|apply oequiv_cat; [apply refl|apply sym; exact IH]].
      eapply trans; [|apply o_ralt_lift; now apply rigid_cat].
      rewrite !map_map. apply o_ralt_ext. clear. induction rs as [|r rs IH]; cbn [map]; constructor; [|exact IH].
      cbn [unhir]. rewrite map_app. eapply trans; [apply o_mk_cat_app|]. apply oequiv_cat; [apply refl|]. apply sym, o_h_concat.
  Qed.
  Lemma o_join_alts l : NoDup (map fst (flat_map caps l)) -> Forall hir_ok l -> calm_alts l -> oequiv (unhir (join_alts l)) (alt_of l).
  Proof.
    intros Hn Hok Hc. unfold join_alts. destruct l as [|h1 [|h2 l]]; try now apply o_h_alternation.
    apply sym, o_ralt_one.
  Qed.

  (** ** The translation *)
  Context (Htab : tables_ok digits spaces words).
  Notation branches := (branches digits spaces words).
  Notation tame := (SpecParams.tame digits spaces words).
  Lemma o_dot : oequiv (unhir (h_class [(0, 9); (11, char_max)])) RDot.
  Proof.
    apply oequiv_eq; [reflexivity|]. intros pre s Hs. cbn [h_class unhir Match.ways]. apply one_char_ext; [|exact Hs]. intros c [Hc _].
    rewrite class_of_has. unfold in_ranges. cbn [existsb fst snd]. unfold char_max in *.
    destruct (N.eqb_spec c 10), (N.leb_spec 0 c), (N.leb_spec c 9), (N.leb_spec 11 c), (N.leb_spec c 1114111); cbn; try reflexivity; lia.
  Qed.
  Lemma o_branches_join r i : re_ok r -> tame r -> calm_alts (fst (branches r i)) -> oequiv (alt_of (fst (branches r i))) r ->
    oequiv (unhir (join_alts (fst (branches r i)))) r.
  Proof.
    intros Hok Ht Hc Ho. pose proof (branches_spec _ _ _ Htab r Hok Ht i) as H. destruct (branches r i) as [l j]. cbn [fst] in *.
    destruct H as (H1 & H2 & H3 & H4). eapply trans; [|exact Ho]. apply o_join_alts; [|exact H1|exact Hc].
    rewrite H3, combine_fst; [apply upto_NoDup|]. now rewrite upto_length, marks_length.
  Qed.
  Lemma o_branches r : re_ok r -> tame r -> forall i, calm_in digits spaces words r i -> oequiv (alt_of (fst (branches r i))) r.
  Proof.
    assert (Hone : forall h r, oequiv (unhir h) r -> oequiv (alt_of [h]) r).
    { intros h r' H. eapply trans; [apply o_ralt_one|exact H]. }
    induction r as [|c| |k|l|min max g r IH|n r IH|a IHa b IHb|a IHa b IHb]; intros Hok Ht i Hc; cbn [Hir.branches].
    - apply Hone, refl.
    - apply Hone, refl.
    - apply Hone, o_dot.
    - apply Hone. destruct (class_ranges_spec _ _ _ Htab k Hok) as [H1 H2].
      eapply trans; [apply o_h_class|]. apply oequiv_class. intros c Hs. rewrite class_of_has. now apply H2.
    - apply Hone, refl.
    - destruct Hok as [Hr Hok], Ht as [Ht Hb], Hc as [Hc Hc']. specialize (IH Hok Ht i Hc). apply o_branches_join in IH; [|assumption..].
      pose proof (branches_spec _ _ _ Htab r Hok Ht i) as Hs. destruct (branches r i) as [l j]. cbn [fst] in *.
      apply (branches_join _ _ _) in Hs as (H1 & H2 & H3).
      assert (Hg : caps (join_alts l) = [] \/ only_empty (join_alts l) = false /\ max <> Some 0).
      { destruct Hb as [Hb|[Hb Hb']]; [left|right; split; [eapply tame_not_empty; eassumption|exact Hb]].
        rewrite H3, Hb. reflexivity. }
      apply Hone. rewrite no_caps in Hg. eapply trans; [apply o_h_repetition; [|exact Hg]|].
      + revert Hr. cbv beta iota delta [rep_ok u32_max]. destruct max; [lia|trivial].
      + now apply oequiv_rep.
    - destruct Hok as [Hn Hok], Hc as [Hc Hc']. specialize (IH Hok Ht (i + 1) Hc). apply o_branches_join in IH; [|assumption..].
      destruct (branches r (i + 1)) as [l j]. cbn [fst] in *. apply Hone. now apply oequiv_cap.
    - destruct Hok as [Ha Hb], Ht as [Ta Tb], Hc as [[Ca Ca'] [Cb Cb']]. specialize (IHa Ha Ta i Ca). apply o_branches_join in IHa; [|assumption..].
      destruct (branches a i) as [l j]. cbn [fst snd] in *. specialize (IHb Hb Tb j Cb). apply o_branches_join in IHb; [|assumption..].
      destruct (branches b j) as [m k]. cbn [fst] in *. apply Hone. eapply trans; [apply o_h_concat|]. cbn [map mk_cat]. now apply oequiv_cat.
    - destruct Hok as [Ha Hb], Ht as [Ta Tb], Hc as [[Ca Ca'] Cb]. specialize (IHa Ha Ta i Ca). apply o_branches_join in IHa; [|assumption..].
      destruct (branches a i) as [l j]. cbn [fst snd] in *. specialize (IHb Hb Tb j Cb).
      destruct (branches b j) as [m k]. cbn [fst] in *. cbn [map ralt fold_right]. now apply oequiv_alt.
  Qed.
  Lemma o_translate r : re_ok r -> tame r -> calm digits spaces words r -> oequiv (unhir (translate digits spaces words r)) r.
  Proof. intros Hok Ht [H1 H2]. apply o_branches_join; [assumption..|]. now apply o_branches. Qed.

  (** ** Searches *)
  Lemma search_alike a b : oequiv a b -> forall s, Forall scalar s -> forall pre,
    search (in_ranges digits) (in_ranges spaces) (in_ranges words) a pre s =
    search (in_ranges digits) (in_ranges spaces) (in_ranges words) b pre s.
  Proof.
    intros [_ H]. induction 1 as [|c s Hc Hs IH]; intros pre; cbn [search].
    - pose proof (first_head _ _ (H pre [] (Forall_nil _))) as Hh. destruct (ways a pre []), (ways b pre []); cbn in Hh; congruence.
    - pose proof (first_head _ _ (H pre (c :: s) (Forall_cons _ Hc Hs))) as Hh. rewrite IH.
      destruct (ways a pre (c :: s)), (ways b pre (c :: s)); cbn in Hh; congruence.
  Qed.
  Lemma captures_alike a b s : oequiv a b -> Forall scalar s ->
    captures (in_ranges digits) (in_ranges spaces) (in_ranges words) a s =
    captures (in_ranges digits) (in_ranges spaces) (in_ranges words) b s.
  Proof. intros H Hs. unfold captures. now rewrite (search_alike a b H s Hs []). Qed.
End Order.
