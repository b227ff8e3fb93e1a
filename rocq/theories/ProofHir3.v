(** Alternations and the translation to [Hir]. *)
From Coq Require Import PeanoNat.
From Verif Require Export ProofHir2.

Section Meaning.
  Context (digits spaces words : ranges).
  Notation rm := (Regex.rm (in_ranges digits) (in_ranges spaces) (in_ranges words)).
  Notation class_has := (Regex.class_has (in_ranges digits) (in_ranges spaces) (in_ranges words)).
  Notation equiv := (ProofHir.equiv digits spaces words).
  Notation cat_of l := (mk_cat (map unhir l)).
  Notation alt_of l := (ralt (map unhir l)).
  Notation trans := (equiv_trans digits spaces words _ _ _).
  Notation sym := (equiv_sym digits spaces words _ _).
  Notation refl := (equiv_refl digits spaces words _).

  Lemma alt_class k k' : equiv (RAlt (RClass (class_of k)) (RClass (class_of k'))) (RClass (class_of (k ++ k'))).
  Proof.
    apply equiv_free; [reflexivity|reflexivity|]. intros p m q Hm. split.
    - intros [(d & Hd & H)|(d & Hd & H)]%rm_alt_inv; inversion H; subst; constructor; rewrite class_of_has in *; rewrite in_app.
      + match goal with H : in_ranges _ _ = _ |- _ => rewrite H end. reflexivity.
      + match goal with H : in_ranges _ _ = _ |- _ => rewrite H end. apply orb_true_r.
    - inversion 1; subst. match goal with H : Regex.class_has _ _ _ _ _ = _ |- _ => rewrite class_of_has, in_app in H; apply orb_prop in H as [H|H] end.
      + apply (rm_left _ _ _ (RClass (class_of k)) (RClass (class_of k')) p [c] q []). constructor. now rewrite class_of_has.
      + apply (rm_right _ _ _ (RClass (class_of k)) (RClass (class_of k')) p [c] q []). constructor. now rewrite class_of_has.
  Qed.
  Lemma alt_classes ks : equiv (ralt (map (fun k => RClass (class_of k)) ks)) (RClass (class_of (List.concat ks))).
  Proof.
    induction ks as [|k ks IH]; cbn [map ralt fold_right List.concat]; [apply refl|].
    eapply trans; [apply equiv_alt; [apply refl|exact IH]|]. apply alt_class.
  Qed.
  Lemma canonical_class k : ranges_ok k -> equiv (unhir (h_class (canonical k))) (RClass (class_of k)).
  Proof.
    intros Hk. eapply trans; [apply h_class_equiv|]. apply equiv_class. intros c Hc. rewrite !class_of_has. now apply in_canonical.
  Qed.
  Lemma all_char l ks : all_some as_char l = Some ks ->
    equiv (alt_of l) (ralt (map (fun k => RClass (class_of k)) ks)) /\ Forall ranges_ok ks /\ flat_map caps l = [].
  Proof.
    revert ks. induction l as [|h l IH]; intros ks; cbn [all_some].
    - intros [= <-]. split; [apply refl|split; [constructor|reflexivity]].
    - destruct h as [|[|c [|c' t]]| | | | | |]; try discriminate. cbn [as_char]. destruct (all_some as_char l) as [m|]; [|discriminate].
      intros [= <-]. destruct (IH m eq_refl) as (H1 & H2 & H3). split; [|split].
      + cbn [map ralt fold_right]. apply equiv_alt; [apply lit_class|exact H1].
      + constructor; [|exact H2]. repeat constructor. cbn. lia.
      + exact H3.
  Qed.
  Lemma all_class l ks : Forall hir_ok l -> all_some as_class l = Some ks ->
    alt_of l = ralt (map (fun k => RClass (class_of k)) ks) /\ Forall ranges_ok ks /\ flat_map caps l = [].
  Proof.
    intros Hl. revert ks. induction Hl as [|h l Hh Hl IH]; intros ks; cbn [all_some].
    - intros [= <-]. split; [reflexivity|split; [constructor|reflexivity]].
    - destruct h as [|t|k| | | | |]; try discriminate. cbn [as_class]. destruct (all_some as_class l) as [m|]; [|discriminate].
      intros [= <-]. destruct (IH m eq_refl) as (H1 & H2 & H3). split; [|split].
      + cbn [map ralt fold_right]. f_equal. exact H1.
      + now constructor.
      + exact H3.
  Qed.
  Lemma ok_concat_ranges ks : Forall ranges_ok ks -> ranges_ok (List.concat ks).
  Proof. induction 1; [constructor|]. cbn. apply Forall_app. now split. Qed.
  Lemma flatten_alt_equiv l : equiv (alt_of (flatten_alt l)) (alt_of l).
  Proof.
    induction l as [|h l IH]; [apply refl|]. unfold flatten_alt in *. cbn [flat_map]. rewrite map_app.
    eapply trans; [apply ralt_app|]. cbn [map ralt fold_right]. apply equiv_alt; [|exact IH].
    destruct h; try apply ralt_one. apply refl.
  Qed.

  Definition alternation_ok (l : list hir) (h : hir) : Prop :=
    equiv (unhir h) (alt_of l) /\ hir_ok h /\ caps h = flat_map caps l.
  Lemma h_alternation_spec fuel : forall l, NoDup (map fst (flat_map caps l)) -> Forall hir_ok l ->
    alternation_ok l (h_alternation_ fuel l).
  Proof.
    assert (Hflat : forall l h, alternation_ok (flatten_alt l) h -> alternation_ok l h).
    { intros l h (H1 & H2 & H3). split; [|split]; [|exact H2|now rewrite H3, caps_flatten_alt].
      eapply trans; [exact H1|]. apply flatten_alt_equiv. }
    assert (Hclass : forall l ks, equiv (alt_of l) (ralt (map (fun k => RClass (class_of k)) ks)) -> Forall ranges_ok ks -> flat_map caps l = [] ->
      alternation_ok l (h_class (canonical (List.concat ks)))).
    { intros l ks H1 H2 H3. apply ok_concat_ranges in H2. split; [|split].
      - eapply trans; [now apply canonical_class|]. apply sym. eapply trans; [exact H1|]. apply alt_classes.
      - now apply ok_h_class, ok_canonical.
      - now rewrite caps_class, H3. }
    induction fuel as [|fuel IH]; intros l Hn Hok; apply Hflat; rewrite <- caps_flatten_alt in Hn; apply ok_flatten_alt in Hok;
      cbn [h_alternation_]; revert Hn Hok; generalize (flatten_alt l); clear l; intros l Hn Hok.
    1: assert (Halt : alternation_ok l match l with [] => HClass [] | [h] => h | _ => HAlt l end).
    3: assert (Halt : alternation_ok l match l with [] => HClass [] | [h] => h | _ => HAlt l end).
    1, 3: destruct l as [|h1 [|h2 l]];
        [ split; [apply refl|split; [constructor|reflexivity]]
        | split; [apply sym, ralt_one|split; [now inversion_clear Hok|cbn; now rewrite app_nil_r]]
        | split; [apply refl|split; [now apply ok_alt|reflexivity]] ].
    - destruct l as [|h1 [|h2 l]]; try exact Halt. revert Hn Hok Halt. generalize (h1 :: h2 :: l). clear h1 h2 l. intros l Hn Hok Halt.
      destruct (all_some as_char l) as [ks|] eqn:E1; [apply all_char in E1 as (H1 & H2 & H3); now apply Hclass|].
      destruct (all_some as_class l) as [ks|] eqn:E2;
        [apply all_class in E2 as (H1 & H2 & H3); [|exact Hok]; apply Hclass; [rewrite H1; apply refl|exact H2|exact H3]|].
      destruct (all_some as_concat l) as [[|c cs]|]; exact Halt.
    - destruct l as [|h1 [|h2 l]]; try exact Halt. assert (Htwo : (2 <= List.length (h1 :: h2 :: l))%nat) by (cbn; lia).
      revert Hn Hok Halt Htwo. generalize (h1 :: h2 :: l). clear h1 h2 l. intros l Hn Hok Halt Htwo.
      destruct (all_some as_char l) as [ks|] eqn:E1; [apply all_char in E1 as (H1 & H2 & H3); now apply Hclass|].
      destruct (all_some as_class l) as [ks|] eqn:E2;
        [apply all_class in E2 as (H1 & H2 & H3); [|exact Hok]; apply Hclass; [rewrite H1; apply refl|exact H2|exact H3]|].
      destruct (all_some as_concat l) as [cs|] eqn:E3; [|exact Halt]. apply all_some_concat in E3 as ->.
      destruct cs as [|c cs]; [exact Halt|]. pose proof (common_all cs c) as Hp.
      destruct (fold_left common cs c) as [|p1 p']; [exact Halt|]. revert Hp. generalize (p1 :: p'). clear p1 p'. intros p Hp. clear E1 E2.
      revert Hn Hok Htwo Hp. clear Halt. generalize (c :: cs). clear c cs. intros cs Hn Hok Htwo Hp.
      assert (Hr : exists rs, cs = map (fun r => p ++ r) rs).
      { clear - Hp. induction Hp as [|x cs [r ->] Hcs [rs ->]]; [now exists []|]. now exists (r :: rs). }
      destruct Hr as [rs ->]. rewrite !map_map. rewrite map_map in Hn, Hok. rewrite !map_length in Htwo. clear Hp.
      replace (map (fun x => h_concat (skipn (List.length p) (p ++ x))) rs) with (map h_concat rs)
        by (apply map_ext; intros x; f_equal; rewrite skipn_app, skipn_all, Nat.sub_diag; reflexivity).
      assert (Hip : flat_map caps p = []).
      { destruct rs as [|r1 [|r2 rs]]; cbn in Htwo; try lia. cbn [map flat_map caps] in Hn. rewrite !flat_map_app in Hn.
        destruct (flat_map caps p) as [|i l]; [reflexivity|]. exfalso. cbn [app] in Hn. inversion_clear Hn as [|? ? H1 H2]. apply H1.
        apply in_map. rewrite <- !app_assoc. apply in_or_app. right. apply in_or_app. right. now left. }
      assert (Hi : forall rs, flat_map caps (map (fun r => HCat (p ++ r)) rs) = flat_map (fun r => flat_map caps r) rs).
      { clear - Hip. intros rs. induction rs as [|r rs IH]; [reflexivity|]. cbn [map flat_map caps]. rewrite flat_map_app, Hip, IH. reflexivity. }
      assert (Hi' : flat_map caps (map h_concat rs) = flat_map (fun r => flat_map caps r) rs).
      { clear. induction rs as [|r rs IH]; [reflexivity|]. cbn [map flat_map]. now rewrite caps_concat, IH. }
      assert (Hp : Forall hir_ok p /\ Forall hir_ok (map h_concat rs)).
      { clear - Hok Htwo. assert (H : forall rs, Forall hir_ok (map (fun r => HCat (p ++ r)) rs) -> Forall (fun r => Forall hir_ok p /\ hir_ok (h_concat r)) rs).
        { clear. induction rs as [|r rs IH]; [constructor|]. cbn [map]. inversion_clear 1. rewrite ok_cat, Forall_app in *.
          constructor; [|now apply IH]. split; [tauto|]. apply ok_h_concat. tauto. }
        apply H in Hok. split.
        - destruct rs; [cbn in Htwo; lia|]. now inversion_clear Hok.
        - apply Forall_forall. intros x (r & <- & Hr)%in_map_iff. rewrite Forall_forall in Hok. now apply Hok. }
      destruct Hp as [Hp Hrs]. specialize (IH (map h_concat rs)). rewrite Hi' in IH. rewrite Hi in Hn.
      destruct (IH Hn Hrs) as (I1 & I2 & I3). set (a := h_alternation_ fuel (map h_concat rs)) in *. split; [|split].
      + eapply trans; [apply h_concat_equiv|]. rewrite map_app. eapply trans; [apply mk_cat_app|].
        apply sym. eapply trans; [|apply equiv_cat; [apply refl|apply sym; exact I1]].
        eapply trans; [|apply ralt_lift; rewrite groups_mk_cat].
        * rewrite !map_map. apply ralt_ext. clear. induction rs as [|r rs IH]; cbn [map]; constructor; [|exact IH].
          cbn [unhir]. rewrite map_app. eapply trans; [apply mk_cat_app|]. apply equiv_cat; [apply refl|]. apply sym, h_concat_equiv.
        * clear - Hip. induction p as [|h p IH]; [reflexivity|]. cbn [map flat_map] in *. apply app_eq_nil in Hip as [H1 H2].
          apply no_caps in H1. rewrite H1. now apply IH.
      + apply ok_h_concat. apply Forall_app. split; [exact Hp|]. constructor; [exact I2|constructor].
      + rewrite caps_concat, flat_map_app, Hip. cbn [flat_map app]. now rewrite app_nil_r, I3, Hi.
  Qed.
  Lemma join_alts_spec l : NoDup (map fst (flat_map caps l)) -> Forall hir_ok l -> alternation_ok l (join_alts l).
  Proof.
    intros Hn Hok. unfold join_alts. destruct l as [|h1 [|h2 l]]; try now apply h_alternation_spec.
    split; [apply sym, ralt_one|split; [now inversion_clear Hok|cbn; now rewrite app_nil_r]].
  Qed.
End Meaning.
