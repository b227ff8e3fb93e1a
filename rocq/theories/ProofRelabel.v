(** Renaming the groups of a normal form changes nothing but the names. *)
From Coq Require Import PeanoNat.
From Verif Require Export ProofReread SpecNormal ProofParams2.

Lemma hir_eqb_refl h : hir_eqb h h = true.
Proof.
  induction h as [|t|k|l|a b g h IH|i n h IH|l IH|l IH] using hir_ind'; cbn [hir_eqb]; try reflexivity.
  - now apply str_eqb_eq.
  - induction k as [|[a b] k IH]; [reflexivity|]. cbn [list_eqb fst snd]. now rewrite !N.eqb_refl, IH.
  - now destruct l.
  - rewrite N.eqb_refl, IH, Bool.eqb_reflx. destruct b; cbn [opt_eqb]; now rewrite ?N.eqb_refl.
  - rewrite N.eqb_refl, IH. destruct n; cbn [opt_eqb]; [|reflexivity]. rewrite andb_true_r. now apply str_eqb_eq.
  - induction IH as [|x l Hx Hl IH]; [reflexivity|]. now rewrite Hx, IH.
  - induction IH as [|x l Hx Hl IH]; [reflexivity|]. now rewrite Hx, IH.
Qed.
Lemma all_some_cats ds : all_some as_concat (map HCat ds) = Some ds.
Proof. induction ds as [|d ds IH]; [reflexivity|]. cbn [map all_some as_concat]. now rewrite IH. Qed.
Lemma NoDup_app_remove_l {A} (l m : list A) : NoDup (l ++ m) -> NoDup m.
Proof. induction l as [|x l IH]; [easy|]. intros H. inversion_clear H as [|? ? _ H']. auto. Qed.
Lemma NoDup_app_remove_r {A} (l m : list A) : NoDup (l ++ m) -> NoDup l.
Proof.
  induction l as [|x l IH]; [constructor|]. intros H. inversion_clear H as [|? ? H1 H2]. constructor; [|auto]. intros Hx. apply H1, in_or_app. now left.
Qed.
Lemma map_same {A B} (f : A -> B) l m : map f l = map f m -> Forall2 (fun x y => f x = f y) l m.
Proof. revert m. induction l as [|x l IH]; intros [|y m]; cbn; try discriminate; [constructor|]. intros [= H1 H2]. constructor; auto. Qed.
Lemma nameless_caps h : map fst (caps (nameless h)) = map fst (caps h).
Proof.
  induction h as [|t|k|l|a b g h IH|i n h IH|l IH|l IH] using hir_ind'; cbn [nameless caps map]; try reflexivity.
  - now rewrite !hide_fst.
  - cbn. now rewrite IH.
  - induction IH as [|x l Hx Hl IH]; [reflexivity|]. cbn [map flat_map]. now rewrite !map_app, Hx, IH.
  - induction IH as [|x l Hx Hl IH]; [reflexivity|]. cbn [map flat_map]. now rewrite !map_app, Hx, IH.
Qed.
Lemma same_caps h h' : nameless h = nameless h' -> map fst (caps h) = map fst (caps h').
Proof. intros H. now rewrite <- (nameless_caps h), H, nameless_caps. Qed.
Lemma nameless_free h : caps h = [] -> nameless h = h.
Proof.
  assert (Hl : forall l, Forall (fun h => caps h = [] -> nameless h = h) l -> flat_map caps l = [] -> map nameless l = l).
  { induction 1 as [|x l Hx Hl IH]; [reflexivity|]. cbn [map flat_map]. intros [H1 H2]%app_eq_nil. now rewrite Hx, IH. }
  induction h as [|t|k|l|a b g h IH|i n h IH|l IH|l IH] using hir_ind'; cbn [nameless caps]; try reflexivity.
  - intros H%map_eq_nil. now rewrite IH.
  - discriminate.
  - intros H. f_equal. now apply Hl.
  - intros H. f_equal. now apply Hl.
Qed.
Lemma same_free h h' : nameless h = nameless h' -> caps h' = [] -> h = h'.
Proof.
  intros H H'. pose proof (same_caps h h' H) as Hc. rewrite H' in Hc. apply map_eq_nil in Hc. now rewrite !nameless_free in H.
Qed.
Lemma nameless_empty h : only_empty (nameless h) = only_empty h.
Proof.
  induction h as [|t|k|l|a b g h IH|i n h IH|l IH|l IH] using hir_ind'; cbn [nameless only_empty]; try reflexivity; try assumption.
  - now destruct b.
  - induction IH as [|x l Hx Hl IH]; [reflexivity|]. cbn [map forallb]. now rewrite Hx, IH.
  - induction IH as [|x l Hx Hl IH]; [reflexivity|]. cbn [map forallb]. now rewrite Hx, IH.
Qed.
Lemma nameless_counted h : counted (nameless h) = counted h.
Proof.
  induction h as [|t|k|l|a b g h IH|i n h IH|l IH|l IH] using hir_ind'; cbn [nameless counted]; try reflexivity; try assumption.
  - now rewrite IH.
  - induction IH as [|x l Hx Hl IH]; [reflexivity|]. cbn [map forallb]. now rewrite Hx, IH.
  - induction IH as [|x l Hx Hl IH]; [reflexivity|]. cbn [map forallb]. now rewrite Hx, IH.
Qed.
Lemma nameless_nested h : no_nested (nameless h) = no_nested h.
Proof.
  induction h as [|t|k|l|a b g h IH|i n h IH|l IH|l IH] using hir_ind'; cbn [nameless no_nested]; try reflexivity; try assumption.
  - destruct h; cbn [nameless] in *; try assumption; reflexivity.
  - induction IH as [|x l Hx Hl IH]; [reflexivity|]. cbn [map forallb]. now rewrite Hx, IH.
  - induction IH as [|x l Hx Hl IH]; [reflexivity|]. cbn [map forallb]. now rewrite Hx, IH.
Qed.
Lemma all_some_map {A B C} (f : B -> option C) (g : A -> B) l : all_some f (map g l) = all_some (fun x => f (g x)) l.
Proof. induction l as [|x l IH]; [reflexivity|]. cbn [map all_some]. now rewrite IH. Qed.
Lemma all_some_ext {A B} (f g : A -> option B) l : (forall x, f x = g x) -> all_some f l = all_some g l.
Proof. intros H. induction l as [|x l IH]; [reflexivity|]. cbn [all_some]. now rewrite H, IH. Qed.
Lemma nameless_some {B} (f : hir -> option B) (Hf : forall h, f (nameless h) = f h) l m : map nameless l = map nameless m -> all_some f l = all_some f m.
Proof.
  intros H. rewrite <- (all_some_ext (fun x => f (nameless x)) f l Hf), <- (all_some_ext (fun x => f (nameless x)) f m Hf).
  rewrite <- (all_some_map f nameless l), <- (all_some_map f nameless m). now rewrite H.
Qed.
Lemma nameless_atom l m : map nameless l = map nameless m -> Forall atom l -> Forall atom m.
Proof.
  intros H%map_same. induction H as [|x y l m H Hl IH]; [easy|]. intros Hx. inversion_clear Hx as [|? ? Hx1 Hx2]. constructor; [|now apply IH].
  destruct x, y; try discriminate H; easy.
Qed.
Lemma nameless_not_alt l m : map nameless l = map nameless m -> Forall not_alt l -> Forall not_alt m.
Proof.
  intros H%map_same. induction H as [|x y l m H Hl IH]; [easy|]. intros Hx. inversion_clear Hx as [|? ? Hx1 Hx2]. constructor; [|now apply IH].
  destruct x, y; try discriminate H; easy.
Qed.
Lemma nameless_spaced l m : map nameless l = map nameless m -> spaced l -> spaced m.
Proof.
  intros H%map_same. induction H as [|x y l m H Hl IH]; [easy|]. intros [H1 H2]. split; [|now apply IH].
  destruct Hl as [|x' y' l m H' Hl]; [now destruct y|]. destruct x, y; try discriminate H; try exact Logic.I. destruct x', y'; try discriminate H'; easy.
Qed.
Lemma common_head a b x p : common a b = x :: p -> exists a' b', a = x :: a' /\ b = x :: b'.
Proof.
  destruct a as [|y a], b as [|z b]; cbn [common]; try discriminate. destruct (hir_eqb y z) eqn:E; [|discriminate].
  apply hir_eqb_eq in E. subst z. intros [= -> _]. eauto.
Qed.
Lemma common_heads cs : forall c x p, fold_left common cs c = x :: p -> Forall (fun y => exists r, y = x :: r) (c :: cs).
Proof.
  intros c x p H. pose proof (common_all cs c) as Ha. rewrite H in Ha. eapply Forall_impl; [|exact Ha]. intros y [r ->]. now exists (p ++ r).
Qed.
Lemma heads_common cs : forall c x, Forall (fun y => exists r, y = x :: r) (c :: cs) -> fold_left common cs c <> [].
Proof.
  induction cs as [|d cs IH]; intros c x H; cbn [fold_left].
  - inversion_clear H as [|? ? [r ->] _]. discriminate.
  - inversion_clear H as [|? ? [r ->] H']. inversion_clear H' as [|? ? [r' ->] H'']. apply (IH _ x). constructor; [|exact H''].
    cbn [common]. rewrite hir_eqb_refl. now eexists.
Qed.
Lemma nameless_alt l m : map nameless l = map nameless m -> NoDup (map fst (flat_map caps m)) -> normal_alt l -> normal_alt m.
Proof.
  intros H Hd (H1 & H2 & H3 & H4 & H5). pose proof (map_same _ _ _ H) as HF. repeat split.
  - rewrite <- (map_length nameless), <- H, map_length. exact H1.
  - eapply nameless_not_alt; eassumption.
  - rewrite <- H3. apply nameless_some; [|now symmetry]. intros h. now destruct h.
  - rewrite <- H4. apply nameless_some; [|now symmetry]. intros h. now destruct h.
  - intros c cs Hc. destruct (fold_left common cs c) as [|x p] eqn:E; [reflexivity|exfalso]. apply common_heads in E. apply all_some_concat in Hc. subst m.
    assert (Hl : exists d ds, l = map HCat (d :: ds) /\ Forall2 (fun a b => map nameless a = map nameless b) (d :: ds) (c :: cs)).
    { assert (Hg : exists ds, l = map HCat ds /\ Forall2 (fun a b => map nameless a = map nameless b) ds (c :: cs)).
      { clear - HF. remember (c :: cs) as ds eqn:E. clear E. revert l HF. induction ds as [|a ds IH]; intros l HF; inversion HF as [|y z l0 m0 Hy HF' E1 E2]; subst; [now exists []|].
        destruct (IH _ HF') as (ds' & -> & Hds). destruct y; try discriminate Hy. cbn [nameless] in Hy. injection Hy as Hy. exists (l :: ds'). split; [reflexivity|]. now constructor. }
      destruct Hg as ([|d ds] & -> & Hg); [inversion Hg|]. eauto. }
    destruct Hl as (d & ds & -> & Hds). specialize (H5 d ds). rewrite all_some_cats in H5. specialize (H5 eq_refl).
    assert (Hx : caps x = []).
    { destruct cs as [|c2 cs]; [inversion Hds as [|? ? ? ? ? Hn]; inversion Hn; subst; cbn in H1; lia|].
      inversion_clear E as [|? ? [r Er] E']. inversion_clear E' as [|? ? [r' Er'] _]. rewrite Er, Er' in Hd. cbn [map flat_map caps] in Hd. rewrite !map_app, <- !app_assoc in Hd.
      destruct (caps x) as [|[j o] k]; [reflexivity|exfalso]. cbn [map app] in Hd. inversion_clear Hd as [|? ? Hd' _]. apply Hd'.
      apply in_or_app. right. apply in_or_app. right. now left. }
    revert H5. apply (heads_common ds d x). clear - Hds E Hx. induction Hds as [|a b l m Hab Hl IH]; inversion_clear E as [|? ? [r Er] E']; constructor; [|now apply IH]. subst b.
    destruct a as [|y a]; [discriminate Hab|]. cbn [map] in Hab. injection Hab as Hy _. exists a. f_equal. now apply same_free.
Qed.
Definition named_ok (h : hir) : Prop := Forall (fun x => name_ok (fst (snd x))) (caps h).
Lemma named_hide l : Forall (fun x : N * (option str * bool) => name_ok (fst (snd x))) (map hide l) <-> Forall (fun x => name_ok (fst (snd x))) l.
Proof. rewrite Forall_map. reflexivity. Qed.
Lemma NoDup_flat {A B} (f : A -> list B) l x : NoDup (flat_map f l) -> In x l -> NoDup (f x).
Proof.
  induction l as [|y l IH]; [easy|]. cbn [flat_map]. intros Hd [->|Hx].
  - now apply NoDup_app_remove_r in Hd.
  - apply NoDup_app_remove_l in Hd. auto.
Qed.
Lemma map_flat {A B C} (f : B -> C) (g : A -> list B) l : map f (flat_map g l) = flat_map (fun x => map f (g x)) l.
Proof. induction l as [|x l IH]; [reflexivity|]. cbn. now rewrite map_app, IH. Qed.
Lemma Forall_flat {A B} (P : B -> Prop) (f : A -> list B) l : Forall P (flat_map f l) <-> Forall (fun x => Forall P (f x)) l.
Proof. induction l as [|x l IH]; [split; constructor|]. cbn [flat_map]. now rewrite Forall_app, Forall_cons_iff, IH. Qed.
Lemma nameless_normal h : forall h', nameless h = nameless h' -> NoDup (map fst (caps h')) -> named_ok h' -> normal h -> normal h'.
Proof.
  assert (Hlist : forall l m, Forall (fun h => forall h', nameless h = nameless h' -> NoDup (map fst (caps h')) -> named_ok h' -> normal h -> normal h') l ->
    map nameless l = map nameless m -> NoDup (map fst (flat_map caps m)) -> Forall (fun x => name_ok (fst (snd x))) (flat_map caps m) -> Forall normal l -> Forall normal m).
  { intros l m IH H%map_same. induction H as [|x y l m H Hl IHl]; intros Hd Hk Hn; [constructor|]. inversion_clear IH as [|? ? I1 I2]. inversion_clear Hn as [|? ? N1 N2].
    cbn [flat_map] in Hd, Hk. rewrite map_app in Hd. apply Forall_app in Hk as [K1 K2]. constructor.
    - apply I1; [exact H|now apply NoDup_app_remove_r in Hd|exact K1|exact N1].
    - apply IHl; [exact I2|now apply NoDup_app_remove_l in Hd|exact K2|exact N2]. }
  induction h as [|t|k|l|a b g h IH|i n h IH|l IH|l IH] using hir_ind'; intros h' E Hd Hk Hn; destruct h' as [|t'|k'|l'|a' b' g' h'|i' n' h'|l'|l']; try discriminate E; cbn [nameless] in E.
  - exact Logic.I.
  - injection E as <-. exact Hn.
  - injection E as <-. exact Hn.
  - exact Logic.I.
  - injection E as <- <- <- E. destruct Hn as [[Hr Hs] Hn]. cbn [caps] in Hd. rewrite hide_fst in Hd. unfold named_ok in Hk. cbn [caps] in Hk. rewrite named_hide in Hk.
    split; [split; [exact Hr|]|now apply IH]. revert Hs. unfold h_repetition. rewrite <- (nameless_empty h), E, nameless_empty.
    assert (Hi : forall a b g h, h <> HRep a b g h). { intros a0 b0 g0 h0 X. assert (S (hir_size h0) = hir_size h0) by now rewrite X at 2. lia. }
    set (q := if only_empty h' then _ else _). destruct q as [q1 q2]. repeat (destruct (_ && _)); [discriminate|now intros ?%Hi|]. now intros [= -> ->].
  - injection E as <- E. inversion_clear Hk as [|? ? K1 K2]. cbn [caps map] in Hd. inversion_clear Hd as [|? ? _ Hd']. split; [exact K1|]. apply IH; [exact E|exact Hd'|exact K2|apply Hn].
  - injection E as E. apply normal_cat in Hn as [(H1 & H2 & H3) Hn]. apply normal_cat. split; [|eapply Hlist; eassumption]. split; [|split].
    + rewrite <- (map_length nameless), <- E, map_length. exact H1.
    + eapply nameless_atom; eassumption.
    + eapply nameless_spaced; eassumption.
  - injection E as E. apply normal_of_alt in Hn as [H1 Hn]. apply normal_of_alt. split; [|eapply Hlist; eassumption]. eapply nameless_alt; eassumption.
Qed.

(** ** Renaming *)
Lemma named_normal h : normal h -> named_ok h.
Proof.
  unfold named_ok. assert (Hl : forall l, Forall (fun h => normal h -> Forall (fun x => name_ok (fst (snd x))) (caps h)) l -> Forall normal l -> Forall (fun x => name_ok (fst (snd x))) (flat_map caps l)).
  { intros l IH Hn. apply Forall_flat. rewrite Forall_forall in *. auto. }
  induction h as [|t|k|l|a b g h IH|i n h IH|l IH|l IH] using hir_ind'; intros Hn; cbn [caps]; try constructor.
  - apply named_hide, IH, Hn.
  - apply Hn.
  - apply IH, Hn.
  - apply normal_cat in Hn as [_ Hn]. auto.
  - apply normal_of_alt in Hn as [_ Hn]. auto.
Qed.
Lemma renamed_normal id h : normal h -> NoDup (map fst (caps h)) -> forall k,
  nameless (fst (rename_groups_inner id h k)) = nameless h /\ named_ok (fst (rename_groups_inner id h k)).
Proof.
  set (rename_all := fix rename_all (l : list hir) (indexer : N) : list hir * N :=
      match l with
      | [] => ([], indexer)
      | x :: l' =>
          let '(y, i) := rename_groups_inner id x indexer in
          let '(m, j) := rename_all l' i in
          (y :: m, j)
      end).
  assert (Hl : forall l, Forall (fun h => normal h -> NoDup (map fst (caps h)) -> forall k, nameless (fst (rename_groups_inner id h k)) = nameless h /\ named_ok (fst (rename_groups_inner id h k))) l ->
    Forall normal l -> NoDup (map fst (flat_map caps l)) -> forall k, map nameless (fst (rename_all l k)) = map nameless l /\ Forall named_ok (fst (rename_all l k))).
  { induction 1 as [|x l Hx Hl IH]; intros Hn Hd k; [split; [reflexivity|constructor]|]. inversion_clear Hn as [|? ? N1 N2]. cbn [flat_map] in Hd. rewrite map_app in Hd.
    cbn [rename_all]. fold rename_all. destruct (Hx N1 ltac:(now apply NoDup_app_remove_r in Hd) k) as [X1 X2]. destruct (rename_groups_inner id x k) as [y i].
    destruct (IH N2 ltac:(now apply NoDup_app_remove_l in Hd) i) as [I1 I2]. destruct (rename_all l i) as [m j]. cbn [fst map] in *. split; [congruence|now constructor]. }
  assert (Hsame : forall l m, map nameless m = map nameless l -> map fst (flat_map caps m) = map fst (flat_map caps l)).
  { intros l m H%map_same. rewrite !map_flat. induction H as [|x y l' m' H _ IH]; [reflexivity|]. cbn [flat_map]. rewrite IH. f_equal. now apply same_caps. }
  induction h as [|t|k|l|a b g h IH|i n h IH|l IH|l IH] using hir_ind'; intros Hn Hd k0; cbn [rename_groups_inner fst].
  - split; [reflexivity|constructor].
  - destruct t; [easy|]. split; [reflexivity|constructor].
  - destruct Hn as [_ ->]. split; [reflexivity|constructor].
  - split; [reflexivity|constructor].
  - assert (E : h_repetition a b g h = HRep a b g h) by apply Hn. rewrite E. split; [reflexivity|]. now apply named_normal.
  - cbn [caps map] in Hd. inversion_clear Hd as [|? ? _ Hd']. destruct (IH ltac:(apply Hn) Hd' (k0 + 1)) as [I1 I2]. destruct (rename_groups_inner id h (k0 + 1)) as [h' j].
    cbn [fst nameless] in *. split; [congruence|]. constructor; [apply name_ok_group|exact I2].
  - fold rename_all. pose proof Hn as Hn'. apply normal_cat in Hn as [_ Hn]. destruct (Hl l IH Hn Hd k0) as [I1 I2]. destruct (rename_all l k0) as [m j]. cbn [fst] in *.
    assert (Hm : normal (HCat m)).
    { apply (nameless_normal (HCat l)); [cbn [nameless]; congruence|cbn [caps]; rewrite (Hsame l m I1); exact Hd| |exact Hn']. apply Forall_flat. exact I2. }
    apply normal_cat in Hm as [(M1 & M2 & M3) M4]. rewrite concat_normal by assumption. cbn [nameless]. split; [congruence|]. apply Forall_flat. exact I2.
  - fold rename_all. pose proof Hn as Hn'. apply normal_of_alt in Hn as [_ Hn]. destruct (Hl l IH Hn Hd k0) as [I1 I2]. destruct (rename_all l k0) as [m j]. cbn [fst] in *.
    assert (Hm : normal (HAlt m)).
    { apply (nameless_normal (HAlt l)); [cbn [nameless]; congruence|cbn [caps]; rewrite (Hsame l m I1); exact Hd| |exact Hn']. apply Forall_flat. exact I2. }
    apply normal_of_alt in Hm as [M1 _]. unfold h_alternation. rewrite alternation_normal by exact M1. cbn [nameless]. split; [congruence|]. apply Forall_flat. exact I2.
Qed.

(** ** Translated regexes *)
Lemma normal_ok h : normal h -> hir_ok h.
Proof.
  assert (Hl : forall l, Forall (fun h => normal h -> hir_ok h) l -> Forall normal l -> Forall hir_ok l).
  { intros l IH Hn. rewrite Forall_forall in *. auto. }
  induction h as [|t|k|l|a b g h IH|i n h IH|l IH|l IH] using hir_ind'; intros Hn; try exact Logic.I.
  - eapply parted_ok, Hn.
  - split; [apply Hn|apply IH, Hn].
  - split; [apply Hn|apply IH, Hn].
  - apply normal_cat in Hn as [_ Hn]. apply ok_cat. auto.
  - apply normal_of_alt in Hn as [(H1 & _) Hn]. apply ok_alt. split; [|auto]. intros ->. cbn in H1. lia.
Qed.
Definition indexed (i j : N) (l : list (N * (option str * bool))) : Prop :=
  NoDup (map fst l) /\ Forall (fun x => i <= x < j) (map fst l) /\ i <= j.
Lemma indexed_app i j k l m : indexed i j l -> indexed j k m -> indexed i k (l ++ m).
Proof.
  intros (H1 & H2 & H3) (H4 & H5 & H6). unfold indexed. rewrite map_app, Forall_app. repeat split.
  - apply NoDup_app; [exact H1|exact H4|]. intros x X1 X2. rewrite Forall_forall in H2, H5. specialize (H2 x X1). specialize (H5 x X2). lia.
  - eapply Forall_impl; [|exact H2]. cbn. lia.
  - eapply Forall_impl; [|exact H5]. cbn. lia.
  - lia.
Qed.
Lemma indexed_none i : indexed i i [].
Proof. repeat split; [constructor|constructor|lia]. Qed.

Section Translate.
  Context (digits spaces words : ranges) (Htab : tables_ok digits spaces words).
  Notation branches := (branches digits spaces words).
  Notation translate := (translate digits spaces words).
  Lemma join_caps l : NoDup (map fst (flat_map caps l)) -> Forall normal l -> caps (join_alts l) = flat_map caps l.
  Proof.
    intros H1 H2. apply (join_alts_spec digits spaces words); [exact H1|]. eapply Forall_impl; [|exact H2]. apply normal_ok.
  Qed.
  Lemma branches_indexed r : re_ok r -> forall i, indexed i (snd (branches r i)) (flat_map caps (fst (branches r i))).
  Proof.
    induction r as [|c| |k|l|min max g r IH|n r IH|a IHa b IHb|a IHa b IHb]; intros Hok i; cbn [Hir.branches]; try apply indexed_none.
    - cbn. rewrite caps_class. apply indexed_none.
    - destruct Hok as [Hr Hok]. specialize (IH Hok i). pose proof (normal_branches digits spaces words Htab r Hok i) as Hn. destruct (branches r i) as [l j].
      cbn [fst snd] in *. cbn [flat_map]. rewrite app_nil_r. rewrite <- (join_caps l) in IH by (try exact Hn; apply IH).
      destruct (repetition_cases min max g (join_alts l) Hr) as [-> |[-> |(a & b & _ & -> & _)]]; cbn [caps]; [|exact IH|].
      + destruct IH as (_ & _ & IH). repeat split; [constructor|constructor|exact IH].
      + unfold indexed. now rewrite hide_fst.
    - destruct Hok as [Hr Hok]. specialize (IH Hok (i + 1)). pose proof (normal_branches digits spaces words Htab r Hok (i + 1)) as Hn. destruct (branches r (i + 1)) as [l j].
      cbn [fst snd] in *. cbn [flat_map caps]. rewrite app_nil_r. rewrite <- (join_caps l) in IH by (try exact Hn; apply IH).
      change ((i, (n, true)) :: caps (join_alts l)) with ([(i, (n, true))] ++ caps (join_alts l)). eapply indexed_app; [|exact IH].
      repeat split; [repeat constructor; easy|repeat constructor; cbn; lia|lia].
    - destruct Hok as [Ha Hb]. specialize (IHa Ha i). pose proof (normal_branches digits spaces words Htab a Ha i) as Na. destruct (branches a i) as [l j]. cbn [fst snd] in *.
      specialize (IHb Hb j). pose proof (normal_branches digits spaces words Htab b Hb j) as Nb. destruct (branches b j) as [m k]. cbn [fst snd] in *.
      cbn [flat_map]. rewrite app_nil_r, caps_concat. cbn [flat_map]. rewrite app_nil_r.
      rewrite <- (join_caps l) in IHa by (try exact Na; apply IHa). rewrite <- (join_caps m) in IHb by (try exact Nb; apply IHb). eapply indexed_app; eassumption.
    - destruct Hok as [Ha Hb]. specialize (IHa Ha i). pose proof (normal_branches digits spaces words Htab a Ha i) as Na. destruct (branches a i) as [l j]. cbn [fst snd] in *.
      specialize (IHb Hb j). destruct (branches b j) as [m k]. cbn [fst snd] in *. cbn [flat_map].
      rewrite <- (join_caps l) in IHa by (try exact Na; apply IHa). eapply indexed_app; eassumption.
  Qed.
  Lemma translate_distinct r : re_ok r -> NoDup (map fst (caps (translate r))).
  Proof.
    intros H. pose proof (branches_indexed r H 1) as (H1 & _). unfold Hir.translate. rewrite join_caps; [exact H1|exact H1|now apply normal_branches].
  Qed.
  Lemma translate_numbered r : re_ok r -> tame digits spaces words r -> numbered 1 (caps (translate r)).
  Proof.
    intros H Ht. pose proof (branches_spec digits spaces words Htab r H Ht 1) as Hb. unfold Hir.translate.
    destruct (branches r 1) as [l j]. apply branches_join in Hb as (_ & _ & Hb). cbn [fst]. unfold numbered. rewrite Hb.
    rewrite combine_fst by now rewrite upto_length, marks_length. f_equal. rewrite combine_length, upto_length, marks_length. lia.
  Qed.
  Lemma regex_new_ok t r : regex_new t = Done r -> re_ok r.
  Proof.
    unfold regex_new. destruct (parse_syntax t) as [r0| |] eqn:E; cbn [obind]; try discriminate. destruct (distinct _); [|discriminate].
    intros [= <-]. eapply parsed_ok, E.
  Qed.
  Lemma rename_nameless t r id : regex_new t = Done r -> nameless (rename_capture_groups (translate r) id) = nameless (translate r).
  Proof.
    intros Hr. assert (Hok : re_ok r) by (eapply regex_new_ok; exact Hr). apply renamed_normal; [now apply normal_translate|now apply translate_distinct].
  Qed.
  Lemma reread_translated t r : regex_new t = Done r -> tame digits spaces words r -> counted (translate r) = true ->
    exists r', parse_syntax (show true (translate r)) = Done r' /\ translate r' = translate r.
  Proof.
    intros Hr Ht Hc. assert (Hok : re_ok r) by (eapply regex_new_ok; exact Hr). apply read_again; [now apply normal_translate|exact Hc|now apply translate_numbered].
  Qed.
  Lemma reread_renamed t r id : regex_new t = Done r -> tame digits spaces words r -> counted (translate r) = true ->
    exists r', parse_syntax (show true (rename_capture_groups (translate r) id)) = Done r' /\ translate r' = rename_capture_groups (translate r) id.
  Proof.
    intros Hr Ht Hc. assert (Hok : re_ok r) by (eapply regex_new_ok; exact Hr).
    pose proof (normal_translate digits spaces words Htab r Hok) as Hn. pose proof (translate_distinct r Hok) as Hd.
    destruct (renamed_normal id _ Hn Hd 0) as [H1 H2]. unfold rename_capture_groups. set (h' := fst _) in *.
    pose proof (same_caps _ _ H1) as H3. apply read_again.
    - apply (nameless_normal (translate r)); [now symmetry|now rewrite H3|exact H2|exact Hn].
    - now rewrite <- nameless_counted, H1, nameless_counted.
    - pose proof (translate_numbered r Hok Ht) as Hi. unfold numbered in *. rewrite H3, Hi. f_equal. rewrite <- (map_length fst (caps h')), H3. symmetry. apply map_length.
  Qed.
  (** Which of the two printers: see C35. *)
  Lemma reread_display wrap t r : regex_new t = Done r -> tame digits spaces words r -> counted (translate r) = true ->
    wrap = true \/ no_nested (translate r) = true ->
    (exists r', parse_syntax (show wrap (translate r)) = Done r' /\ translate r' = translate r) /\
    forall id, exists r', parse_syntax (show wrap (rename_capture_groups (translate r) id)) = Done r' /\
      translate r' = rename_capture_groups (translate r) id.
  Proof.
    intros Hr Ht Hc Hw. assert (E : forall h, nameless h = nameless (translate r) -> show wrap h = show true h).
    { intros h Hh. destruct wrap; [reflexivity|]. destruct Hw as [Hw|Hw]; [discriminate|]. apply show_no_nested. now rewrite <- nameless_nested, Hh, nameless_nested. }
    split; [rewrite E by reflexivity; eapply reread_translated; eassumption|].
    intros id. rewrite E by (eapply rename_nameless; eassumption). eapply reread_renamed; eassumption.
  Qed.
End Translate.
