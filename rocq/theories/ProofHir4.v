(** The translation to [Hir] keeps the meaning. *)
From Coq Require Import PeanoNat.
From Verif Require Export ProofHir3.

Fixpoint upto (i : N) (n : nat) : list N :=
  match n with O => [] | S n => i :: upto (i + 1) n end.
Lemma upto_app i n m : upto i (n + m) = upto i n ++ upto (i + N.of_nat n) m.
Proof.
  revert i. induction n as [|n IH]; intros i; cbn [upto Nat.add app]; [now rewrite N.add_0_r|].
  rewrite IH. do 3 f_equal. lia.
Qed.
Lemma upto_from i n j : In j (upto i n) -> i <= j < i + N.of_nat n.
Proof. revert i. induction n as [|n IH]; intros i; cbn [upto]; [easy|]. intros [<-|H%IH]; lia. Qed.
Lemma upto_NoDup i n : NoDup (upto i n).
Proof. revert i. induction n as [|n IH]; intros i; cbn; constructor; [|apply IH]. intros H%upto_from. lia. Qed.
Lemma upto_length i n : List.length (upto i n) = n.
Proof. revert i. induction n as [|n IH]; intros i; cbn; [reflexivity|]. now rewrite IH. Qed.

Lemma marks_groups r : map fst (marks r) = groups r.
Proof.
  induction r as [|c| |k|l|min max g r IH|n r IH|a IHa b IHb|a IHa b IHb]; cbn [marks groups]; try reflexivity.
  - destruct (_ && _); [exact IH|]. rewrite map_map. exact IH.
  - cbn. now rewrite IH.
  - now rewrite map_app, IHa, IHb.
  - now rewrite map_app, IHa, IHb.
Qed.
Lemma marks_length r : List.length (marks r) = List.length (groups r).
Proof. rewrite <- marks_groups. symmetry. apply map_length. Qed.
Lemma repetition_caps min max g h : caps h = [] \/ only_empty h = false /\ max <> Some 0 ->
  caps (h_repetition min max g h) = if (min =? 1) && opt_eqb N.eqb max (Some 1) then caps h else map hide (caps h).
Proof.
  unfold h_repetition. intros [H|[He Hm]].
  - rewrite H. assert (Hif : forall (b : bool) (l : list (N * (option str * bool))), (if b then l else l) = l) by now intros [].
    cbn [map]. rewrite Hif. destruct (only_empty h); repeat (destruct (_ && _)); cbn [caps]; rewrite ?H; reflexivity.
  - rewrite He. destruct max as [n|].
    + cbn [opt_eqb]. destruct (N.eqb_spec n 0) as [->|]; [easy|]. rewrite andb_false_r. destruct (_ && _); reflexivity.
    + cbn [opt_eqb]. rewrite !andb_false_r. reflexivity.
Qed.
Lemma in_negate k c : scalar c -> ranges_ok k -> in_ranges (negate (canonical k)) c = negb (in_ranges k c).
Proof.
  intros Hc Hk. unfold negate. rewrite in_gaps; [|exact Hc|apply sorted_canonical]. rewrite in_canonical by exact Hk.
  destruct (N.leb_spec 0 c); [reflexivity|lia].
Qed.

Section Meaning.
  Context (digits spaces words : ranges).
  Notation rm := (Regex.rm (in_ranges digits) (in_ranges spaces) (in_ranges words)).
  Notation class_has := (Regex.class_has (in_ranges digits) (in_ranges spaces) (in_ranges words)).
  Notation item_has := (Regex.item_has (in_ranges digits) (in_ranges spaces) (in_ranges words)).
  Notation equiv := (ProofHir.equiv digits spaces words).
  Notation cat_of l := (mk_cat (map unhir l)).
  Notation alt_of l := (ralt (map unhir l)).
  Notation trans := (equiv_trans digits spaces words _ _ _).
  Notation sym := (equiv_sym digits spaces words _ _).
  Notation refl := (equiv_refl digits spaces words _).
  Notation tame := (SpecParams.tame digits spaces words).
  Context (Htab : tables_ok digits spaces words).
  Lemma item_ranges_spec i : range_ok i -> ranges_ok (item_ranges digits spaces words i) /\
    forall c, scalar c -> in_ranges (item_ranges digits spaces words i) c = item_has i c.
  Proof.
    assert (T : ranges_ok digits /\ ranges_ok spaces /\ ranges_ok words)
      by (unfold tables_ok in Htab; rewrite !Forall_cons_iff in Htab; tauto).
    destruct T as (T1 & T2 & T3). destruct i as [a b|n p]; cbn [range_ok item_ranges]; intros Hi.
    - split; [repeat constructor; exact Hi|]. intros c Hc. cbn. apply orb_false_r.
    - assert (Hp : ranges_ok (perl_table digits spaces words p)) by (destruct p; assumption).
      assert (Hh : forall c, in_ranges (perl_table digits spaces words p) c = perl_has (in_ranges digits) (in_ranges spaces) (in_ranges words) p c)
        by (intros c; destruct p; reflexivity).
      split; [destruct n; [apply ok_gaps|exact Hp]|]. intros c Hc. cbn [Regex.item_has]. rewrite <- Hh. destruct n; [|now rewrite Bool.xorb_false_l].
      rewrite in_negate by assumption. now destruct (in_ranges _ c).
  Qed.
  Lemma class_ranges_spec k : class_ok k -> ranges_ok (class_ranges digits spaces words k) /\
    forall c, scalar c -> in_ranges (class_ranges digits spaces words k) c = class_has k c.
  Proof.
    destruct k as [neg l]. unfold class_ok, class_ranges, Regex.class_has. cbn [cl_items cl_negated]. intros Hl.
    assert (H : ranges_ok (flat_map (item_ranges digits spaces words) l) /\
      forall c, scalar c -> in_ranges (flat_map (item_ranges digits spaces words) l) c = existsb (fun i => item_has i c) l).
    { induction Hl as [|i l Hi Hl [IH1 IH2]]; [split; [constructor|reflexivity]|]. apply item_ranges_spec in Hi as [H1 H2]. cbn [flat_map].
      split; [now apply Forall_app|]. intros c Hc. rewrite in_app. cbn [existsb]. now rewrite H2, IH2. }
    destruct H as [H1 H2]. split; [destruct neg; [apply ok_gaps|now apply ok_canonical]|]. intros c Hc. rewrite <- H2 by exact Hc.
    destruct neg; [|rewrite Bool.xorb_false_l; now apply in_canonical].
    rewrite in_negate by assumption. now destruct (in_ranges _ c).
  Qed.
  Lemma dot_equiv : equiv (unhir (h_class [(0, 9); (11, char_max)])) RDot.
  Proof.
    apply equiv_free; [reflexivity|reflexivity|]. intros p m q Hm. cbn [h_class unhir]. split.
    - inversion 1; subst. constructor. rewrite class_of_has in *.
      match goal with H : in_ranges _ _ = true |- _ => apply existsb_exists in H as ([a b] & [[= <- <-]|[[= <- <-]|[]]] & H) end;
        cbn [fst snd] in *; rewrite andb_true_iff, !N.leb_le in *; lia.
    - inversion 1; subst. constructor. rewrite class_of_has. inversion_clear Hm as [|? ? [Hc _] _]. apply existsb_exists.
      destruct (N.ltb_spec c 10); [exists (0, 9)|exists (11, char_max)]; cbn [In fst snd]; rewrite andb_true_iff, !N.leb_le; split; auto; lia.
  Qed.
  Definition branches_ok (r : re) (i : N) (l : list hir) (j : N) : Prop :=
    Forall hir_ok l /\ equiv (alt_of l) r /\
    flat_map caps l = combine (upto i (List.length (groups r))) (marks r) /\ j = i + N.of_nat (List.length (groups r)).
  Lemma branches_one r i h j : hir_ok h -> equiv (unhir h) r ->
    caps h = combine (upto i (List.length (groups r))) (marks r) -> j = i + N.of_nat (List.length (groups r)) -> branches_ok r i [h] j.
  Proof.
    intros H1 H2 H3 H4. split; [now repeat constructor|]. split; [eapply trans; [apply ralt_one|exact H2]|].
    split; [cbn; now rewrite app_nil_r|exact H4].
  Qed.
  Lemma combine_fst {A B} (l : list A) (m : list B) : List.length l = List.length m -> map fst (combine l m) = l.
  Proof. revert m. induction l as [|x l IH]; intros [|y m]; cbn; try easy. intros [= H]. now rewrite IH. Qed.
  Lemma combine_snd {A B} (l : list A) (m : list B) : List.length l = List.length m -> map snd (combine l m) = m.
  Proof. revert m. induction l as [|x l IH]; intros [|y m]; cbn; try easy. intros [= H]. now rewrite IH. Qed.
  Lemma combine_app {A B} (l l' : list A) (m m' : list B) : List.length l = List.length m ->
    combine (l ++ l') (m ++ m') = combine l m ++ combine l' m'.
  Proof. revert m. induction l as [|x l IH]; intros [|y m]; cbn; try easy. intros [= H]. now rewrite IH. Qed.
  Lemma combine_hide {A} (l : list A) (m : list (option str * bool)) : map hide (combine l m) = combine l (map (fun x => (fst x, false)) m).
  Proof. revert m. induction l as [|x l IH]; intros [|y m]; cbn; try easy. now rewrite IH. Qed.
  Lemma branches_join r i l j : branches_ok r i l j ->
    hir_ok (join_alts l) /\ equiv (unhir (join_alts l)) r /\ caps (join_alts l) = combine (upto i (List.length (groups r))) (marks r).
  Proof.
    intros (H1 & H2 & H3 & H4). destruct (join_alts_spec digits spaces words l) as (J1 & J2 & J3).
    - rewrite H3, combine_fst; [apply upto_NoDup|]. now rewrite upto_length, marks_length.
    - exact H1.
    - split; [exact J2|]. split; [eapply trans; [exact J1|exact H2]|]. now rewrite J3.
  Qed.
  Lemma tame_not_empty r h : equiv (unhir h) r -> (exists p m q c, m <> [] /\ Forall scalar m /\ rm r p m q c) -> only_empty h = false.
  Proof.
    intros He (p & m & q & c & Hm & Hs & Hr). destruct (only_empty h) eqn:E; [|reflexivity]. exfalso. apply Hm.
    eapply (only_empty_spec digits spaces words h E). apply He; eassumption.
  Qed.
  Lemma branches_spec r : re_ok r -> tame r -> forall i, let '(l, j) := branches digits spaces words r i in branches_ok r i l j.
  Proof.
    induction r as [|c| |k|l|min max g r IH|n r IH|a IHa b IHb|a IHa b IHb]; intros Hok Ht i; cbn [branches].
    - apply branches_one; [exact I|apply refl|reflexivity|cbn; lia].
    - apply branches_one; [exact I|apply refl|reflexivity|cbn; lia].
    - apply branches_one; [|apply dot_equiv|reflexivity|cbn; lia]. cbn. repeat constructor; cbn; unfold char_max; lia.
    - destruct (class_ranges_spec k Hok) as [H1 H2]. apply branches_one; [now apply ok_h_class| |apply caps_class|cbn; lia].
      eapply trans; [apply h_class_equiv|]. apply equiv_class. intros c Hc. rewrite class_of_has. now apply H2.
    - apply branches_one; [exact I|apply refl|reflexivity|cbn; lia].
    - destruct Hok as [Hr Hok], Ht as [Ht Hb]. specialize (IH Hok Ht i). destruct (branches digits spaces words r i) as [l j].
      pose proof IH as (_ & _ & _ & ->). apply branches_join in IH as (H1 & H2 & H3).
      assert (Hc : caps (join_alts l) = [] \/ only_empty (join_alts l) = false /\ max <> Some 0).
      { destruct Hb as [Hb|[Hb Hb']]; [left|right; split; [eapply tame_not_empty; eassumption|exact Hb]].
        rewrite H3, Hb. reflexivity. }
      apply branches_one; [now apply ok_repetition| | |reflexivity].
      + rewrite no_caps in Hc. eapply trans; [apply h_repetition_equiv; [|exact Hc]|].
        * revert Hr. cbv beta iota delta [rep_ok u32_max]. destruct max; [lia|trivial].
        * now apply equiv_rep.
      + rewrite repetition_caps by exact Hc. cbn [marks groups]. destruct (_ && _); [exact H3|]. now rewrite H3, combine_hide.
    - destruct Hok as [Hn Hok]. specialize (IH Hok Ht (i + 1)). destruct (branches digits spaces words r (i + 1)) as [l j].
      pose proof IH as (_ & _ & _ & ->). apply branches_join in IH as (H1 & H2 & H3).
      apply branches_one; [now split|now apply equiv_cap|cbn; now rewrite H3|cbn [groups List.length]; lia].
    - destruct Hok as [Ha Hb], Ht as [Ta Tb]. specialize (IHa Ha Ta i). destruct (branches digits spaces words a i) as [l j].
      pose proof IHa as (_ & _ & _ & ->). apply branches_join in IHa as (A1 & A2 & A3).
      specialize (IHb Hb Tb (i + N.of_nat (List.length (groups a)))). destruct (branches digits spaces words b _) as [m j].
      pose proof IHb as (_ & _ & _ & ->). apply branches_join in IHb as (B1 & B2 & B3).
      apply branches_one.
      + apply ok_h_concat. now repeat constructor.
      + eapply trans; [apply h_concat_equiv|]. cbn [map mk_cat]. now apply equiv_cat.
      + rewrite caps_concat. cbn [flat_map groups marks]. rewrite app_nil_r, A3, B3, app_length, upto_app.
        symmetry. apply combine_app. now rewrite upto_length, marks_length.
      + cbn [groups]. rewrite app_length. lia.
    - destruct Hok as [Ha Hb], Ht as [Ta Tb]. specialize (IHa Ha Ta i). destruct (branches digits spaces words a i) as [l j].
      pose proof IHa as (_ & _ & _ & ->). apply branches_join in IHa as (A1 & A2 & A3).
      specialize (IHb Hb Tb (i + N.of_nat (List.length (groups a)))). destruct (branches digits spaces words b _) as [m j].
      destruct IHb as (B1 & B2 & B3 & ->). split; [now constructor|]. split; [|split].
      + cbn [map ralt fold_right]. now apply equiv_alt.
      + cbn [flat_map groups marks]. rewrite A3, B3, app_length, upto_app. symmetry. apply combine_app. now rewrite upto_length, marks_length.
      + cbn [groups]. rewrite app_length. lia.
  Qed.
  Lemma translate_spec r : re_ok r -> tame r -> let h := translate digits spaces words r in
    hir_ok h /\ equiv (unhir h) r /\ NoDup (map fst (caps h)) /\ map snd (caps h) = marks r.
  Proof.
    intros Hok Ht. pose proof (branches_spec r Hok Ht 1) as H. unfold translate. destruct (branches digits spaces words r 1) as [l j].
    cbn [fst]. apply branches_join in H as (H1 & H2 & H3). split; [exact H1|]. split; [exact H2|].
    assert (List.length (upto 1 (List.length (groups r))) = List.length (marks r)) by now rewrite upto_length, marks_length.
    rewrite H3, combine_fst, combine_snd by assumption. split; [apply upto_NoDup|reflexivity].
  Qed.

  (** ** The module [regex_hir] *)
  (** The groups without a repetition around get the names [__id_k], [__id_(k+1)] and so on. *)
  Fixpoint relabel (id k : N) (l : list (option str * bool)) : list (option str * bool) :=
    match l with
    | [] => []
    | (n, true) :: l' => (Some (group_name id k), true) :: relabel id (k + 1) l'
    | (n, false) :: l' => (n, false) :: relabel id k l'
    end.
  Fixpoint visible (l : list (option str * bool)) : N :=
    match l with [] => 0 | (_, b) :: l' => (if b then 1 else 0) + visible l' end.
  Lemma relabel_app id l l' : forall k, relabel id k (l ++ l') = relabel id k l ++ relabel id (k + visible l) l'.
  Proof.
    induction l as [|[n []] l IH]; intros k; cbn [relabel visible app]; [now rewrite N.add_0_r| |].
    - rewrite IH. do 3 f_equal. lia.
    - rewrite IH. reflexivity.
  Qed.
  Lemma visible_app l l' : visible (l ++ l') = visible l + visible l'.
  Proof. induction l as [|[n b] l IH]; cbn [app visible]; [lia|]. rewrite IH. lia. Qed.
  Lemma visible_hidden {A} (l : list (A * (option str * bool))) : visible (map snd (map hide l)) = 0.
  Proof. induction l as [|[i [n b]] l IH]; cbn in *; [reflexivity|]. exact IH. Qed.
  Lemma relabel_hidden {A} id k (l : list (A * (option str * bool))) : relabel id k (map snd (map hide l)) = map snd (map hide l).
  Proof. induction l as [|[i [n b]] l IH]; cbn in *; [reflexivity|]. now rewrite IH. Qed.
  Lemma has_capture_groups_spec h : has_capture_groups h = negb (visible (map snd (caps h)) =? 0).
  Proof.
    assert (Hl : forall l, Forall (fun h => has_capture_groups h = negb (visible (map snd (caps h)) =? 0)) l ->
      existsb has_capture_groups l = negb (visible (map snd (flat_map caps l)) =? 0)).
    { induction 1 as [|x l Hx Hl IH]; [reflexivity|]. cbn [existsb flat_map]. rewrite map_app, visible_app, Hx, IH.
      destruct (N.eqb_spec (visible (map snd (caps x))) 0), (N.eqb_spec (visible (map snd (flat_map caps l))) 0),
        (N.eqb_spec (visible (map snd (caps x)) + visible (map snd (flat_map caps l))) 0); cbn; try reflexivity; lia. }
    induction h as [|t|k|l|a b g h IH|i n h IH|l IH|l IH] using hir_ind'; cbn [has_capture_groups caps]; try reflexivity.
    - now rewrite visible_hidden.
    - cbn [map visible snd]. destruct (N.eqb_spec (1 + visible (map snd (caps h))) 0); [lia|reflexivity].
    - now apply Hl.
    - now apply Hl.
  Qed.
  Definition rename_ok (id : N) (h : hir) (k : N) (h' : hir) (j : N) : Prop :=
    hir_ok h' /\ equiv (unhir h') (unhir h) /\ map fst (caps h') = map fst (caps h) /\
    map snd (caps h') = relabel id k (map snd (caps h)) /\ j = k + visible (map snd (caps h)).
  Definition rename_all (id : N) : list hir -> N -> list hir * N :=
    fix rename_all (l : list hir) (indexer : N) : list hir * N :=
      match l with
      | [] => ([], indexer)
      | x :: l' =>
          let '(y, i) := rename_groups_inner id x indexer in
          let '(m, j) := rename_all l' i in
          (y :: m, j)
      end.
  Lemma name_ok_group id k : name_ok (Some (group_name id k)).
  Proof.
    split; [apply group_name_nonempty|]. intros s. destruct (group_name_readable id k [] s) as (a & H & ->). now rewrite H, app_nil_r.
  Qed.
  Lemma NoDup_app_l {A} (l l' : list A) : NoDup (l ++ l') -> NoDup l /\ NoDup l'.
  Proof. induction l; cbn; [split; [constructor|assumption]|]. inversion_clear 1 as [|? ? H1 H2]. apply IHl in H2 as [H2 H3]. split; [|exact H3]. constructor; [|exact H2]. intros H. apply H1, in_or_app. now left. Qed.
  Lemma rename_spec id h : hir_ok h -> NoDup (map fst (caps h)) -> forall k,
    let '(h', j) := rename_groups_inner id h k in rename_ok id h k h' j.
  Proof.
    revert h.
    assert (Hall : forall l, Forall (fun h => hir_ok h -> NoDup (map fst (caps h)) -> forall k,
        let '(h', j) := rename_groups_inner id h k in rename_ok id h k h' j) l ->
      Forall hir_ok l -> NoDup (map fst (flat_map caps l)) -> forall k, let '(m, j) := rename_all id l k in
        Forall hir_ok m /\ Forall2 equiv (map unhir m) (map unhir l) /\ map fst (flat_map caps m) = map fst (flat_map caps l) /\
        map snd (flat_map caps m) = relabel id k (map snd (flat_map caps l)) /\ j = k + visible (map snd (flat_map caps l)) /\ (m = [] <-> l = [])).
    { induction 1 as [|h l Hh Hl IH]; intros Hok Hn k.
      - cbn. repeat split; auto; try constructor; try lia.
      - inversion_clear Hok as [|? ? Ho1 Ho2]. cbn [flat_map] in Hn. rewrite map_app in Hn. apply NoDup_app_l in Hn as [Hn1 Hn2].
        specialize (Hh Ho1 Hn1 k). cbn [rename_all]. destruct (rename_groups_inner id h k) as [h' i]. destruct Hh as (R1 & R2 & R3 & R4 & ->).
        specialize (IH Ho2 Hn2 (k + visible (map snd (caps h)))). fold (rename_all id). destruct (rename_all id l _) as [m j].
        destruct IH as (L1 & L2 & L3 & L4 & -> & L6). cbn [flat_map map]. split; [now constructor|]. split; [now constructor|].
        rewrite !map_app. split; [congruence|]. split; [|split; [rewrite visible_app; lia|easy]]. rewrite relabel_app. congruence. }
    intros h. induction h as [|t|c|l|a b g h IH|i n h IH|l IH|l IH] using hir_ind'; intros Hok Hn k; cbn [rename_groups_inner].
    - split; [exact I|]. split; [apply refl|]. repeat split. cbn. lia.
    - split; [now destruct t|]. split; [rewrite h_literal_equiv; apply refl|]. destruct t; repeat split; cbn; lia.
    - split; [now apply ok_h_class|]. split; [apply h_class_equiv|]. rewrite caps_class. repeat split. cbn. lia.
    - split; [exact I|]. split; [apply refl|]. repeat split. cbn. lia.
    - destruct Hok as [[Hr Hs] Hok]. split; [now apply ok_repetition|]. rewrite Hs. split; [apply refl|].
      cbn [caps]. rewrite relabel_hidden, visible_hidden. repeat split. lia.
    - destruct Hok as [Hname Hok]. cbn [caps map fst] in Hn. inversion_clear Hn as [|? ? Hn1 Hn2]. specialize (IH Hok Hn2 (k + 1)).
      destruct (rename_groups_inner id h (k + 1)) as [h' j]. destruct IH as (R1 & R2 & R3 & R4 & ->). split; [split; [apply name_ok_group|exact R1]|].
      split; [now apply equiv_cap|]. cbn [caps map fst snd relabel visible]. split; [now rewrite R3|]. split; [now rewrite R4|lia].
    - rewrite ok_cat in Hok. specialize (Hall l IH Hok Hn k). fold (rename_all id). destruct (rename_all id l k) as [m j].
      destruct Hall as (L1 & L2 & L3 & L4 & -> & L6). split; [now apply ok_h_concat|].
      split; [eapply trans; [apply h_concat_equiv|]; now apply mk_cat_ext|]. rewrite caps_concat. auto.
    - rewrite ok_alt in Hok. destruct Hok as [Hne Hok]. specialize (Hall l IH Hok Hn k). fold (rename_all id). destruct (rename_all id l k) as [m j].
      destruct Hall as (L1 & L2 & L3 & L4 & -> & L6). cbn [caps] in Hn. rewrite <- L3 in Hn.
      destruct (h_alternation_spec digits spaces words (hir_size (HAlt m)) m Hn L1) as (J1 & J2 & J3).
      split; [exact J2|]. split; [eapply trans; [exact J1|]; now apply ralt_ext|]. unfold h_alternation. rewrite J3. auto.
  Qed.
End Meaning.
